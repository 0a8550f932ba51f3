(** Property theorems C15-C22, C34, C35 (searches, components, topological order). *)
From Verif Require Import Prelude PreludeFacts Base BaseFacts BaseFacts2 BaseFacts3 Spec SpecFacts Loop SearchFacts
  BaseAlg BaseAlgFacts Bfs BfsFacts Dfs DfsFacts Topo TopoFacts.

Section P.
Context {A O V : Type} {EA : EqDec A}.
Notation graph := (graph A O V).
Implicit Types (g : graph) (a b x y : A).

(** C15 *)
Theorem C15_is_connected_exact g a b : reachable g ->
  exists r, returns (fun n => is_connected n g a b) (Ok r) /\ (r = true <-> reach1 (has_edge g) a b).
Proof. intros H. apply is_connected_spec, reachable_wf, H. Qed.

(** C16; [pick] is the element set.pop() removes. *)
Theorem C16_components_partition g pick : reachable g -> (forall i l, l <> [] -> In (pick i l) l) ->
  exists cs, returns (fun n => components pick n g) (Ok cs) /\
    (forall x, In x (nodes g) <-> exists c, In c cs /\ In x c) /\
    ForallOrdPairs (fun c d => forall x, In x c -> ~ In x d) cs /\
    (forall c, In c cs -> c <> [] /\ NoDup c /\
       forall x, In x c -> forall y, In y c <-> reach (sym (has_edge g)) x y).
Proof. intros H Hp. apply components_spec; [apply reachable_wf, H|exact Hp]. Qed.

(** C17; [ord] is the order in which a set is iterated over. *)
Theorem C17_network_size_ball g a k ord : reachable g -> contains g a = true ->
  (forall i l, Permutation (ord i l) l) ->
  (exists N, returns (fun n => network_size ord n g a None) (Ok N) /\ NoDup N /\
     forall x, In x N <-> reach (has_edge g) a x) /\
  ((0 <= k)%Z ->
   exists N, returns (fun n => network_size ord n g a (Some k)) (Ok N) /\ NoDup N /\
     forall x, In x N <-> exists m, m <= Z.to_nat k /\ steps (has_edge g) m a x).
Proof. intros H Ha Ho. apply reachable_wf in H. apply contains_In in Ha. split.
  - apply (network_size_spec ord g a None H Ho Ha I).
  - intros Hk. apply (network_size_spec ord g a (Some k) H Ho Ha Hk). Qed.
Theorem C17_network_size_bad_node g a k ord n : contains g a = false -> network_size ord n g a k = Err ValueError.
Proof. intros H. unfold network_size. rewrite H. reflexivity. Qed.

(** C18 *)
Theorem C18_bfs_shortest g a b : reachable g -> contains g a = true -> contains g b = true ->
  exists p, returns (fun n => breadth_first_search n g a b) (Ok p) /\
    (p <> [] -> path (has_edge g) a p b /\ forall q, path (has_edge g) a q b -> length p <= length q) /\
    (p = [] <-> ~ reach (has_edge g) a b).
Proof. intros H Ha Hb. apply reachable_wf in H. apply contains_In in Ha, Hb.
  destruct (bfs_spec g a b H Ha Hb) as (p & Hr & Hp). exists p. split; [exact Hr|].
  destruct Hp as [(n & Hne & Hpath & Hl & [_ Hmin])|[-> Hnr]].
  - split; [intros _; split; [exact Hpath|]|].
    + intros q Hq. destruct (path_head _ _ _ _ Hq) as (t & ->). specialize (Hmin (length t)). cbn.
      assert (n <= length t); [|lia]. apply Hmin, steps_path. exists (a :: t). auto.
    + split; [congruence|]. intros C. exfalso. apply C. exists p. exact Hpath.
  - split; [congruence|]. tauto. Qed.
Theorem C18_bfs_bad_nodes g a b n : contains g a = false \/ contains g b = false -> breadth_first_search n g a b = Err ValueError.
Proof. unfold breadth_first_search. intros [-> | ->]; [reflexivity|]. destruct (negb (contains g a)); reflexivity. Qed.

(** C19: [R] is the edge relation in walking direction. *)
Theorem C19_bfs_walk g a reversed : reachable g -> contains g a = true ->
  let R := fun x y => if reversed : bool then has_edge g y x else has_edge g x y in
  exists full, returns (fun n => breadth_first_walk n g a None reversed) (Ok full) /\
    NoDup full /\ (exists t, full = a :: t) /\ (forall x, In x full <-> reach R a x) /\
    (forall l1 x l2 y l3 n m, full = l1 ++ x :: l2 ++ y :: l3 -> hops R a x n -> hops R a y m -> n <= m) /\
    (forall e, contains g e = true ->
       (~ In e full -> returns (fun n => breadth_first_walk n g a (Some e) reversed) (Ok full)) /\
       (forall l1 l2, full = l1 ++ e :: l2 -> ~ In e l1 ->
          returns (fun n => breadth_first_walk n g a (Some e) reversed) (Ok (l1 ++ [e])))).
Proof. intros H Ha R. apply reachable_wf in H. apply contains_In in Ha.
  destruct (bfw_spec g a reversed H Ha) as (full & H1 & H2 & H3 & H4 & H5 & H6). exists full. splits; auto.
  intros e He. apply contains_In in He. auto. Qed.

(** C20 *)
Theorem C20_degree_of_separation g a b : reachable g -> contains g a = true -> contains g b = true ->
  exists z, returns (fun n => degree_of_separation n g a b) (Ok z) /\
    ((exists n, z = Z.of_nat n /\ hops (has_edge g) a b n) \/ (z = (-1)%Z /\ ~ reach (has_edge g) a b)).
Proof. intros H Ha Hb. apply reachable_wf in H. pose proof Ha as Ca. pose proof Hb as Cb. apply contains_In in Ha, Hb.
  destruct (bfs_spec g a b H Ha Hb) as (p & Hr & Hp). exists (Z.of_nat (length p) - 1)%Z. split.
  - unfold degree_of_separation. rewrite Ca, Cb. cbn [negb]. apply (returns_bind_ok _ (fun p => (Z.of_nat (length p) - 1)%Z) p Hr).
  - destruct Hp as [(n & Hne & Hpath & Hl & Hh)|[-> Hnr]]; [left; exists n; split; [lia|exact Hh]|right; split; [reflexivity|exact Hnr]]. Qed.
Theorem C20_same_node g a : reachable g -> contains g a = true -> returns (fun n => degree_of_separation n g a a) (Ok 0%Z).
Proof. intros H Ha. destruct (C20_degree_of_separation g a a H Ha Ha) as (z & Hr & [(n & -> & Hh)|[_ Hn]]).
  - assert (n = 0) as -> by (assert (n <= 0) by (apply Hh; constructor); lia). exact Hr.
  - exfalso. apply Hn, reach_refl. Qed.

(** C21 *)
Theorem C21_dfs_sound_complete g a b : reachable g -> contains g a = true -> contains g b = true ->
  exists r, returns (fun n => depth_first_search n g a b) (Ok r) /\
    (forall p, r = Some p -> path (has_edge g) a p b /\ NoDup p) /\
    (r = None <-> ~ reach (has_edge g) a b).
Proof. intros H Ha Hb. apply reachable_wf in H. apply contains_In in Ha, Hb.
  destruct (dfs_spec g a b H Ha Hb) as (r & Hr & Hs). exists r. split; [exact Hr|]. destruct r as [p|].
  - split; [intros q E; inv E; exact Hs|]. split; [discriminate|]. intros C. exfalso. apply C. destruct Hs as [Hs _]. exists p. exact Hs.
  - split; [discriminate|tauto]. Qed.
Theorem C21_dfs_bad_nodes g a b n : contains g a = false \/ contains g b = false -> depth_first_search n g a b = Err ValueError.
Proof. unfold depth_first_search. intros [-> | ->]; [reflexivity|]. destruct (negb (contains g a)); reflexivity. Qed.

(** C22: the nodes reachable by walks on which every node but the last satisfies the criteria. *)
Theorem C22_depth_scan_exact g a crit : reachable g -> contains g a = true ->
  (crit a = false -> forall n, depth_scan n g a crit = Ok []) /\
  (crit a = true -> exists r, returns (fun n => depth_scan n g a crit) (Ok r) /\ NoDup r /\
     forall x, In x r <-> exists p, path (has_edge g) a (p ++ [x]) x /\ forall y, In y p -> crit y = true).
Proof. intros H Ha. split.
  - intros Hc n. unfold depth_scan. rewrite Ha, Hc. reflexivity.
  - intros Hc. apply reachable_wf in H. apply contains_In in Ha. destruct (depth_scan_spec g a crit H Ha Hc) as (r & Hr & Hn & Hx).
    exists r. splits; auto. intros x. rewrite Hx. split.
    + intros [p Hp]. exists (removelast p).
      assert (p <> []) as Hne by (intros ->; exact (path_nonempty _ _ _ Hp)).
      assert (p = removelast p ++ [x]) as E by (rewrite (app_removelast_last x Hne) at 1; rewrite (path_last _ _ _ _ x Hp); reflexivity).
      rewrite <- E. split.
      * eapply path_mono; [|exact Hp]. cbn. tauto.
      * clear - Hp E. remember (removelast p) as q. clear Heqq. subst p. intros y Hy. apply in_split in Hy. destruct Hy as (l1 & l2 & ->).
        rewrite <- app_assoc in Hp. apply path_split in Hp. destruct Hp as [_ Hp]. destruct l2 as [|z l2]; cbn in Hp;
        apply path_inv2 in Hp; destruct Hp as (_ & [? _] & _); assumption.
    + intros (p & Hp & Hcr). exists (p ++ [x]). clear - Hp Hcr. revert a Hp. induction p as [|y p IH]; intros a Hp.
      * cbn in *. apply path_inv1 in Hp. destruct Hp as [-> _]. constructor.
      * destruct p as [|z p]; cbn in Hp |- *.
        -- apply path_inv2 in Hp. destruct Hp as (-> & HR & Hp). econstructor; [split; [apply Hcr; cbn; auto|exact HR]|constructor].
        -- apply path_inv2 in Hp. destruct Hp as (-> & HR & Hp). econstructor; [split; [apply Hcr; cbn; auto|exact HR]|].
           apply IH; [intros; apply Hcr; cbn; auto|exact Hp]. Qed.

(** C34; [cl] is the class of the graph object; [srt] is sorted(., key=key) for an arbitrary key. *)
Theorem C34_topological_sort (cl : gclass) g srt : reachable g -> (forall l, Permutation (srt l) l) ->
  exists out err, returns (fun n => topological_sort_of cl srt n g) (Ok (out, err)) /\
    (* what was yielded is duplicate free and every predecessor of a yielded node was yielded before it *)
    NoDup out /\ incl out (nodes g) /\
    (forall l1 y l2, out = l1 ++ y :: l2 -> forall x, has_edge g x y -> In x l1) /\
    (* acyclic: all nodes; cyclic: AttributeError *)
    (acyclic (has_edge g) -> err = None /\ Permutation out (nodes g)) /\
    (~ acyclic (has_edge g) -> err = Some AttributeError).
Proof. intros H Hs. apply reachable_wf in H. destruct (topological_sort_of_spec cl srt g H Hs) as (out & err & H1 & H2 & H3 & H4 & H5).
  exists out, err. splits; auto.
  - intros Hac. destruct H5 as [(-> & _ & Hp)|(_ & x & _ & _ & Hx)]; [auto|]. exfalso. apply (Hac x Hx).
  - intros Hnc. destruct H5 as [(_ & Hac & _)|(-> & _)]; [tauto|reflexivity]. Qed.

(** C35 *)
Theorem C35_has_cycles_exact (cl : gclass) g srt : reachable g -> (forall l, Permutation (srt l) l) ->
  exists r, returns (fun n => has_cycles_of cl srt n g) (Ok r) /\ (r = true <-> exists a, reach1 (has_edge g) a a).
Proof. intros H Hs. apply has_cycles_of_spec; [apply reachable_wf, H|exact Hs]. Qed.
End P.

(** C22: a node rejected by criteria is in the result (the README says otherwise). *)
Theorem C22_rejected_frontier_returned : exists (g : graph nat unit Z) crit, reachable g /\
  exists r, depth_scan 20 g 1 crit = Ok r /\ In 2 r /\ crit 2 = false.
Proof. exists (ok_or empty_graph (run [OpAddEdge 1 2 1%Z false])), (fun x => Nat.eqb x 1). split; [apply reachable_run|].
  eexists. split; [vm_compute; reflexivity|]. cbn; auto. Qed.

(** Hypotheses are satisfiable: a graph with a cycle, a diamond, a self loop and an isolated node. *)
Definition ex_g : graph nat nat Z := ok_or empty_graph (run
  [OpAddEdge 1 2 1%Z false; OpAddEdge 2 3 1%Z false; OpAddEdge 3 1 1%Z false; OpAddEdge 1 4 1%Z false; OpAddEdge 4 5 1%Z true;
   OpAddEdge 5 5 1%Z false; OpAddNode 9 None; OpAddEdge 7 8 2%Z false]).
Definition ex_dag : graph nat nat Z := ok_or empty_graph (run
  [OpAddEdge 1 2 1%Z false; OpAddEdge 2 4 1%Z false; OpAddEdge 1 3 1%Z false; OpAddEdge 3 4 1%Z false; OpAddNode 9 None]).
Example ex_g_ok : reachable ex_g /\ contains ex_g 1 = true /\ contains ex_g 5 = true /\ reachable ex_dag.
Proof. splits; try apply reachable_run; vm_compute; reflexivity. Qed.
Example ex_search : breadth_first_search 50 ex_g 2 5 = Ok [2; 3; 1; 4; 5] /\ breadth_first_search 50 ex_g 4 1 = Ok [] /\
  breadth_first_walk 50 ex_g 1 None false = Ok [1; 2; 4; 3; 5] /\ degree_of_separation 50 ex_g 2 5 = Ok 4%Z /\
  depth_first_search 50 ex_g 1 5 = Ok (Some [1; 4; 5]) /\ is_connected 50 ex_g 1 1 = Ok true /\ is_connected 50 ex_g 9 9 = Ok false /\
  network_size (fun _ l => l) 50 ex_g 1 (Some 1%Z) = Ok [1; 2; 4] /\
  components (fun _ l => hd 0 l) 50 ex_g = Ok [[1; 2; 4; 3; 5]; [9]; [7; 8]] /\
  depth_scan 50 ex_g 1 (fun x => negb (Nat.eqb x 4)) = Ok [1; 2; 3; 4] /\
  topological_sort (fun l => l) 50 ex_dag = Ok ([1; 9; 2; 3; 4], None) /\
  topological_sort (fun l => l) 50 ex_g = Ok ([9; 7; 8], Some AttributeError) /\
  has_cycles (fun l => l) 50 ex_g = Ok true /\ has_cycles (fun l => l) 50 ex_dag = Ok false.
Proof. vm_compute. splits; reflexivity. Qed.
Example ex_oracles : (forall i (l : list nat), l <> [] -> In ((fun (_ : nat) l => hd 0 l) i l) l) /\ (forall l : list nat, Permutation ((fun l => rev l) l) l).
Proof. split; [intros _ [|x l] H; [congruence|cbn; auto]|intros l; symmetry; apply Permutation_rev]. Qed.
