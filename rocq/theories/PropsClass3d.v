(** Property theorem C85: functions of the package on objects of class Graph3D. *)
From Verif Require Import Prelude PreludeFacts Base BaseFacts BaseFacts2 BaseFacts3 Spec SpecFacts Loop SearchFacts BaseAlgFacts
  Sp Perms Tsp Dfs Hash Topo TopoFacts Dag DagFacts Cpm CpmFacts SlackFacts Assign Bfs Fw Traffic Jam Class3d.
From Coq Require Import Sorting.Permutation.

Section P.
Context {A O : Type} {EA : EqDec A}.
Notation graph := (graph A O Z).

(** solve_tsp(method='greedy') returns nothing on a Graph3D; '2023' returns only for less than 7 nodes, and then what it
    returns on a Graph *)
Theorem C85_tsp_refuted (g : graph) srt : exists e, tsp_greedy3 srt g = Err e /\ (e = TypeError <-> exists t, greedy srt g = Ok t).
Proof. unfold tsp_greedy3, greedy, distance_of. destruct (_ =? _); cbn [bind]; eexists; (split; [reflexivity|]).
  - split; [intros _; eexists; reflexivity|reflexivity].
  - split; [discriminate|intros (t & Ht); discriminate]. Qed.
Theorem C85_tsp_2023_refuted (g : graph) srt first n :
  (7 <= length (nodes g) -> exists e, tsp_2023_3 srt n g = Err e) /\
  (length (nodes g) < 7 -> tsp_2023_3 srt n g = tsp_2023 srt first n g).
Proof. unfold tsp_2023_3, tsp_2023. split; intros H.
  - replace (length (nodes g) <? 7) with false by (symmetry; apply Nat.ltb_ge, H). unfold greedy, distance_of. destruct (_ =? _); cbn [bind]; eexists; reflexivity.
  - replace (length (nodes g) <? 7) with true by (symmetry; apply Nat.ltb_lt, H). reflexivity. Qed.
(** ap_solver works on a Graph3D as on a Graph unless there are more agents than tasks; then it raises TypeError *)
Theorem C85_assignment_refuted (g : graph) srt fresh n :
  (length (nodes_in_degree g 0) <= length (nodes_out_degree g 0) -> ap_solver3 srt fresh n g = ap_solver srt fresh n g) /\
  (length (nodes_out_degree g 0) < length (nodes_in_degree g 0) -> edges g <> [] -> ap_solver3 srt fresh n g = Err TypeError).
Proof. unfold ap_solver3. split.
  - intros H. replace (_ <? _) with false by (symmetry; apply Nat.ltb_ge, H). destruct (map snd (edges g)) eqn:E; [|reflexivity]. unfold ap_solver. rewrite E. reflexivity.
  - intros H He. replace (_ <? _) with true by (symmetry; apply Nat.ltb_lt, H). destruct (edges g); [congruence|reflexivity]. Qed.
End P.

(** flow_graph_hash: with an edge out of a node without predecessor it raises AssertionError on a Graph3D *)
Theorem C85_flow_hash_refuted {A O V D} {EA : EqDec A} (hashf : A -> list D -> D) (g : graph A O V) s t :
  reachable g -> has_edge g s t -> (forall x, ~ has_edge g x s) ->
  returns (fun n => flow_graph_hash_of hashf IsGraph3D n g) (Err AssertionError).
Proof. intros R Hst Hsrc. pose proof (reachable_wf _ R) as W.
  assert (forall n, In n (nodes_in_degree g 0) <-> In n (dkeys (g_indeg g)) /\ forall x, ~ has_edge g x n) as Hz.
  { intros n. destruct (nodes_deg_list (g_indeg g) 0 (fun n => Z.of_nat (length (edges_to g n)))) as [_ K]; [apply W|intros m _; unfold edges_to; rewrite map_length; apply W|].
    unfold nodes_in_degree. rewrite K. split; intros [H1 H2]; (split; [exact H1|]).
    - intros x [v Hx]. assert (In (x, n, v) (edges_to g n)) as Hi by (apply (In_edges_to g n _ W); exists x, v; auto). destruct (edges_to g n); [destruct Hi|cbn in H2; lia].
    - destruct (edges_to g n) as [|[[a b] v] l] eqn:E; [reflexivity|]. exfalso.
      assert (In (a, b, v) (edges_to g n)) as Hi by (rewrite E; cbn; auto). apply (In_edges_to g n _ W) in Hi. destruct Hi as (a' & v' & _ & Hi). apply (H2 a'). exists v'. exact Hi. }
  assert (In s (nodes_in_degree g 0)) as Hs by (apply Hz; split; [apply (wf_ink g W), (has_edge_nodes g s t W Hst)|exact Hsrc]).
  assert (forall n, In n (nodes_in_degree g 0) -> forall x, ~ has_edge g x n) as Hno by (intros n Hn; apply Hz, Hn). unfold flow_graph_hash_of. revert Hs Hno. generalize (nodes_in_degree g 0) as l.
  assert (forall l (hg : Base.graph A (A * option D) Z), In s l -> (forall n, In n l -> forall x, ~ has_edge g x n) ->
    forall fuel n, (length l <= n -> loop n (fgh_step_of hashf IsGraph3D fuel g) (l, hg, []) = Err AssertionError) /\
      (loop n (fgh_step_of hashf IsGraph3D fuel g) (l, hg, []) = OutOfFuel \/ loop n (fgh_step_of hashf IsGraph3D fuel g) (l, hg, []) = Err AssertionError)) as G.
  { induction l as [|x l IH]; intros hg Hs Hno fuel n; [destruct Hs|]. destruct n as [|n]; [cbn [length loop]; split; [lia|auto]|].
    cbn [loop fgh_step_of length]. assert (nodes_to g x = []) as ->.
    { destruct (nodes_to g x) as [|y q] eqn:E; [reflexivity|]. exfalso. apply (Hno x (or_introl eq_refl) y). apply (In_to g y x W). rewrite E. cbn; auto. }
    cbn [foldM bind]. destruct (nodes_from g x) as [|y q] eqn:E.
    - cbn [foldM bind]. destruct (IH (add_node hg x (Some (x, Some (hashf x [])))) ) with (fuel := fuel) (n := n) as [I1 I2].
      + destruct Hs as [->|Hs]; [|exact Hs]. exfalso. apply (In_from g s t W) in Hst. rewrite E in Hst. destruct Hst.
      + intros m Hm. apply Hno. cbn; auto.
      + split; [intros H; apply I1; lia|exact I2].
    - cbn [foldM]. unfold fgh_receive_of at 1 2 3. cbn [mem existsb add_edge_no_value bind]. split; [intros _; reflexivity|right; reflexivity]. }
  intros l Hs Hno. hnf. splits; [discriminate|exists (length l); intros n Hn; apply (proj1 (G l empty_graph Hs Hno n n)), Hn|intros n; apply (proj2 (G l empty_graph Hs Hno n n))]. Qed.

(** critical_path_minimize_for_slack on a Graph3D: AssertionError or a graph that has lost the durations *)
Section M.
Context {A : Type} {EA : EqDec A}.
Notation graph := (graph A Z Z).
Theorem C85_slack_refuted (g : graph) srt ord : reachable g -> (forall l, Permutation (srt l) l) -> (forall i l, Permutation (ord i l) l) ->
  plan g -> acyclic (has_edge g) -> nodes g <> [] ->
  exists r, returns (fun n => minimize_for_slack3 srt ord n g) r /\
    (r = Err AssertionError \/ exists ng, r = Ok ng /\ (forall x, node ng x = None) /\ (forall x y, edge ng x y = edge g x y)).
Proof. intros R Hs Ho HP Hac Hne. pose proof (reachable_wf _ R) as W.
  destruct (critical_path_of_spec IsGraph3D srt g W Hs HP Hac) as (cpl & d & Hr & Hd).
  destruct (phase_lines_of_spec IsGraph3D g ord W Ho) as [[Hall _]|(_ & r0 & Hr0 & Hpost)].
  { exfalso. destruct (nodes g) as [|x0 l] eqn:En; [congruence|]. rewrite <- En in *.
    destruct (pred_cycle (has_edge g) (nodes g) x0) as (z & _ & Hz); [rewrite En; cbn; auto| |apply (Hac z Hz)].
    intros x Hx. destruct (Hall x Hx) as (y & Hy). exists y. split; [apply (has_edge_nodes g y x W Hy)|exact Hy]. }
  destruct Hpost as [(_ & u & v & _ & _ & Hb)|(phases & -> & Hk & _)]; [destruct (acyclic_not_behind _ v Hac Hb)|].
  destruct (copy3d_partial g R) as (ng & Ec & Nc & EEc & Oc & _).
  pose (sl := sort_desc (fun p : A * task => t_slack (snd p)) (filter (fun p => 0 <? t_slack (snd p))%Z d)).
  pose (ids := map fst sl). pose (ids2 := map fst (sort_desc (fun p : A * task => t_dur (snd p)) sl)).
  assert (forall x, In x ids -> In x (nodes g)) as Hids.
  { intros x Hx. apply in_map_iff in Hx. destruct Hx as (p & <- & Hp). apply in_sort_desc, filter_In in Hp. apply (Permutation_in _ (proj1 Hd)). apply (in_map fst), Hp. }
  assert (forall x, In x ids2 -> In x (nodes g)) as Hids2.
  { intros x Hx. apply in_map_iff in Hx. destruct Hx as (p & <- & Hp). apply in_sort_desc in Hp. apply Hids. apply (in_map fst), Hp. }
  assert (forall x, In x (nodes g) -> exists p, dget x phases = Some p) as Hph by (intros x Hx; rewrite <- Hk in Hx; apply dget_key, Hx).
  set (s0 := (ng, total_slack d, false)).
  assert (forall n1 l, In n1 (nodes g) -> (forall x, In x l -> In x (nodes g)) -> foldM (ms_try3 phases n1) l s0 = Ok s0 \/ foldM (ms_try3 phases n1) l s0 = Err AssertionError) as T.
  { intros n1 l H1. induction l as [|n2 l IH]; intros Hl; [left; reflexivity|]. cbn [foldM]. unfold s0 at 1 3. cbn [ms_try3]. fold s0.
    destruct (Hph n1 H1) as (p1 & ->). destruct (Hph n2) as (p2 & ->); [apply Hl; cbn; auto|].
    assert (forall x, In x l -> In x (nodes g)) as Hl' by (intros x Hx; apply Hl; cbn; auto). specialize (IH Hl').
    destruct (eqb n2 n1); [exact IH|]. destruct (negb (p1 <=? p2)%Z); [exact IH|]. destruct (negb _); [exact IH|]. destruct (negb _); [exact IH|]. right. reflexivity. }
  assert (forall l, (forall x, In x l -> In x (nodes g)) -> foldM (ms_node3 phases ids) l s0 = Ok s0 \/ foldM (ms_node3 phases ids) l s0 = Err AssertionError) as T2.
  { induction l as [|n1 l IH]; intros Hl; [left; reflexivity|]. cbn [foldM]. change (ms_node3 phases ids s0 n1) with (foldM (ms_try3 phases n1) ids s0).
    destruct (T n1 ids) as [-> | ->]; [apply Hl; cbn; auto|exact Hids| |right; reflexivity]. cbn [bind]. apply IH. intros x Hx. apply Hl. cbn; auto. }
  assert (forall r2, returns (fun n => bind (foldM (ms_node3 phases ids) ids2 s0) (fun s => let '(ng, slack, _) := s in foldM (ms_purge srt n g cpl slack) (edges ng) ng)) r2 ->
     returns (fun n => minimize_for_slack3 srt ord n g) r2) as Hwrap.
  { intros r2 H2. unfold minimize_for_slack3. refine (returns_bind _ (fun n r => _) (cpl, d) r2 Hr _).
    refine (returns_bind _ (fun n ph => _) phases r2 Hr0 _). cbn [copy_of]. rewrite Ec. exact H2. }
  destruct (T2 ids2 Hids2) as [E|E].
  - exists (Ok ng). split; [|right; exists ng; auto]. apply Hwrap. apply (returns_ext (fun _ => Ok ng)); [|apply returns_const; discriminate].
    intros n. rewrite E. unfold s0. cbn [bind].
    assert (forall l, (forall e, In e l -> In e (edges ng)) -> foldM (ms_purge srt n g cpl (total_slack d)) l ng = Ok ng) as P.
    { induction l as [|[[a b] w] l IH]; intros Hl; [reflexivity|]. cbn [foldM ms_purge].
      assert (wf ng) as Wn by (destruct (copy_of_spec IsGraph3D g W) as (h & Eh & Wh & _); cbn [copy_of] in Eh; congruence).
      assert (edge g a b = Some w) as -> by (rewrite <- EEc; apply (In_edges ng a b w Wn), Hl; cbn; auto). cbn [bind]. apply IH. intros e He. apply Hl. cbn; auto. }
    symmetry. apply P. auto.
  - exists (Err AssertionError). split; [|left; reflexivity]. apply Hwrap. apply (returns_ext (fun _ => Err AssertionError)); [|apply returns_const; discriminate]. intros n. rewrite E. reflexivity. Qed.
End M.

(** jam_solver never returns a list of moves on a Graph3D *)
Theorem C85_jam_refuted {L N O} {EL : EqDec L} {EN : EqDec N} ordN apsrt pick t0 n (g : graph N O Z) (raw : list (L * (N * option (list N) * option (list N)))) timeout r :
  jam_solver3 ordN apsrt pick t0 n g raw timeout <> Ok r.
Proof. unfold jam_solver3. destruct (check_user_input3 _ _ _ _ _ _); cbn [bind]; try discriminate. destruct (timer_new _ _); cbn [bind]; discriminate. Qed.

(** instances: a plan with two parallel tasks, node durations 2, 1, 2, 1 *)
Definition ops_c3 : list (op nat Z Z) := [OpAddNode 1 (Some 2%Z); OpAddNode 2 (Some 1%Z); OpAddNode 3 (Some 5%Z); OpAddNode 4 (Some 1%Z); OpAddEdge 1 2 1%Z false; OpAddEdge 1 3 1%Z false; OpAddEdge 1 4 1%Z false].
Definition g_c3 : graph nat Z Z := ok_or empty_graph (run ops_c3).
Example C85_example : reachable g_c3 /\ has_edge g_c3 1 2 /\ (forall x, ~ has_edge g_c3 x 1) /\ acyclic (has_edge g_c3) /\
  flow_graph_hash_of (fun x (l : list nat) => x + length l) IsGraph3D 10 g_c3 = Err AssertionError /\
  (exists h, flow_graph_hash_of (fun x (l : list nat) => x + length l) IsGraph 50 g_c3 = Ok h) /\
  minimize_for_slack3 (fun l => l) (fun _ l => l) 50 g_c3 = Err AssertionError /\
  (exists ng, critical_path_minimize_for_slack (fun l => l) (fun _ l => l) 50 g_c3 = Ok ng).
Proof. assert (reachable g_c3) as R by (exists ops_c3; vm_compute; reflexivity). pose proof (reachable_wf _ R) as W.
  assert (forall x y, has_edge g_c3 x y -> x = 1 /\ y <> 1) as H.
  { intros x y [v Hv]. destruct (edge_nodes _ _ _ _ W Hv) as [Hx Hy]. vm_compute in Hx, Hy.
    repeat destruct Hx as [<-|Hx]; try destruct Hx; repeat destruct Hy as [<-|Hy]; try destruct Hy; try (vm_compute in Hv; discriminate); split; auto; discriminate. }
  splits; [exact R|exists 1%Z; vm_compute; reflexivity|intros x Hx; apply H in Hx; tauto| |vm_compute; reflexivity|eexists; vm_compute; reflexivity|vm_compute; reflexivity|eexists; vm_compute; reflexivity].
  intros a (b & Hab & p & Hp). apply H in Hab. destruct Hab as [-> Hb]. destruct p as [|z p]; [inversion Hp|]. destruct p as [|z' p].
  - apply path_inv1 in Hp. destruct Hp; subst; congruence.
  - apply path_inv2 in Hp. destruct Hp as (-> & Hz & _). apply H in Hz. destruct Hz as [-> _]. congruence. Qed.
(** a square with diagonals and three more nodes: 7 nodes, a tour exists *)
Definition ops_k7 : list (op nat unit Z) := flat_map (fun i => map (fun j => OpAddEdge i j (Z.of_nat (i + j)) true) (seq (S i) (6 - i))) (seq 0 7).
Definition g_k7 : graph nat unit Z := ok_or empty_graph (run ops_k7).
Example C85_tsp_example : reachable g_k7 /\ length (nodes g_k7) = 7 /\ tsp_greedy3 (fun l => l) g_k7 = Err TypeError /\ (exists r, tsp_greedy (fun l => l) 50 g_k7 = Ok r) /\
  tsp_2023_3 (fun l => l) 50 g_k7 = Err TypeError.
Proof. splits; [exists ops_k7; vm_compute; reflexivity|vm_compute; reflexivity|vm_compute; reflexivity|eexists; vm_compute; reflexivity|vm_compute; reflexivity]. Qed.
(** one load, two nodes *)
Example C85_jam_example : let g := ok_or empty_graph (run (O := unit) [OpAddEdge 0 1 1%Z true]) in
  jam_solver3 (L := nat) (fun l => l) (fun l => l) (fun _ l => hd 0 l) 0%Z 50 g [(7, (0, Some [1], None))] None = Err TypeError /\
  jam_solver (fun l => l) (fun l => l) (fun l => l) (fun l => l) (fun _ l => hd 0 l) 0%Z (fun _ => 0%Z) 50 g [(7, (0, Some [1], None))] None true false = Ok [[(7, (0, 1))]].
Proof. vm_compute. split; reflexivity. Qed.
