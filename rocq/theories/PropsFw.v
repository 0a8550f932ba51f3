(** Property theorems C29-C33 (all-pairs distances, centres, distance maps). *)
From Verif Require Import Prelude PreludeFacts Base BaseFacts BaseFacts2 BaseFacts3 Spec SpecFacts Loop SearchFacts
  BaseAlgFacts SpFacts Fw FwFacts DmFacts TreeFacts PropsSp.
Local Open Scope Z_scope.

Section P.
Context {A O : Type} {EA : EqDec A}.
Notation graph := (graph A O Z).
Implicit Types (g : graph) (x y s : A).

(** C29: [eget m a b] is m[a][b] *)
Theorem C29_all_pairs_exact g : reachable g -> no_neg_cycle (edge g) ->
  (forall a b, contains g a = true -> contains g b = true -> exists d, eget (all_pairs_shortest_paths g) a b = Some d /\ dist (edge g) a b d) /\
  dkeys (all_pairs_shortest_paths g) = nodes g /\
  forall a row, dget a (all_pairs_shortest_paths g) = Some row -> dkeys row = nodes g.
Proof. intros H Hc. apply reachable_wf in H. destruct (fw_spec g H Hc) as (f & -> & Hd). splits.
  - intros a b Ha Hb. apply contains_In in Ha, Hb. exists (f a b). split; [|apply Hd; auto].
    unfold eget, mat. rewrite (dget_map (fun v1 => map (fun v3 => (v3, f v1 v3)) (nodes g)) _ a Ha). apply (dget_map (f a)). exact Hb.
  - apply dkeys_mat.
  - intros a row Hr. assert (In a (nodes g)) as Ha by (apply dget_Some_key in Hr; rewrite dkeys_mat in Hr; exact Hr).
    unfold mat in Hr. rewrite (dget_map (fun v1 => map (fun v3 => (v3, f v1 v3)) (nodes g)) _ a Ha) in Hr. inv Hr. apply dkeys_map. Qed.
(** reachability is what finiteness says *)
Theorem C29_finite_iff_reachable g a b d : reachable g -> no_neg_cycle (edge g) -> contains g a = true -> contains g b = true ->
  eget (all_pairs_shortest_paths g) a b = Some d -> (d <> Inf <-> reach (has_edge g) a b).
Proof. intros H Hc Ha Hb E. destruct (proj1 (C29_all_pairs_exact g H Hc) a b Ha Hb) as (d' & E' & Hd). rewrite E in E'. inv E'.
  destruct d' as [z|]; cbn in Hd.
  - split; [|discriminate]. intros _. destruct Hd as [(p & Hp) _]. exists p. apply wpath_path in Hp. exact Hp.
  - split; [congruence|]. intros (p & Hp). exfalso. destruct (path_wpath (edge g) a p b Hp) as (w & Hw). eapply Hd; eauto. Qed.

(** C30 *)
Theorem C30_adjacency_matrix_exact g a b : contains g a = true -> contains g b = true ->
  eget (adjacency_matrix g) a b = Some (if eq_dec a b then Fin 0 else match edge g a b with Some w => Fin w | None => Inf end).
Proof. intros Ha Hb. apply contains_In in Ha, Hb. rewrite adjacency_mat. unfold eget, mat.
  rewrite (dget_map (fun v1 => map (fun v3 => (v3, if eq_dec v1 v3 then Fin 0 else match edge g v1 v3 with Some w => Fin w | None => Inf end)) (nodes g)) _ a Ha).
  apply (dget_map (fun v3 => if eq_dec a v3 then Fin 0 else match edge g a v3 with Some w => Fin w | None => Inf end)). exact Hb. Qed.
Theorem C30_adjacency_matrix_keys g : dkeys (adjacency_matrix g) = nodes g /\ forall a row, dget a (adjacency_matrix g) = Some row -> dkeys row = nodes g.
Proof. rewrite adjacency_mat. split; [apply dkeys_mat|]. intros a row Hr.
  assert (In a (nodes g)) as Ha by (apply dget_Some_key in Hr; rewrite dkeys_mat in Hr; exact Hr).
  unfold mat in Hr. rewrite (dget_map (fun v1 => map (fun v3 => (v3, if eq_dec v1 v3 then Fin 0 else match edge g v1 v3 with Some w => Fin w | None => Inf end)) (nodes g)) _ a Ha) in Hr.
  inv Hr. apply (dkeys_map (fun v3 => if eq_dec a v3 then Fin 0 else match edge g a v3 with Some w => Fin w | None => Inf end)). Qed.

(** C31 *)
Theorem C31_minsum_exact g : reachable g -> no_neg_cycle (edge g) -> nodes g <> [] ->
  exists r, minsum g = Ok r /\ NoDup r /\
    forall x, In x r <-> contains g x = true /\ exists t, total_dist g x t /\ forall y t', contains g y = true -> total_dist g y t' -> ext_le t t'.
Proof. intros H Hc Hne. apply reachable_wf in H. destruct (minsum_spec g H Hc Hne) as (r & Er & Hn & Hr). exists r. splits; auto.
  intros x. rewrite Hr, contains_In. split; intros [H1 (t & Ht & Hm)]; (split; [exact H1|]); exists t; (split; [exact Ht|]); intros y t' Hy; apply Hm, contains_In, Hy. Qed.
Theorem C31_minmax_exact g : reachable g -> no_neg_cycle (edge g) -> nodes g <> [] ->
  exists r, minmax g = Ok r /\ NoDup r /\
    forall x, In x r <-> contains g x = true /\ exists t, max_dist g x t /\ forall y t', contains g y = true -> max_dist g y t' -> ext_le t t'.
Proof. intros H Hc Hne. apply reachable_wf in H. destruct (minmax_spec g H Hc Hne) as (r & Er & Hn & Hr). exists r. splits; auto.
  intros x. rewrite Hr, contains_In. split; intros [H1 (t & Ht & Hm)]; (split; [exact H1|]); exists t; (split; [exact Ht|]); intros y t' Hy; apply Hm, contains_In, Hy. Qed.
Theorem C31_empty_graph g : nodes g = [] -> minsum g = Err ValueError /\ minmax g = Err ValueError.
Proof. intros H. unfold minsum, minmax, centre, all_pairs_shortest_paths. rewrite adjacency_mat, dkeys_mat, H. split; reflexivity. Qed.

(** C32: what shortest_tree_all_pairs does: it starts at the LAST node (in insertion order) with finite
    total distance, and lists all nodes by distance from it, for any iteration order of the sets; KeyError if
    there is no such node.  (The start need not be the best: C32_best_start_refuted.) *)
Theorem C32_order_from_last_finite_partial g ord : reachable g -> no_neg_cycle (edge g) -> (forall n l, Permutation (ord n l) l) ->
  (forall x, contains g x = true -> total_dist g x Inf) /\ (forall n, shortest_tree_all_pairs ord n g = Err KeyError) \/
  exists l1 s l2 t p, nodes g = l1 ++ s :: l2 /\ total_dist g s (Fin t) /\ (forall x, In x l2 -> total_dist g x Inf) /\
    returns (fun n => shortest_tree_all_pairs ord n g) (Ok p) /\ Permutation p (nodes g) /\
    forall p1 x p2 y p3 dx dy, p = p1 ++ x :: p2 ++ y :: p3 -> dist (edge g) s x dx -> dist (edge g) s y dy -> ext_le dx dy.
Proof. intros H Hc Ho. apply reachable_wf in H. destruct (shortest_tree_spec g ord H Hc Ho) as [[H1 H2]|H1]; [left|right; exact H1].
  split; [|exact H2]. intros x Hx. apply H1, contains_In, Hx. Qed.
(** when every node has the same total (or only one is finite) the start is a best one *)
Theorem C32_single_candidate_partial g ord s t : reachable g -> no_neg_cycle (edge g) -> (forall n l, Permutation (ord n l) l) ->
  contains g s = true -> total_dist g s (Fin t) -> (forall x t', contains g x = true -> total_dist g x (Fin t') -> x = s) ->
  exists p, returns (fun n => shortest_tree_all_pairs ord n g) (Ok p) /\ Permutation p (nodes g) /\
    forall p1 x p2 y p3 dx dy, p = p1 ++ x :: p2 ++ y :: p3 -> dist (edge g) s x dx -> dist (edge g) s y dy -> ext_le dx dy.
Proof. intros H Hc Ho Hs Ht Hu. destruct (C32_order_from_last_finite_partial g ord H Hc Ho) as [[H1 _]|(l1 & s' & l2 & t' & p & En & Ht' & _ & R)].
  - pose proof (total_dist_fun _ _ _ _ Ht (H1 s Hs)). discriminate.
  - assert (s' = s) as -> by (apply (Hu s' t'); [apply contains_In; rewrite En; apply in_app_iff; cbn; auto|exact Ht']). exists p. exact R. Qed.

(** C33: [reverse=False]; ends=None means no early stop.  Exactly the reachable nodes, every value is the length of
    a real walk from some start (so never below the shortest distance); exact when all edges have one value. *)
Theorem C33_forward_partial g ord starts ends : reachable g -> (forall l, Permutation (ord l) l) ->
  (forall x, In x starts -> contains g x = true) -> (forall t x, ends = Some t -> In x t -> contains g x = true) ->
  exists M, returns (fun n => distance_map ord n g (Some starts) ends false) (Ok M) /\
    (forall x v, dget x M = Some v -> exists s p, In s starts /\ wpath (edge g) s p x v) /\
    (forall s x, In s starts -> reach (has_edge g) s x -> match ends with None => True | Some t => In x t \/ In x starts end -> exists v, dget x M = Some v) /\
    (forall w, 0 <= w -> (forall a b d, edge g a b = Some d -> d = w) ->
       forall x v s p d, dget x M = Some v -> In s starts -> wpath (edge g) s p x d -> v <= d).
Proof. intros H Ho Hs He. apply reachable_wf in H.
  destruct (distance_map_forward g ord starts ends H Ho) as (M & HR & D1 & D2 & D3 & D4).
  - intros x Hx. apply contains_In, Hs, Hx.
  - intros t x Et Hx. apply contains_In. eapply He; eauto.
  - exists M. splits; auto.
    + intros s x Hs' Hx Ht. apply dget_key. eapply D3; eauto.
    + intros w Hw HE. apply (D4 w). split; auto. Qed.
Theorem C33_reverse_partial g ord starts ends : reachable g -> (forall l, Permutation (ord l) l) ->
  (forall x, In x ends -> contains g x = true) -> (forall t x, starts = Some t -> In x t -> contains g x = true) ->
  exists M, returns (fun n => distance_map ord n g starts (Some ends) true) (Ok M) /\
    (forall x v, dget x M = Some v -> exists e p, In e ends /\ wpath (edge g) x p e v) /\
    (forall e x, In e ends -> reach (has_edge g) x e -> match starts with None => True | Some t => In x t \/ In x ends end -> exists v, dget x M = Some v) /\
    (forall w, 0 <= w -> (forall a b d, edge g a b = Some d -> d = w) ->
       forall x v e p d, dget x M = Some v -> In e ends -> wpath (edge g) x p e d -> v <= d).
Proof. intros H Ho Hs He. apply reachable_wf in H.
  destruct (distance_map_reverse g ord ends starts H Ho) as (M & HR & D1 & D2 & D3 & D4).
  - intros x Hx. apply contains_In, Hs, Hx.
  - intros t x Et Hx. apply contains_In. eapply He; eauto.
  - exists M. splits; auto.
    + intros x v Hv. destruct (D1 x v Hv) as (e & p & He' & Hp). exists e, (rev p). split; [exact He'|]. apply wpath_rev in Hp. exact Hp.
    + intros e x He' Hx Ht. apply dget_key. eapply D3; [exact He'| |exact Ht]. apply reach_rev in Hx. exact Hx.
    + intros w Hw HE x v e p d Hv He' Hp. apply (D4 w) with (x := x) (s := e) (p := rev p); auto.
      * split; [exact Hw|]. intros a b d' Hd. eapply HE; eauto.
      * apply wpath_rev. exact Hp. Qed.
Theorem C33_bad_arguments_partial g ord n starts ends rv :
  (starts = None /\ ends = None) \/ (starts = None /\ rv = false) \/ (ends = None /\ rv = true) \/
  (exists l x, (starts = Some l \/ ends = Some l) /\ In x l /\ contains g x = false) ->
  distance_map ord n g starts ends rv = Err ValueError.
Proof. intros H. unfold distance_map.
  assert (forall l x, In x l -> contains g x = false -> existsb (fun n => negb (contains g n)) l = true) as HX.
  { intros l x Hx Hc. apply existsb_exists. exists x. rewrite Hc. auto. }
  destruct H as [[-> ->]|[[-> ->]|[[-> ->]|(l & x & Hl & Hx & Hc)]]].
  - reflexivity.
  - destruct ends; reflexivity.
  - destruct starts; reflexivity.
  - specialize (HX l x Hx Hc). destruct Hl as [-> | ->].
    + destruct ends as [e|], rv; try reflexivity; rewrite HX; reflexivity.
    + destruct starts as [e|], rv; try reflexivity; rewrite HX; try (destruct (existsb _ e); reflexivity). reflexivity. Qed.
End P.

(** reading distances of a concrete graph off the (verified) matrix *)
Lemma nonneg_no_neg_cycle {A O} {EA : EqDec A} (g : graph A O Z) : nonneg g -> no_neg_cycle (edge g).
Proof. intros H a p d Hw. eapply wpath_nonneg; [|exact Hw]. exact H. Qed.
Lemma dist_check {A O} {EA : EqDec A} (g : graph A O Z) a b : wf g -> no_neg_cycle (edge g) -> In a (nodes g) -> In b (nodes g) ->
  dist (edge g) a b (mget (all_pairs_shortest_paths g) a b).
Proof. intros W H Ha Hb. destruct (fw_spec g W H) as (f & E & Hd). rewrite E, mget_mat by assumption. apply Hd; auto. Qed.
Lemma total_dist_check {A O} {EA : EqDec A} (g : graph A O Z) a : wf g -> no_neg_cycle (edge g) -> In a (nodes g) ->
  total_dist g a (ext_sum (map (mget (all_pairs_shortest_paths g) a) (nodes g))).
Proof. intros W H Ha. exists (map (mget (all_pairs_shortest_paths g) a) (nodes g)). split; [|apply ext_sum_fold].
  apply Forall2_map_r. intros y Hy. apply dist_check; auto. Qed.

Local Close Scope Z_scope.
(** C32 fails: on 1 - 2 - 3 the best start is 2 (total 2), but the answer starts from 3 (total 3) *)
Definition line3 : graph nat unit Z := ok_or empty_graph (run [OpAddEdge 1 2 1%Z true; OpAddEdge 2 3 1%Z true]).
Lemma line3_ok : wf line3 /\ no_neg_cycle (edge line3).
Proof. assert (wf line3) as W by apply reachable_wf, reachable_run. split; [exact W|]. apply nonneg_no_neg_cycle, nonneg_check; [exact W|vm_compute; reflexivity]. Qed.
Theorem C32_best_start_refuted :
  reachable line3 /\ no_neg_cycle (edge line3) /\ (forall n, shortest_tree_all_pairs (fun _ l => l) (5 + n) line3 = Ok [3; 2; 1]) /\
  total_dist line3 3 (Fin 3) /\ total_dist line3 2 (Fin 2).
Proof. destruct line3_ok as [W N]. splits.
  - apply reachable_run.
  - exact N.
  - intros n. vm_compute. reflexivity.
  - apply (total_dist_check line3 3 W N). vm_compute. auto.
  - apply (total_dist_check line3 2 W N). vm_compute. auto. Qed.

(** C33 fails: a node is expanded once, before its distance is final *)
Definition dm_g : graph nat unit Z := ok_or empty_graph (run [OpAddEdge 1 2 10%Z false; OpAddEdge 1 3 1%Z false; OpAddEdge 3 2 1%Z false; OpAddEdge 2 4 1%Z false]).
Theorem C33_shortest_refuted :
  reachable dm_g /\ nonneg dm_g /\
  (forall n, distance_map (fun l => l) (6 + n) dm_g (Some [1]) None false = Ok [(1, 0%Z); (2, 2%Z); (3, 1%Z); (4, 11%Z)]) /\
  wpath (edge dm_g) 1 [1; 3; 2; 4] 4 3%Z.
Proof. splits.
  - apply reachable_run.
  - apply nonneg_check; [apply reachable_wf, reachable_run|vm_compute; reflexivity].
  - intros n. vm_compute. reflexivity.
  - apply (wpath_cons _ 1 3 _ _ 1 2); [reflexivity|]. apply (wpath_cons _ 3 2 _ _ 1 1); [reflexivity|]. apply (wpath_cons _ 2 4 _ _ 1 0); [reflexivity|]. constructor. Qed.

(** Hypotheses are satisfiable, also with a negative edge *)
Definition ex_neg : graph nat unit Z := ok_or empty_graph (run [OpAddEdge 1 2 5%Z false; OpAddEdge 2 3 (-2)%Z false; OpAddEdge 1 3 4%Z false; OpAddEdge 3 1 (-3)%Z false; OpAddNode 9 None]).
Example ex_neg_no_neg_cycle : reachable ex_neg /\ no_neg_cycle (edge ex_neg).
Proof. split; [apply reachable_run|].
  (* a potential: every edge satisfies 0 <= w + h a - h b *)
  pose (h := fun a : nat => match a with 2 => 5%Z | 3 => 3%Z | _ => 0%Z end).
  assert (forall a p b d, wpath (edge ex_neg) a p b d -> (h b - h a <= d)%Z) as H.
  { intros a p b d Hw. induction Hw as [a|a b p c w d He _ IH]; [lia|].
    assert (forallb (fun e => let '(a, b, w) := e in (h b - h a <=? w)%Z) (edges ex_neg) = true) as HF by (vm_compute; reflexivity).
    rewrite forallb_forall in HF. assert (In (a, b, w) (edges ex_neg)) as HI by (apply In_edges; [apply reachable_wf, reachable_run|exact He]).
    specialize (HF _ HI). cbn beta iota in HF. apply Z.leb_le in HF. lia. }
  intros a p d Hw. specialize (H a p a d Hw). lia. Qed.
Example ex_neg_run : eget (all_pairs_shortest_paths ex_neg) 1 3 = Some (Fin 3) /\ eget (all_pairs_shortest_paths ex_neg) 1 9 = Some Inf /\
  eget (adjacency_matrix ex_neg) 1 3 = Some (Fin 4) /\ eget (adjacency_matrix ex_neg) 2 1 = Some Inf /\
  minsum line3 = Ok [2] /\ minmax line3 = Ok [2] /\ minsum (@empty_graph nat unit Z) = Err ValueError /\
  (forall n, shortest_tree_all_pairs (fun _ l => l) n ex_neg = Err KeyError) /\
  distance_map (fun l => l) 20 line3 None (Some [3]) true = Ok [(3, 0%Z); (2, 1%Z); (1, 2%Z)].
Proof. splits; try (vm_compute; reflexivity). Qed.
