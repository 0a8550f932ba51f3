(** C80 (Graph3D holds only (x,y,z) nodes, through rejected calls too) and C81 (distance). *)
From Coq Require Import QArith Qcanon.
From Verif Require Import Prelude PreludeFacts Base BaseFacts BaseFacts2 BaseFacts3 Spec MaxFlowFacts HashFacts McfFacts BaseAlgFacts Graph3d.
Open Scope nat_scope.

(** A node is a position *)
Definition xyz (n : pynode) : Prop := exists x y z, n = Tuple [Num x; Num y; Num z].
Lemma check_xyz n : check_tuples n = None <-> xyz n.
Proof. split.
  - destruct n as [l|i]; cbn; [|discriminate]. destruct l as [|[x|] [|[y|] [|[z|] [|c l]]]]; cbn; try discriminate. intros _. hnf; eauto.
  - intros (x & y & z & ->). reflexivity. Qed.

Section Props.
Context {O V : Type} (is_coll : V -> bool).
Notation graph := (Base.graph pynode O V).
Implicit Types (g : graph).

Lemma add_node_twice g n o : mkG (dset n o (g_nodes (add_node g n o))) (g_edges (add_node g n o)) (g_count (add_node g n o)) (g_rev (add_node g n o)) (g_indeg (add_node g n o)) (g_outdeg (add_node g n o)) = add_node g n o.
Proof. assert (H : dset n o (dset n o (g_nodes g)) = dset n o (g_nodes g)).
  { generalize (g_nodes g). intros d. induction d as [|[m x] d IH]; cbn; [destruct (eq_dec n n); congruence|].
    destruct (eq_dec n m) as [->|Hn]; cbn; [destruct (eq_dec m m); congruence|destruct (eq_dec n m); [contradiction|rewrite IH; reflexivity]]. }
  unfold add_node. destruct (dmem n (g_nodes g)); cbn; rewrite H; reflexivity. Qed.
Lemma add_node3_ok g n o : xyz n -> add_node3 g n o = (add_node g n o, Ok tt).
Proof. intros H. apply check_xyz in H. unfold add_node3. rewrite H, add_node_twice. reflexivity. Qed.

(** A graph all whose nodes are positions *)
Definition good g : Prop := reachable g /\ (forall n, contains g n = true -> xyz n) /\ (forall a b v, edge g a b = Some v -> is_coll v = false).

(** What Graph3D.add_edge rejects: the exception, if any *)
Definition edge_error (a b : pynode) (v : option V) : option exn :=
  match check_tuples a with Some e => Some e | None =>
  match check_tuples b with Some e => Some e | None =>
  match v with None => Some AssertionError | Some v => if is_coll v then Some ValueError else None end end end.
Lemma dmem_add_node g n o m : dmem m (g_nodes (add_node g n o)) = (if eq_dec m n then true else dmem m (g_nodes g)).
Proof. change (mem m (nodes (add_node g n o)) = if eq_dec m n then true else mem m (nodes g)). rewrite nodes_add_node.
  apply eq_true_iff_eq. rewrite mem_In, In_sadd. destruct (eq_dec m n); [tauto|]. rewrite mem_In. tauto. Qed.
Lemma add_edge1_nodes g a b v g1 g2 : g1 = (if dmem a (g_nodes g) then g else add_node g a None) -> g2 = (if dmem b (g_nodes g1) then g1 else add_node g1 b None) ->
  add_edge1 g a b v = add_edge1 g2 a b v.
Proof. intros H1 H2.
  assert (Ha1 : dmem a (g_nodes g1) = true). { subst g1. destruct (dmem a (g_nodes g)) eqn:E; [exact E|]. rewrite dmem_add_node. destruct (eq_dec a a); congruence. }
  assert (Ha : dmem a (g_nodes g2) = true). { subst g2. destruct (dmem b (g_nodes g1)) eqn:E; [exact Ha1|]. rewrite dmem_add_node. destruct (eq_dec a b); [reflexivity|exact Ha1]. }
  assert (Hb : dmem b (g_nodes g2) = true). { subst g2. destruct (dmem b (g_nodes g1)) eqn:E; [exact E|]. rewrite dmem_add_node. destruct (eq_dec b b); congruence. }
  unfold add_edge1 at 2. rewrite Ha, Hb. unfold add_edge1. rewrite <- H1, <- H2. reflexivity. Qed.
Lemma good_add_node g n o : good g -> xyz n -> good (add_node g n o).
Proof. intros (R & Hx & Hc) Hn. destruct (add_node_effect g n o R) as (H1 & _ & _ & He). hnf; splits; [apply reachable_add_node; exact R| |].
  - intros m Hm. apply H1 in Hm. destruct Hm as [-> |Hm]; auto.
  - intros a b v Hv. rewrite He in Hv. eauto. Qed.
Lemma good_add_edge g a b v bi : good g -> xyz a -> xyz b -> is_coll v = false -> exists g', add_edge g a b v bi = Ok g' /\ good g'.
Proof. intros (R & Hx & Hc) Ha Hb Hv. destruct (add_edge_effect g a b v bi R) as (g' & E & H1 & _ & H2 & H3 & H4). exists g'. split; [exact E|]. hnf; splits.
  - apply (reachable_step g (OpAddEdge a b v bi)); [exact R|exact E].
  - intros m Hm. apply H1 in Hm. destruct Hm as [-> |[-> |Hm]]; auto.
  - intros x y u Hu. destruct (eq_dec (x, y) (a, b)) as [E1|N1]; [injection E1 as -> ->; congruence|].
    destruct bi; [destruct (eq_dec (x, y) (b, a)) as [E1|N2]; [injection E1 as -> ->; rewrite H3 in Hu by reflexivity; congruence|]|].
    + rewrite H4 in Hu by auto. eauto.
    + rewrite H4 in Hu; [eauto|exact N1|discriminate]. Qed.
Lemma add_edge_1 g a b v : add_edge g a b v false = add_edge1 g a b v.
Proof. unfold add_edge. destruct (add_edge1 g a b v); reflexivity. Qed.
Lemma edge3_1_ok g a b v : good g -> xyz a -> xyz b -> is_coll v = false -> exists g', add_edge1 g a b v = Ok g' /\ good g' /\ add_edge3_1 is_coll g a b (Some v) = (g', Ok tt).
Proof. intros G Ha Hb Hv. destruct (good_add_edge g a b v false G Ha Hb Hv) as (g' & E & G'). rewrite add_edge_1 in E. exists g'. splits; [exact E|exact G'|].
  unfold add_edge3_1. rewrite (proj2 (check_xyz a) Ha), (proj2 (check_xyz b) Hb), Hv.
  set (g1 := if dmem a (g_nodes g) then g else add_node g a None). set (g2 := if dmem b (g_nodes g1) then g1 else add_node g1 b None).
  rewrite (add_edge1_nodes g a b v g1 g2 eq_refl eq_refl) in E.
  replace (if dmem a (g_nodes g) then (g, Ok tt) else add_node3 g a None) with (g1, @Ok unit tt) by (unfold g1; destruct (dmem a (g_nodes g)); [reflexivity|rewrite add_node3_ok by exact Ha; reflexivity]).
  cbn [then3].
  replace (if dmem b (g_nodes g1) then (g1, Ok tt) else add_node3 g1 b None) with (g2, @Ok unit tt) by (unfold g2; destruct (dmem b (g_nodes g1)); [reflexivity|rewrite add_node3_ok by exact Hb; reflexivity]).
  cbn [then3]. rewrite E. reflexivity. Qed.
Lemma edge_error_none a b v : edge_error a b v = None <-> xyz a /\ xyz b /\ exists u, v = Some u /\ is_coll u = false.
Proof. unfold edge_error. split.
  - destruct (check_tuples a) eqn:Ea; [discriminate|]. destruct (check_tuples b) eqn:Eb; [discriminate|]. destruct v as [u|]; [|discriminate]. destruct (is_coll u) eqn:Eu; [discriminate|].
    intros _. splits; [apply check_xyz; exact Ea|apply check_xyz; exact Eb|eauto].
  - intros (Ha & Hb & u & -> & Hu). apply check_xyz in Ha, Hb. rewrite Ha, Hb, Hu. reflexivity. Qed.
Lemma edge3_bad g a b v bi e : edge_error a b v = Some e -> add_edge3 is_coll g a b v bi = (g, Err e).
Proof. unfold edge_error, add_edge3, add_edge3_1. destruct (check_tuples a); [intros [= <-]; reflexivity|]. destruct (check_tuples b); [intros [= <-]; reflexivity|].
  destruct v as [u|]; [|intros [= <-]; reflexivity]. destruct (is_coll u); [intros [= <-]; reflexivity|discriminate]. Qed.
Lemma edge3_ok g a b v bi : good g -> xyz a -> xyz b -> is_coll v = false -> exists g', add_edge g a b v bi = Ok g' /\ good g' /\ add_edge3 is_coll g a b (Some v) bi = (g', Ok tt).
Proof. intros G Ha Hb Hv. destruct (edge3_1_ok g a b v G Ha Hb Hv) as (g1 & E1 & G1 & P1). unfold add_edge, add_edge3. rewrite E1, P1. cbn [bind then3].
  destruct bi; [|eauto]. destruct (edge3_1_ok g1 b a v G1 Hb Ha Hv) as (g2 & E2 & G2 & P2). exists g2. auto. Qed.

(** ** from_list and from_dict *)
(** the exception an entry raises, if any, and what an accepted entry adds *)
Definition entry_error (x : entry3 V) : option exn :=
  match x with
  | ENode n => check_tuples n
  | EPair a b => edge_error a b None
  | EEdge a b v => edge_error a b v
  | EEdgeBi a b v _ => edge_error a b v
  | EBad e => Some e
  end.
Definition entry_link (x : entry3 V) : list (link pynode V) :=
  match x with ENode n => [LNode n] | EEdge a b (Some v) => [LEdge a b v] | EEdgeBi a b (Some v) bi => [LEdgeBi a b v bi] | _ => [] end.
Lemma entry_step g x : good g ->
  match entry_error x with
  | Some e => add_entry3 is_coll g x = (g, Err e)
  | None => exists g', from_list g (entry_link x) = Ok g' /\ good g' /\ add_entry3 is_coll g x = (g', Ok tt)
  end.
Proof. intros G. destruct x as [n|a b|a b v|a b v bi|e]; cbn [entry_error add_entry3].
  - destruct (check_tuples n) eqn:E; [unfold add_node3; rewrite E; reflexivity|]. apply check_xyz in E. exists (add_node g n None). splits; [reflexivity|apply good_add_node; auto|apply add_node3_ok; exact E].
  - destruct (edge_error a b None) eqn:E; [apply edge3_bad; exact E|]. apply edge_error_none in E. destruct E as (_ & _ & u & E & _). discriminate.
  - destruct (edge_error a b v) eqn:E; [apply edge3_bad; exact E|]. apply edge_error_none in E. destruct E as (Ha & Hb & u & -> & Hu).
    destruct (edge3_ok g a b u false G Ha Hb Hu) as (g' & E & G' & P). exists g'. splits; [cbn; rewrite E; reflexivity|exact G'|exact P].
  - destruct (edge_error a b v) eqn:E; [apply edge3_bad; exact E|]. apply edge_error_none in E. destruct E as (Ha & Hb & u & -> & Hu).
    destruct (edge3_ok g a b u bi G Ha Hb Hu) as (g' & E & G' & P). exists g'. splits; [cbn; rewrite E; reflexivity|exact G'|exact P].
  - reflexivity. Qed.
Definition fine (x : entry3 V) : bool := match entry_error x with None => true | Some _ => false end.
Lemma from_list_app g (xs ys : list (link pynode V)) : from_list g (xs ++ ys) = (g1 <- from_list g xs ;; from_list g1 ys).
Proof. unfold from_list. revert g. induction xs as [|x xs IH]; intros g; cbn; [reflexivity|]. destruct (add_link g x); cbn; auto. Qed.
Lemma entries_step xs g : good g ->
  exists good_xs g', from_list g (flat_map entry_link good_xs) = Ok g' /\ good g' /\ forallb fine good_xs = true /\
    (xs = good_xs /\ from_list3 is_coll g xs = (g', Ok tt) \/
     exists bad rest e, xs = good_xs ++ bad :: rest /\ entry_error bad = Some e /\ from_list3 is_coll g xs = (g', Err e)).
Proof. revert g. induction xs as [|x xs IH]; intros g G; [exists [], g; splits; [reflexivity|exact G|reflexivity|left; auto]|].
  pose proof (entry_step g x G) as Hx. unfold from_list3. cbn [each3]. destruct (entry_error x) as [e|] eqn:Ee.
  - exists [], g. rewrite Hx. splits; [reflexivity|exact G|reflexivity|]. right. exists x, xs, e. splits; [reflexivity|exact Ee|reflexivity].
  - destruct Hx as (g1 & E1 & G1 & P1). rewrite P1. cbn [then3]. destruct (IH g1 G1) as (good_xs & g' & E' & G' & Hf & Hr). exists (x :: good_xs), g'. splits; [|exact G'|cbn; unfold fine at 1; rewrite Ee; exact Hf|].
    + cbn [flat_map]. rewrite from_list_app, E1. exact E'.
    + destruct Hr as [(-> & P)|(bad & rest & e & -> & Hb & P)]; [left; auto|]. right. exists bad, rest, e. auto. Qed.
(** the entries of a dict of dicts, in order *)
Definition dict_entries3 (d : dict pynode (dict pynode (option V))) : list (entry3 V) :=
  flat_map (fun p => match snd p with [] => [ENode (fst p)] | _ => map (fun q => EEdge (fst p) (fst q) (snd q)) (snd p) end) d.
Lemma each3_app {X} (f : graph -> X -> graph * res unit) xs ys g : each3 f (xs ++ ys) g = then3 (each3 f xs g) (each3 f ys).
Proof. revert g. induction xs as [|x xs IH]; intros g; cbn; [reflexivity|]. destruct (f g x) as [g1 [[]| |]]; cbn; auto. Qed.
Lemma each3_map {X Y} (f : graph -> Y -> graph * res unit) (h : X -> Y) xs g : each3 f (map h xs) g = each3 (fun g x => f g (h x)) xs g.
Proof. revert g. induction xs as [|x xs IH]; intros g; cbn; [reflexivity|]. destruct (f g (h x)) as [g1 [[]| |]]; cbn; auto. Qed.
Lemma from_dict3_eq d g : from_dict3 is_coll g d = from_list3 is_coll g (dict_entries3 d).
Proof. unfold from_dict3, from_list3. revert g. induction d as [|[n x] d IH]; intros g; [reflexivity|]. unfold dict_entries3. cbn [flat_map fst snd]. rewrite each3_app. cbn [each3 fst snd].
  destruct x as [|q x]; cbn [is_nil].
  - cbn [each3 add_entry3]. destruct (add_node3 g n None) as [g1 [[]| |]]; cbn [then3]; [apply IH|reflexivity|reflexivity].
  - rewrite each3_map. cbn [add_entry3]. destruct (each3 _ (q :: x) g) as [g1 [[]| |]]; cbn [then3]; [apply IH|reflexivity|reflexivity]. Qed.

(** ** Histories *)
Lemma good_empty : good empty_graph.
Proof. hnf; splits; [apply reachable_empty|intros n H; discriminate|intros a b v H; discriminate]. Qed.
Lemma call3_good g c : good g -> good (fst (call3_step is_coll g c)).
Proof. intros G. pose proof G as (R & Hx & Hc). destruct c as [n o|a b v bi|xs|d|a b|n|n|n]; cbn [call3_step].
  - destruct (check_tuples n) eqn:E; [unfold add_node3; rewrite E; exact G|]. apply check_xyz in E. rewrite add_node3_ok by exact E. apply good_add_node; auto.
  - destruct (edge_error a b v) eqn:E; [rewrite (edge3_bad _ _ _ _ _ _ E); exact G|]. apply edge_error_none in E. destruct E as (Ha & Hb & u & -> & Hu).
    destruct (edge3_ok g a b u bi G Ha Hb Hu) as (g' & _ & G' & P). rewrite P. exact G'.
  - destruct (entries_step xs g G) as (gx & g' & _ & G' & _ & [(_ & P)|(bad & rest & e & _ & _ & P)]); rewrite P; exact G'.
  - rewrite from_dict3_eq. destruct (entries_step (dict_entries3 d) g G) as (gx & g' & _ & G' & _ & [(_ & P)|(bad & rest & e & _ & _ & P)]); rewrite P; exact G'.
  - destruct (del_edge_effect g a b R) as (g' & E & H1 & _ & H2 & H3 & _). rewrite E. cbn. hnf; splits; [apply (reachable_step g (OpDelEdge a b)); [exact R|exact E]| |].
    + intros m Hm. rewrite H1 in Hm. auto.
    + intros x y u Hu. destruct (eq_dec (x, y) (a, b)) as [E1|N1]; [injection E1 as -> ->; congruence|]. rewrite H3 in Hu by exact N1. eauto.
  - destruct (del_node_effect g n R) as (g' & E & H1 & _ & H2 & _). rewrite E. cbn. hnf; splits; [apply (reachable_step g (OpDelNode n)); [exact R|exact E]| |].
    + intros m Hm. apply H1 in Hm. apply Hx. tauto.
    + intros x y u Hu. rewrite H2 in Hu. destruct (eq_dec x n); [discriminate|]. destruct (eq_dec y n); [discriminate|]. eauto.
  - unfold in_degree. assert (R' := reachable_step g (OpInDegree n) (snd (in_degree g n)) R eq_refl). unfold in_degree in R'. destruct (dget n (g_indeg g)); cbn in *; [exact G|]. hnf; auto.
  - unfold out_degree. assert (R' := reachable_step g (OpOutDegree n) (snd (out_degree g n)) R eq_refl). unfold out_degree in R'. destruct (dget n (g_outdeg g)); cbn in *; [exact G|]. hnf; auto. Qed.
Lemma run3_good cs : good (run3 is_coll cs).
Proof. unfold run3. generalize good_empty. generalize (@empty_graph pynode O V). induction cs as [|c cs IH]; intros g G; cbn; [exact G|]. apply IH. apply call3_good. exact G. Qed.

(** After any calls, some of which may have raised, every node is an (x, y, z) tuple of numbers, edges join such nodes and
    carry no dict, list, tuple (or None) as value, and the graph is one that BasicGraph's operations build (so C01, C02 apply). *)
Theorem C80_only_positions cs : let g := run3 (O := O) is_coll cs in
  reachable g /\ (forall n, contains g n = true -> xyz n) /\
  (forall a b v, edge g a b = Some v -> xyz a /\ xyz b /\ is_coll v = false).
Proof. cbn zeta. destruct (run3_good cs) as (R & Hx & Hc). splits; [exact R|exact Hx|]. intros a b v Hv.
  destruct (has_edge_nodes _ a b (reachable_wf _ R)) as [Ha Hb]; [exists v; exact Hv|]. splits; [apply Hx|apply Hx|eauto]; apply contains_In; assumption. Qed.

(** add_node: not a tuple or not numbers: TypeError; not three of them: ValueError; nothing changes then.  Otherwise it is
    BasicGraph's add_node. *)
Theorem C80_add_node_exact (cs : list (call3 O V)) n o : let g := run3 is_coll cs in
  (forall i, n = NotTuple i -> call3_step is_coll g (C3AddNode n o) = (g, Err TypeError)) /\
  (forall l, n = Tuple l -> length l <> 3 -> call3_step is_coll g (C3AddNode n o) = (g, Err ValueError)) /\
  (forall l i, n = Tuple l -> length l = 3 -> In (PyObj i) l -> call3_step is_coll g (C3AddNode n o) = (g, Err TypeError)) /\
  (xyz n -> call3_step is_coll g (C3AddNode n o) = (add_node g n o, Ok tt)).
Proof. cbn zeta. splits.
  - intros i ->. reflexivity.
  - intros l -> Hl. cbn. unfold add_node3. cbn. destruct (Nat.eqb_spec (length l) 3); [contradiction|reflexivity].
  - intros l i -> Hl Hi. cbn. unfold add_node3. cbn. rewrite Hl. cbn. replace (forallb is_num l) with false; [reflexivity|]. symmetry. apply not_true_is_false. intros H. rewrite forallb_forall in H. apply H in Hi. discriminate.
  - intros Hn. apply add_node3_ok. exact Hn. Qed.
(** add_edge: with positions and a value that is a number it is BasicGraph's add_edge; otherwise it raises and nothing
    changes: TypeError or ValueError for a bad node, AssertionError if no value is given, ValueError for a collection. *)
Theorem C80_add_edge_exact (cs : list (call3 O V)) a b v bi : let g := run3 is_coll cs in
  (forall u, xyz a -> xyz b -> v = Some u -> is_coll u = false -> exists g', add_edge g a b u bi = Ok g' /\ call3_step is_coll g (C3AddEdge a b v bi) = (g', Ok tt)) /\
  (~ xyz a \/ ~ xyz b -> exists e, (e = TypeError \/ e = ValueError) /\ call3_step is_coll g (C3AddEdge a b v bi) = (g, Err e)) /\
  (xyz a -> xyz b -> v = None -> call3_step is_coll g (C3AddEdge a b v bi) = (g, Err AssertionError)) /\
  (forall u, xyz a -> xyz b -> v = Some u -> is_coll u = true -> call3_step is_coll g (C3AddEdge a b v bi) = (g, Err ValueError)).
Proof. cbn zeta. set (g := run3 is_coll cs). assert (G : good g) by apply run3_good.
  assert (Hbad : forall n e, check_tuples n = Some e -> e = TypeError \/ e = ValueError).
  { intros [l|i] e; cbn; [|intros [= <-]; auto]. destruct (length l =? 3); cbn; [|intros [= <-]; auto]. destruct (forallb is_num l); cbn; [discriminate|intros [= <-]; auto]. }
  splits.
  - intros u Ha Hb -> Hu. destruct (edge3_ok g a b u bi G Ha Hb Hu) as (g' & E & _ & P). eauto.
  - intros Hn. destruct (check_tuples a) as [e|] eqn:Ea.
    + exists e. split; [eauto|]. apply edge3_bad. unfold edge_error. rewrite Ea. reflexivity.
    + destruct (check_tuples b) as [e|] eqn:Eb; [|exfalso; apply check_xyz in Ea, Eb; tauto]. exists e. split; [eauto|]. apply edge3_bad. unfold edge_error. rewrite Ea, Eb. reflexivity.
  - intros Ha Hb ->. apply edge3_bad. unfold edge_error. apply check_xyz in Ha, Hb. rewrite Ha, Hb. reflexivity.
  - intros u Ha Hb -> Hu. apply edge3_bad. unfold edge_error. apply check_xyz in Ha, Hb. rewrite Ha, Hb, Hu. reflexivity. Qed.
(** from_list and from_dict stop at the first entry that is rejected, with the exception of that entry, having added the
    entries before it; without such an entry they add all. *)
Theorem C80_from_list_exact cs xs : let g := run3 (O := O) is_coll cs in
  exists pre g', from_list g (flat_map entry_link pre) = Ok g' /\ (forall x, In x pre -> entry_error x = None) /\
    (xs = pre /\ call3_step is_coll g (C3FromList xs) = (g', Ok tt) \/
     exists bad rest e, xs = pre ++ bad :: rest /\ entry_error bad = Some e /\ call3_step is_coll g (C3FromList xs) = (g', Err e)).
Proof. cbn zeta. destruct (entries_step xs _ (run3_good cs)) as (pre & g' & E & _ & Hf & H). exists pre, g'. splits; [exact E| |exact H].
  intros x Hx. rewrite forallb_forall in Hf. apply Hf in Hx. unfold fine in Hx. destruct (entry_error x); [discriminate|reflexivity]. Qed.
Theorem C80_from_dict_exact cs d : let g := run3 (O := O) is_coll cs in
  call3_step is_coll g (C3FromDict d) = call3_step is_coll g (C3FromList (dict_entries3 d)).
Proof. apply from_dict3_eq. Qed.
(** the entries (n1, n2) that Graph accepts (with value 1) are rejected *)
Theorem C80_pairs_rejected a b : xyz a -> xyz b -> entry_error (EPair a b) = Some AssertionError.
Proof. intros Ha Hb. apply check_xyz in Ha, Hb. cbn. unfold edge_error. rewrite Ha, Hb. reflexivity. Qed.
End Props.

(** ** C81: distance *)
Open Scope Qc_scope.
Lemma abs_sq q : Qcabs' q * Qcabs' q = q * q.
Proof. unfold Qcabs'. destruct (Qclt_le_dec q 0); ring. Qed.
Lemma dist_eq x1 y1 z1 x2 y2 z2 : distance_sq (Tuple [Num x1; Num y1; Num z1]) (Tuple [Num x2; Num y2; Num z2]) =
  Ok ((x2 - x1) * (x2 - x1) + (y2 - y1) * (y2 - y1) + (z2 - z1) * (z2 - z1)).
Proof. unfold distance_sq. cbn [check_tuples length Nat.eqb negb forallb is_num andb]. rewrite !abs_sq. reflexivity. Qed.
Lemma sq_nonneg q : 0 <= q * q.
Proof. destruct (Qclt_le_dec q 0) as [H|H].
  - replace (q * q) with ((- q) * (- q)) by ring. assert (H' : 0 <= - q). { apply Qclt_le_weak in H. apply Qcopp_le_compat in H. replace (- 0) with 0 in H by ring. exact H. }
    pose proof (Qcmult_le_compat_r _ _ _ H' H') as X. replace (0 * - q) with 0 in X by ring. exact X.
  - pose proof (Qcmult_le_compat_r _ _ _ H H) as X. replace (0 * q) with 0 in X by ring. exact X. Qed.
Lemma qc_add_nonneg a b : 0 <= a -> 0 <= b -> 0 <= a + b.
Proof. intros Ha Hb. pose proof (Qcplus_le_compat _ _ _ _ Ha Hb) as X. replace (0 + 0) with 0 in X by ring. exact X. Qed.
Lemma diff_le a b : 0 <= b - a -> a <= b.
Proof. intros H. apply Qcle_minus_iff. exact H. Qed.
Lemma root_le x t : 0 <= t -> x * x <= t * t -> x <= t.
Proof. intros Ht H. destruct (Qclt_le_dec t x) as [Hx|Hx]; [|exact Hx]. exfalso.
  assert (H0 : 0 < x) by (eapply Qcle_lt_trans; eauto). pose proof (Qcmult_lt_compat_r _ _ _ H0 Hx) as H1.
  pose proof (Qcmult_le_compat_r _ _ _ (Qclt_le_weak _ _ Hx) Ht) as H2. apply (Qclt_not_le (t * t) (x * x)); [|exact H].
  eapply Qcle_lt_trans; [exact H2|]. replace (x * t) with (t * x) by ring. exact H1. Qed.
Lemma triangle u1 u2 u3 w1 w2 w3 r s : 0 <= r -> 0 <= s -> u1 * u1 + u2 * u2 + u3 * u3 <= r * r -> w1 * w1 + w2 * w2 + w3 * w3 <= s * s ->
  (u1 + w1) * (u1 + w1) + (u2 + w2) * (u2 + w2) + (u3 + w3) * (u3 + w3) <= (r + s) * (r + s).
Proof. intros Hr Hs Hu Hw. set (U := u1 * u1 + u2 * u2 + u3 * u3) in *. set (W := w1 * w1 + w2 * w2 + w3 * w3) in *.
  set (p := u1 * w1 + u2 * w2 + u3 * w3).
  assert (Hrs : 0 <= r * s). { pose proof (Qcmult_le_compat_r _ _ _ Hr Hs) as X. replace (0 * s) with 0 in X by ring. exact X. }
  assert (HW : 0 <= W) by (repeat apply qc_add_nonneg; apply sq_nonneg).
  assert (Hp : p <= r * s).
  { apply root_le; [exact Hrs|]. apply Qcle_trans with (U * W).
    - apply diff_le. replace (U * W - p * p) with ((u1 * w2 - u2 * w1) * (u1 * w2 - u2 * w1) + (u1 * w3 - u3 * w1) * (u1 * w3 - u3 * w1) + (u2 * w3 - u3 * w2) * (u2 * w3 - u3 * w2)) by (unfold U, W, p; ring).
      repeat apply qc_add_nonneg; apply sq_nonneg.
    - apply Qcle_trans with ((r * r) * W); [apply Qcmult_le_compat_r; assumption|]. replace (r * s * (r * s)) with (s * s * (r * r)) by ring. replace (r * r * W) with (W * (r * r)) by ring.
      apply Qcmult_le_compat_r; [exact Hw|apply sq_nonneg]. }
  replace ((u1 + w1) * (u1 + w1) + (u2 + w2) * (u2 + w2) + (u3 + w3) * (u3 + w3)) with (U + W + (p + p)) by (unfold U, W, p; ring).
  replace ((r + s) * (r + s)) with (r * r + s * s + (r * s + r * s)) by ring. repeat apply Qcplus_le_compat; assumption. Qed.
Lemma sq_zero q : q * q = 0 -> q = 0.
Proof. intros H. apply Qcmult_integral in H. tauto. Qed.
Lemma sum_zero a b : 0 <= a -> 0 <= b -> a + b = 0 -> a = 0 /\ b = 0.
Proof. intros Ha Hb H. assert (X : forall a b, 0 <= a -> 0 <= b -> a + b = 0 -> a = 0).
  { clear. intros a b Ha Hb H. apply Qcle_antisym; [|exact Ha]. rewrite <- H. apply diff_le. replace (a + b - a) with b by ring. exact Hb. }
  split; [eauto|]. apply (X b a); auto. rewrite <- H. ring. Qed.

(** distance() returns for any two positions; for anything else it raises TypeError or ValueError. *)
Theorem C81_distance_total n1 n2 : (xyz n1 /\ xyz n2 -> exists d, distance_sq n1 n2 = Ok d) /\
  (~ (xyz n1 /\ xyz n2) -> distance_sq n1 n2 = Err TypeError \/ distance_sq n1 n2 = Err ValueError).
Proof. split.
  - intros ((x1 & y1 & z1 & ->) & (x2 & y2 & z2 & ->)). rewrite dist_eq. eauto.
  - assert (Hbad : forall n e, check_tuples n = Some e -> e = TypeError \/ e = ValueError).
    { intros [l|i] e; cbn [check_tuples]; [|intros [= <-]; auto]. destruct (length l =? 3)%nat; cbn [negb]; [|intros [= <-]; auto]. destruct (forallb is_num l); cbn [negb]; [discriminate|intros [= <-]; auto]. }
    intros Hn. unfold distance_sq. destruct (check_tuples n1) as [e|] eqn:E1; [destruct (Hbad _ _ E1) as [-> | ->]; auto|]. destruct (check_tuples n2) as [e|] eqn:E2; [destruct (Hbad _ _ E2) as [-> | ->]; auto|].
    exfalso. apply Hn. split; apply check_xyz; assumption. Qed.
(** It is a metric: the square of the distance is non-negative, and 0 exactly for equal positions; the distance is
    symmetric; and |n1 n3| <= |n1 n2| + |n2 n3| (whenever r bounds the first and s the second, r + s bounds the third). *)
Theorem C81_distance_metric n1 n2 n3 d12 d23 d13 :
  distance_sq n1 n2 = Ok d12 -> distance_sq n2 n3 = Ok d23 -> distance_sq n1 n3 = Ok d13 ->
  0 <= d12 /\ (d12 = 0 <-> n1 = n2) /\ distance_sq n2 n1 = Ok d12 /\
  (forall r s, 0 <= r -> 0 <= s -> d12 <= r * r -> d23 <= s * s -> d13 <= (r + s) * (r + s)).
Proof. intros H1 H2 H3.
  assert (HX : forall m k d, distance_sq m k = Ok d -> xyz m /\ xyz k).
  { intros m k d. unfold distance_sq. destruct (check_tuples m) eqn:E1; [discriminate|]. destruct (check_tuples k) eqn:E2; [discriminate|]. intros _. split; apply check_xyz; assumption. }
  destruct (HX _ _ _ H1) as [(x1 & y1 & z1 & ->) (x2 & y2 & z2 & ->)]. destruct (HX _ _ _ H2) as [_ (x3 & y3 & z3 & ->)]. clear HX.
  rewrite dist_eq in H1, H2, H3. injection H1 as <-. injection H2 as <-. injection H3 as <-. splits.
  - repeat apply qc_add_nonneg; apply sq_nonneg.
  - split.
    + intros H. apply sum_zero in H; [|repeat apply qc_add_nonneg; apply sq_nonneg|apply sq_nonneg]. destruct H as [H Hz]. apply sum_zero in H; [|apply sq_nonneg|apply sq_nonneg]. destruct H as [Hx Hy].
      apply sq_zero in Hx, Hy, Hz. assert (E : forall a b : Qc, a - b = 0 -> b = a). { intros a b E. replace a with (a - b + b) by ring. rewrite E. ring. }
      rewrite (E _ _ Hx), (E _ _ Hy), (E _ _ Hz). reflexivity.
    + intros H. injection H as -> -> ->. ring.
  - rewrite dist_eq. f_equal. ring.
  - intros r s Hr Hs Hu Hw. replace (x3 - x1) with ((x2 - x1) + (x3 - x2)) by ring. replace (y3 - y1) with ((y2 - y1) + (y3 - y2)) by ring. replace (z3 - z1) with ((z2 - z1) + (z3 - z2)) by ring.
    apply triangle; assumption. Qed.
Close Scope Qc_scope.

(** Examples *)
Definition pt (x y z : Z) : pynode := Tuple [Num (Q2Qc (inject_Z x)); Num (Q2Qc (inject_Z y)); Num (Q2Qc (inject_Z z))].
Example ex_distance : distance_sq (pt 1 2 3) (pt 1 5 7) = Ok (Q2Qc (inject_Z 25)) /\ distance_sq (pt 1 2 3) (NotTuple 0) = Err TypeError /\
  distance_sq (Tuple [Num (Q2Qc 1)]) (pt 1 2 3) = Err ValueError.
Proof. splits; vm_compute; reflexivity. Qed.
Definition no_coll (v : Z) : bool := (v <? 0)%Z.
Definition ex_calls : list (call3 unit Z) :=
  [C3AddEdge (pt 0 0 0) (pt 1 0 0) (Some 1%Z) true; C3AddNode (NotTuple 7) None; C3AddEdge (pt 1 0 0) (pt 2 0 0) None false;
   C3FromList [EEdge (pt 1 0 0) (pt 3 0 0) (Some 2%Z); EPair (pt 3 0 0) (pt 4 0 0); ENode (pt 5 0 0)]; C3DelNode (pt 0 0 0)].
Fixpoint list_dec (l k : list pynode) : {l = k} + {l <> k}.
Proof. destruct l as [|x l], k as [|y k]; [left; reflexivity|right; congruence|right; congruence|].
  destruct (eq_dec x y) as [H|H]; [|right; congruence]. destruct (list_dec l k) as [H'|H']; [left; congruence|right; congruence]. Defined.
Lemma by_dec {X} {E : EqDec X} (x y : X) : (if eq_dec x y then true else false) = true -> x = y.
Proof. destruct (eq_dec x y); [auto|discriminate]. Qed.
Example ex_graph3d : nodes (run3 no_coll ex_calls) = [pt 1 0 0; pt 3 0 0] /\
  snd (call3_step no_coll (run3 no_coll ex_calls) (C3FromList [ENode (pt 1 1 1); ENode (Tuple [PyObj 1; PyObj 2; PyObj 3])])) = Err TypeError.
Proof. split; [apply (by_dec (E := list_dec))|]; vm_compute; reflexivity. Qed.
