(** C94, C95: the generators topological_sort and breadth_first_walk while the graph is edited between calls of next(). *)
From Verif Require Import Prelude PreludeFacts Base BaseFacts BaseFacts2 BaseFacts3 Spec SpecFacts Loop SearchFacts BaseAlgFacts Bfs BfsFacts Topo TopoFacts Gen GenFacts.

Section P.
Context {A O V : Type} {EA : EqDec A}.
Notation graph := (graph A O V).
Implicit Types (gs : nat -> graph).

(** C94.  [gs i] is the graph when next() is called for the (i+1)-th time: any edits may have happened in between.  The
    calls yield a topological order of the graph as it was at the first call, whatever happens later. *)
Theorem C94_topo_snapshot c srt gs : reachable (gs 0) -> (forall l, Permutation (srt l) l) ->
  let ev := event_at (topo_next c srt) TNew gs in
  exists order err, returns (fun n => topological_sort_of c srt n (gs 0)) (Ok (order, err)) /\
    NoDup order /\ preds_first (has_edge (gs 0)) order /\
    (acyclic (has_edge (gs 0)) -> Permutation order (nodes (gs 0)) /\ forall i, ev i = nth i (map Yield order) Stop) /\
    (~ acyclic (has_edge (gs 0)) -> incl order (nodes (gs 0)) /\ forall i, ev i = nth i (map Yield order ++ [Raise AttributeError]) Stop).
Proof. intros H Hs ev. apply reachable_wf in H. destruct (topological_sort_of_spec c srt (gs 0) H Hs) as (order & err & Hr & Hnd & Hin & Hpf & Hc). exists order, err. splits; auto.
  - intros Hac. destruct Hc as [(-> & _ & Hp)|(_ & x & _ & _ & Hx)]; [|destruct (Hac x Hx)]. split; [exact Hp|]. destruct Hr as (_ & (n & Hn) & _). intros i. unfold ev. rewrite (topo_schedule c srt gs n order None (Hn n (le_n n)) i). cbn [fin].
    destruct (le_lt_dec (length order) i) as [L|L]; [|rewrite app_nth1 by (rewrite map_length; exact L); reflexivity]. rewrite (nth_overflow (map Yield order)) by (rewrite map_length; exact L).
    destruct (Nat.eq_dec i (length order)) as [->|]; [rewrite app_nth2, map_length, Nat.sub_diag by (rewrite map_length; lia); reflexivity|]. apply nth_overflow. rewrite app_length, map_length. cbn. lia.
  - intros Hnc. destruct Hc as [(_ & Hac & _)|(-> & _)]; [tauto|]. split; [exact Hin|]. destruct Hr as (_ & (n & Hn) & _). intros i. apply (topo_schedule c srt gs n order (Some AttributeError) (Hn n (le_n n)) i). Qed.
(** later edits make no difference, and edits before the first call count *)
Theorem C94_topo_independent c srt gs gs' i : gs 0 = gs' 0 -> event_at (topo_next c srt) TNew gs i = event_at (topo_next c srt) TNew gs' i.
Proof. intros E. assert (forall k, state_at (topo_next c srt) TNew gs (S k) = state_at (topo_next c srt) TNew gs' (S k) /\ state_at (topo_next c srt) TNew gs (S k) <> TNew) as K.
  { induction k as [|k [IH Hn]]; cbn [state_at].
    - rewrite <- E. split; [reflexivity|]. cbn [topo_next]. destruct (copy_of c (gs 0)) as [g2| |]; try discriminate. unfold topo_batch. destruct (srt _); discriminate.
    - change (snd (topo_next c srt (gs k) (state_at (topo_next c srt) TNew gs k))) with (state_at (topo_next c srt) TNew gs (S k)). change (snd (topo_next c srt (gs' k) (state_at (topo_next c srt) TNew gs' k))) with (state_at (topo_next c srt) TNew gs' (S k)).
      rewrite <- IH. destruct (state_at (topo_next c srt) TNew gs (S k)) as [|g2 t r|]; [congruence| |split; [reflexivity|discriminate]]. cbn [topo_next]. split; [reflexivity|]. destruct (del_node g2 t) as [g3| |]; try discriminate. destruct r; [|discriminate]. unfold topo_batch. destruct (srt _); discriminate. }
  unfold event_at. destruct i as [|i]; [cbn [state_at]; rewrite <- E; reflexivity|]. destruct (K i) as [Ek Hn]. rewrite <- Ek. destruct (state_at (topo_next c srt) TNew gs (S i)); [congruence|reflexivity|reflexivity]. Qed.

(** C95.  [R g x y]: y is next to x in walking direction *)
Definition towards (rv : bool) (g : graph) (x y : A) : Prop := if rv then has_edge g y x else has_edge g x y.
Lemma succ_towards (rv : bool) (g : graph) x y : wf g -> In y (if rv then nodes_to g x else nodes_from g x) <-> towards rv g x y.
Proof. intros W. unfold towards. destruct rv; [rewrite (In_to g y x W); reflexivity|rewrite (In_from g x y W); reflexivity]. Qed.
Section W.
Context (s : A) (e : option A) (rv : bool) (gs : nat -> graph).
Notation ev := (event_at (walk_next s e rv) WNew gs).
(** the arguments are checked by the first next(), against the graph at that time *)
Theorem C95_bad_nodes : contains (gs 0) s = false \/ (exists x, e = Some x /\ contains (gs 0) x = false) -> ev 0 = Raise ValueError /\ forall i, 0 < i -> ev i = Stop.
Proof. intros H. assert (walk_next s e rv (gs 0) WNew = (Raise ValueError, WDone)) as E.
  { cbn [walk_next]. destruct H as [->|(x & -> & ->)]; [reflexivity|]. destruct (negb (contains (gs 0) s)); reflexivity. }
  split; [unfold event_at; cbn [state_at]; rewrite E; reflexivity|]. intros i Hi. apply (wdone_stops s e rv gs 1); [cbn [state_at]; rewrite E; reflexivity|lia]. Qed.
(** no edits: the list of C19 *)
Theorem C95_unedited g n l : (forall i, gs i = g) -> breadth_first_walk n g s e rv = Ok l -> forall i, ev i = nth i (map Yield l) Stop.
Proof. apply walk_static. Qed.
(** Any edits: start is first, no exception, no node twice; every other node was next to an earlier one when next() was
    called after the earlier one; when the walk has stopped it stays stopped; and unless it found [end], it has yielded
    every node that was next to a yielded node at that node's turn. *)
Theorem C95_any_edits : (forall i, reachable (gs i)) -> contains (gs 0) s = true -> (forall x, e = Some x -> contains (gs 0) x = true) ->
  ev 0 = Yield s /\
  (forall i, (exists x, ev i = Yield x) \/ ev i = Stop) /\
  (forall i j x, ev i = Yield x -> ev j = Yield x -> i = j) /\
  (forall j y, ev j = Yield y -> y = s \/ exists i x, i < j /\ ev i = Yield x /\ towards rv (gs (S i)) x y) /\
  (forall i j, i <= j -> ev i = Stop -> ev j = Stop) /\
  (forall i x, ev i = Yield x -> e = Some x -> ev (S i) = Stop) /\
  (forall k i x y, ev k = Stop -> (forall z, e = Some z -> forall j, ev j <> Yield z) -> ev i = Yield x -> towards rv (gs (S i)) x y -> exists j, ev j = Yield y).
Proof. intros HR Hs He. assert (forall i, wf (gs i)) as W by (intros; apply reachable_wf, HR). pose proof (walk_all s e rv gs Hs He) as HA.
  assert (ev 0 = Yield s) as E0. { destruct (HA 0) as [(out & q & vis & node & _ & _ & _ & _ & _ & H0 & Hev & _)|(k0 & L & out & Lk & _)]; [rewrite (Hev 0), H0 by lia; reflexivity|lia]. }
  assert (forall i, (exists x, ev i = Yield x) \/ ev i = Stop) as E1.
  { intros i. destruct (HA i) as [(out & q & vis & node & _ & _ & _ & _ & _ & H0 & Hev & _)|(k0 & L & out & Lk & _ & _ & _ & _ & Hst & _)]; [left; eexists; apply (Hev i (le_n i))|right; apply Hst, L]. }
  assert (forall i j, i <= j -> ev i = Stop -> ev j = Stop) as E2.
  { intros i j Hij Hi. destruct (HA j) as [(out & q & vis & node & _ & _ & _ & _ & _ & H0 & Hev & _)|(k0 & L & out & Lk & _ & _ & _ & _ & Hst & _)]; [rewrite (Hev i) in Hi by lia; discriminate|apply Hst, L]. }
  splits; auto.
  - assert (forall i j x, i < j -> ev i = Yield x -> ev j = Yield x -> False) as K.
    { intros i j x Hij Hi Hj. destruct (HA j) as [(out & q & vis & node & _ & Hl & _ & _ & Hnd & _ & Hev & _)|(k0 & L & out & _ & _ & _ & _ & _ & Hst & _)]; [|rewrite (Hst j L) in Hj; discriminate].
      rewrite (Hev i) in Hi by lia. rewrite (Hev j) in Hj by lia. injection Hi as Hi. injection Hj as Hj. apply NoDup_app_iff in Hnd. destruct Hnd as [Hnd _]. apply (proj1 (NoDup_nth out s)) with (i := i) (j := j) in Hnd; [lia|lia|lia|congruence]. }
    intros i j x Hi Hj. destruct (Nat.lt_trichotomy i j) as [L|[L|L]]; [destruct (K i j x L Hi Hj)|exact L|destruct (K j i x L Hj Hi)].
  - intros j y Hj. destruct (HA j) as [(out & q & vis & node & _ & Hl & _ & _ & _ & _ & Hev & Hju & _)|(k0 & L & out & _ & _ & _ & _ & _ & Hst & _)]; [|rewrite (Hst j L) in Hj; discriminate].
    pose proof Hj as Hj2. rewrite (Hev j) in Hj2 by lia. injection Hj2 as Hy. destruct (Hju y) as [->|(i & Hi & Hin)]; [apply in_app_iff; left; rewrite <- Hy; apply nth_In; lia|auto|]. right. exists i, (nth i out s). splits; [exact Hi|apply Hev; lia|]. apply succ_towards; auto.
  - intros i x Hi Ex. destruct (HA (S i)) as [(out & q & vis & node & _ & Hl & _ & _ & _ & _ & Hev & _ & Hne & _)|(k0 & L & out & _ & _ & _ & _ & _ & Hst & _)]; [|apply Hst, L].
    rewrite (Hev i) in Hi by lia. injection Hi as Hi. exfalso. apply (Hne i); [lia|congruence].
  - intros k i x y Hk Hz Hi Hxy. destruct (HA k) as [(out & q & vis & node & _ & Hl & _ & _ & _ & _ & Hev & _)|(k0 & L & out & Lk & Hl & _ & _ & Hev & Hst & _ & _ & Hcl)]; [rewrite (Hev k) in Hk by lia; discriminate|].
    assert (i < k0) as Li by (destruct (le_lt_dec k0 i) as [C|C]; [rewrite (Hst i C) in Hi; discriminate|exact C]). rewrite (Hev i Li) in Hi. injection Hi as Hi.
    assert (In y out) as Hy. { apply (Hcl ltac:(intros z Ez Hin; apply (In_nth out z s) in Hin; destruct Hin as (j & Lj & Ej); apply (Hz z Ez j); rewrite (Hev j) by lia; congruence) i y Li). rewrite Hi. apply succ_towards; auto. }
    apply (In_nth out y s) in Hy. destruct Hy as (j & Lj & Ej). exists j. rewrite (Hev j) by lia. congruence. Qed.
(** so edges that are there all the time are all followed *)
Theorem C95_lasting_edges k y : (forall i, reachable (gs i)) -> contains (gs 0) s = true -> e = None -> ev k = Stop ->
  reach (fun a b => forall i, towards rv (gs i) a b) s y -> exists j, j < k /\ ev j = Yield y.
Proof. intros HR Hs He Hk Hy. destruct (C95_any_edits HR Hs ltac:(congruence)) as (E0 & _ & _ & _ & Hst & _ & Hcl).
  assert (exists j, ev j = Yield y) as (j & Hj). { revert y Hy. apply reach_ind_r; [exists 0; exact E0|]. intros a b _ (i & Hi) Hab. apply (Hcl k i a b Hk); [rewrite He; discriminate|exact Hi|apply Hab]. }
  exists j. split; [|exact Hj]. destruct (le_lt_dec k j) as [C|C]; [rewrite (Hst k j C Hk) in Hj; discriminate|exact C]. Qed.
(** if only finitely many nodes are ever in the graph, the walk stops *)
Theorem C95_stops U : (forall i, reachable (gs i)) -> contains (gs 0) s = true -> (forall x, e = Some x -> contains (gs 0) x = true) ->
  (forall i x, contains (gs i) x = true -> In x U) -> ev (length U) = Stop.
Proof. intros HR Hs He HU. assert (forall i, wf (gs i)) as W by (intros; apply reachable_wf, HR). destruct (walk_all s e rv gs Hs He (length U)) as [(out & q & vis & node & _ & Hl & _ & _ & Hnd & _ & _ & Hju & _)|(k0 & L & out & _ & _ & _ & _ & _ & Hst & _)]; [|apply Hst, L]. exfalso.
  apply NoDup_app_iff in Hnd. destruct Hnd as [Hnd _]. assert (incl out U) as Hi.
  { intros y Hy. destruct (Hju y ltac:(apply in_app_iff; auto)) as [->|(i & _ & Hin)]; [apply (HU 0), Hs|]. apply (HU (S i)), contains_In. apply succ_towards in Hin; [|apply W]. unfold towards in Hin. destruct rv; apply (has_edge_nodes (gs (S i)) _ _ (W (S i)) Hin). }
  apply (NoDup_incl_length Hnd) in Hi. lia. Qed.
End W.
End P.

(** ** examples *)
Definition g_w : graph nat unit Z := ok_or empty_graph (run [OpAddEdge 1 2 1%Z false; OpAddEdge 1 3 1%Z false; OpAddEdge 3 4 1%Z false]).
(** the same after del_node(3), and after add_edge(2, 5) *)
Definition g_w2 : graph nat unit Z := ok_or empty_graph (run [OpAddEdge 1 2 1%Z false; OpAddEdge 1 3 1%Z false; OpAddEdge 3 4 1%Z false; OpDelNode 3]).
Definition g_w3 : graph nat unit Z := ok_or empty_graph (run [OpAddEdge 1 2 1%Z false; OpAddEdge 1 3 1%Z false; OpAddEdge 3 4 1%Z false; OpDelNode 3; OpAddEdge 2 5 1%Z false]).
Definition sched (i : nat) : graph nat unit Z := match i with 0 | 1 => g_w | 2 => g_w3 | _ => g_w2 end.
Lemma sched_reachable i : reachable (sched i).
Proof. destruct i as [|[|[|i]]]; cbn [sched]; apply reachable_run. Qed.
(** 3 is yielded although it was deleted before; 5 is yielded because the edge 2 -> 5 was there when it was the turn of 2 *)
Example ex_sched : map (event_at (walk_next 1 None false) WNew sched) [0; 1; 2; 3; 4; 5] = [Yield 1; Yield 2; Yield 3; Yield 5; Stop; Stop].
Proof. vm_compute. reflexivity. Qed.
Example ex_topo_sched : map (event_at (topo_next IsGraph (fun l => l)) TNew sched) [0; 1; 2; 3; 4; 5] = [Yield 1; Yield 2; Yield 3; Yield 4; Stop; Stop].
Proof. vm_compute. reflexivity. Qed.
(** C95 fails where one expects every yielded node to be in the graph at that moment *)
Theorem C95_deleted_node_refuted : (forall i, reachable (sched i)) /\ contains (sched 0) 1 = true /\
  event_at (walk_next 1 None false) WNew sched 2 = Yield 3 /\ contains (sched 2) 3 = false.
Proof. split; [exact sched_reachable|]. splits; vm_compute; reflexivity. Qed.
