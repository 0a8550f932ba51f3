(** Property theorems C47, C48, C55, C69 (is_partite, loop, finite state machine). *)
From Verif Require Import Prelude PreludeFacts Base BaseFacts BaseFacts2 BaseFacts3 Spec SpecFacts Loop SearchFacts
  BaseAlgFacts Sp SpFacts MiscSpec Partite PartiteFacts Cycle CycleFacts Fsm FsmSpec FsmFacts.

Section Partite.
Context {A O V : Type} {EA : EqDec A}.
Notation graph := (graph A O V).
Implicit Types (g : graph) (x y : A).

(** C47 for undirected (symmetric) connected graphs; [pick] is set.pop(), any choice of a member.
    n = 2: exact. *)
Theorem C47_bipartite_exact_partial pick g : reachable g -> nodes g <> [] -> (forall l, l <> [] -> In (pick l) l) ->
  (forall x y, has_edge g x y -> has_edge g y x) -> (forall x y, contains g x = true -> contains g y = true -> reach (has_edge g) x y) ->
  exists r, returns (fun k => is_partite pick k g 2) (Ok r) /\
    match r with Some cn => is_partition g 2 cn | None => forall f, ~ colouring g 2 f end.
Proof. intros R Hne Hp Hs Hc. destruct (is_partite_spec pick g 2 (reachable_wf _ R) Hne (Hp _ Hne)) as (r & Hr & H1 & H2); [lia|].
  exists r. split; [exact Hr|]. destruct r as [cn|]; [apply H2; auto|intros f; apply H1; [reflexivity|lia]]. Qed.
(** any n: an answer True is right *)
Theorem C47_partition_sound_partial pick g n : reachable g -> nodes g <> [] -> 1 <= n -> (forall l, l <> [] -> In (pick l) l) ->
  (forall x y, has_edge g x y -> has_edge g y x) -> (forall x y, contains g x = true -> contains g y = true -> reach (has_edge g) x y) ->
  exists r, returns (fun k => is_partite pick k g n) (Ok r) /\ forall cn, r = Some cn -> is_partition g n cn.
Proof. intros R Hne Hn Hp Hs Hc. destruct (is_partite_spec pick g n (reachable_wf _ R) Hne (Hp _ Hne) Hn) as (r & Hr & H1 & H2).
  exists r. split; [exact Hr|]. intros cn E. apply H2; auto. Qed.
(** any graph, directed or not, connected or not, n <= 2: it terminates and an answer False is right *)
Theorem C47_refusal_sound_partial pick g n : reachable g -> nodes g <> [] -> 1 <= n <= 2 -> (forall l, l <> [] -> In (pick l) l) ->
  exists r, returns (fun k => is_partite pick k g n) (Ok r) /\ (r = None -> forall f, ~ colouring g n f).
Proof. intros R Hne Hn Hp. destruct (is_partite_spec pick g n (reachable_wf _ R) Hne (Hp _ Hne)) as (r & Hr & H1 & H2); [lia|].
  exists r. split; [exact Hr|]. intros E. apply H1; [exact E|lia]. Qed.
Theorem C47_terminates_partial pick g n : reachable g -> nodes g <> [] -> 1 <= n -> (forall l, l <> [] -> In (pick l) l) ->
  exists r, returns (fun k => is_partite pick k g n) (Ok r).
Proof. intros R Hne Hn Hp. destruct (is_partite_spec pick g n (reachable_wf _ R) Hne (Hp _ Hne)) as (r & Hr & H1 & H2); [lia|]. eauto. Qed.
End Partite.

(** C47 fails on the directed triangle (two nodes of one colour are joined) and on the undirected triangle with
    three colours (refused although each node could have its own). *)
Definition tri_dir : graph nat unit Z := ok_or empty_graph (run [OpAddEdge 0 1 1%Z false; OpAddEdge 1 2 1%Z false; OpAddEdge 2 0 1%Z false]).
Definition tri_sym : graph nat unit Z := ok_or empty_graph (run [OpAddEdge 0 1 1%Z true; OpAddEdge 1 2 1%Z true; OpAddEdge 2 0 1%Z true]).
Definition pick_hd (l : list nat) : nat := hd 0 l.
Theorem C47_directed_refuted : reachable tri_dir /\ (forall k, is_partite pick_hd (2 + k) tri_dir 2 = Ok (Some [(0, [0]); (1, [1; 2])])) /\
  has_edge tri_dir 1 2 /\ forall f, ~ colouring tri_dir 2 f.
Proof. splits; [apply reachable_run|intros k; vm_compute; reflexivity|exists 1%Z; reflexivity|].
  intros f [F1 F2]. assert (f 0 < 2) by (apply F1; reflexivity). assert (f 1 < 2) by (apply F1; reflexivity). assert (f 2 < 2) by (apply F1; reflexivity).
  assert (f 0 <> f 1) by (apply F2; exists 1%Z; reflexivity). assert (f 1 <> f 2) by (apply F2; exists 1%Z; reflexivity). assert (f 2 <> f 0) by (apply F2; exists 1%Z; reflexivity). lia. Qed.
Theorem C47_three_colours_refuted : reachable tri_sym /\ (forall k, is_partite pick_hd (3 + k) tri_sym 3 = Ok None) /\ colouring tri_sym 3 (fun x => x).
Proof. splits; [apply reachable_run|intros k; vm_compute; reflexivity|]. split.
  - intros x Hx. apply contains_In in Hx. vm_compute in Hx. lia.
  - intros x y Hxy E. subst y. assert (In x (nodes tri_sym)) as Hx by (apply (has_edge_nodes tri_sym x x); [apply reachable_wf, reachable_run|exact Hxy]).
    destruct Hxy as [v Hv]. vm_compute in Hx. repeat destruct Hx as [<-|Hx]; try (vm_compute in Hv; discriminate). destruct Hx. Qed.
(** the hypotheses of the C47 theorems are met: an undirected square *)
Lemma reach_one {A} (R : A -> A -> Prop) a b : R a b -> reach R a b.
Proof. intros H. apply (reach_cons R a b b H), reach_refl. Qed.
Definition square_sym : graph nat unit Z := ok_or empty_graph (run [OpAddEdge 0 1 1%Z true; OpAddEdge 1 2 1%Z true; OpAddEdge 2 3 1%Z true; OpAddEdge 3 0 1%Z true]).
Example ex_square : reachable square_sym /\ nodes square_sym <> [] /\ (forall x y, has_edge square_sym x y -> has_edge square_sym y x) /\
  (forall x y, contains square_sym x = true -> contains square_sym y = true -> reach (has_edge square_sym) x y) /\
  is_partite pick_hd 20 square_sym 2 = Ok (Some [(0, [0; 2]); (1, [1; 3])]).
Proof. assert (reachable square_sym) as R by apply reachable_run. pose proof (reachable_wf _ R) as W. splits; [exact R|vm_compute; discriminate| | |vm_compute; reflexivity].
  - intros x y Hxy. destruct (has_edge_nodes _ x y W Hxy) as [Hx Hy]. destruct Hxy as [v Hv]. vm_compute in Hx, Hy.
    repeat destruct Hx as [<-|Hx]; try destruct Hx; repeat destruct Hy as [<-|Hy]; try destruct Hy; try (vm_compute in Hv; discriminate); exists 1%Z; reflexivity.
  - assert (forall x, contains square_sym x = true -> reach (has_edge square_sym) 0 x /\ reach (has_edge square_sym) x 0) as H.
    { assert (has_edge square_sym 0 1) as e1 by (exists 1%Z; reflexivity). assert (has_edge square_sym 1 2) as e2 by (exists 1%Z; reflexivity).
      assert (has_edge square_sym 2 3) as e3 by (exists 1%Z; reflexivity). assert (has_edge square_sym 3 0) as e4 by (exists 1%Z; reflexivity).
      intros x Hx. apply contains_In in Hx. vm_compute in Hx. repeat destruct Hx as [<-|Hx]; try destruct Hx; (split; [|try apply reach_refl]); try apply reach_refl.
      - exact (reach_one _ _ _ e1).
      - exact (reach_cons _ _ _ _ e2 (reach_cons _ _ _ _ e3 (reach_one _ _ _ e4))).
      - exact (reach_cons _ _ _ _ e1 (reach_one _ _ _ e2)).
      - exact (reach_cons _ _ _ _ e3 (reach_one _ _ _ e4)).
      - exact (reach_cons _ _ _ _ e1 (reach_cons _ _ _ _ e2 (reach_one _ _ _ e3))).
      - exact (reach_one _ _ _ e4). }
    intros x y Hx Hy. eapply reach_trans; [apply H, Hx|apply H, Hy]. Qed.

Section Cycle.
Context {A O : Type} {EA : EqDec A} (cl : gclass).
Notation graph := (graph A O Z).
Implicit Types (g : graph) (x y start mid : A).
(** C48, end = None: the outward leg is a shortest simple path p, the return leg p2 is a shortest route that
    avoids the inner nodes of p; if both exist the answer is a closed walk through mid of that length. *)
Theorem C48_loop_closed g start mid : reachable g -> nonneg g -> contains g start = true -> contains g mid = true ->
  exists d p d2 p2, returns (fun n => cycle_of cl n g start mid None) (Ok (p ++ tl p2)) /\
    shortest_route g start mid [] d p /\ NoDup p /\
    shortest_route g mid start (removelast (tl p)) d2 p2 /\
    match d, d2 with Fin a, Fin b => wpath (edge g) start (p ++ tl p2) start (a + b) | _, _ => True end.
Proof. intros R Hn Hs Hm. apply contains_In in Hs, Hm. destruct (cycle_of_none cl g start mid (reachable_wf _ R) Hn Hs Hm) as (d & p & d2 & p2 & H1 & H2 & H3 & H4).
  exists d, p, d2, p2. splits; auto. destruct d as [a|], d2 as [b|]; auto. eapply cycle_walk; eauto. Qed.
(** end given: the second leg avoids everything on the first but mid; ValueError if end is among those nodes *)
Theorem C48_loop_open g start mid e : reachable g -> nonneg g -> contains g start = true -> contains g mid = true -> contains g e = true ->
  exists d p, shortest_route g start mid [] d p /\ NoDup p /\
    ((In e (removelast p) /\ returns (fun n => cycle_of cl n g start mid (Some e)) (Err ValueError)) \/
     (~ In e (removelast p) /\ exists d2 p2, returns (fun n => cycle_of cl n g start mid (Some e)) (Ok (p ++ tl p2)) /\
        shortest_route g mid e (removelast p) d2 p2 /\
        match d, d2 with Fin a, Fin b => wpath (edge g) start (p ++ tl p2) e (a + b) | _, _ => True end)).
Proof. intros R Hn Hs Hm He. apply contains_In in Hs, Hm, He. destruct (cycle_of_some cl g start mid e (reachable_wf _ R) Hn Hs Hm He) as (d & p & H1 & H2 & H3).
  exists d, p. splits; auto. destruct H3 as [H3|(H3 & d2 & p2 & H4 & H5)]; [left; exact H3|right]. split; [exact H3|]. exists d2, p2. splits; auto. destruct d as [a|], d2 as [b|]; auto. eapply cycle_walk; eauto. Qed.
Theorem C48_bad_nodes g start mid e n : contains g start = false \/ contains g mid = false \/ (exists x, e = Some x /\ contains g x = false) -> cycle_of cl n g start mid e = Err ValueError.
Proof. intros H. unfold cycle_of. destruct (contains g start) eqn:E1; [|reflexivity]. destruct (contains g mid) eqn:E2; [|reflexivity].
  destruct H as [H|[H|(x & -> & Hx)]]; [discriminate|discriminate|]. cbn. rewrite Hx. reflexivity. Qed.
End Cycle.
Definition loop_g : graph nat unit Z := ok_or empty_graph (run [OpAddEdge 0 1 1%Z true; OpAddEdge 1 2 1%Z true; OpAddEdge 2 3 5%Z true; OpAddEdge 3 0 1%Z true]).
Example ex_loop : reachable loop_g /\ contains loop_g 0 = true /\ contains loop_g 2 = true /\ cycle 50 loop_g 0 2 None = Ok [0; 1; 2; 3; 0] /\
  cycle 50 loop_g 0 2 (Some 3) = Ok [0; 1; 2; 3] /\ cycle 50 loop_g 0 2 (Some 1) = Err ValueError.
Proof. splits; try (vm_compute; reflexivity). apply reachable_run. Qed.

Section Fsm.
Context {N act : Type} {EN : EqDec N} {EA : EqDec act}.
(** C55: for every history of calls in which no state is one of the action ids (Python: the ints 0, 1, ...), the
    answers, the exceptions and the final state are those of the list of transitions. *)
Theorem C55_fsm_refines (aid : nat -> N) (cs : list (call (N := N) (act := act))) : (forall i j, aid i = aid j -> i = j) ->
  (forall c s k, In c cs -> In s (call_states c) -> s <> aid k) ->
  do_calls aid fsm_new cs = spec_calls [] None cs.
Proof. intros Hi Hd. apply (calls_refine aid (length (filter is_add cs)) Hi cs); [apply rep_new| |cbn; lia]. intros c s H1 H2 k _. apply (Hd c s k H1 H2). Qed.
(** C69, true part: a state only has to differ from the ids in use, so with n calls of add_transition states may be any
    hashable values other than the ints 0, ..., n-1. *)
Theorem C69_ids_in_use_partial (aid : nat -> N) (cs : list (call (N := N) (act := act))) : (forall i j, aid i = aid j -> i = j) ->
  (forall c s k, In c cs -> In s (call_states c) -> k < length (filter is_add cs) -> s <> aid k) ->
  do_calls aid fsm_new cs = spec_calls [] None cs.
Proof. intros Hi Hd. apply (calls_refine aid (length (filter is_add cs)) Hi cs); [apply rep_new| |cbn; lia]. intros c s H1 H2 k Hk. apply (Hd c s k H1 H2 Hk). Qed.
End Fsm.
(** states are strings (inr), action ids ints (inl) *)
Example ex_fsm : (forall i j, (inl i : nat + nat) = inl j -> i = j) /\
  do_calls (act := nat) (fun k => inl k : nat + nat) fsm_new
    [CAdd (inr 0) 7 (inr 1); CAdd (inr 0) 8 (inr 0); CAdd (inr 0) 7 (inr 2); CNext 7; CInit (inr 0); COptions; CNext 8; CNext 9; CNext 7; CNext 7; CInit (inr 2)] =
  ([Ok []; Ok []; Ok []; Err ValueError; Ok []; Ok [7; 8; 7]; Ok []; Err ValueError; Ok []; Err StopIteration; Err ValueError], Some (inr 1)).
Proof. split; [intros i j E; congruence|vm_compute; reflexivity]. Qed.
(** C69: with int states the claim of the docstring ("any hashable value") fails: state 0 is confused with action id 0. *)
Example ex_fsm_ints : let cs := [CAdd 10 7 11; CAdd 11 7 10; CInit 10; COptions; CNext 7; CNext 8] in
  (forall c s k, In c cs -> In s (call_states c) -> k < length (filter is_add cs) -> s <> k) /\
  do_calls (act := nat) (fun k => k) fsm_new cs = ([Ok []; Ok []; Ok []; Ok [7]; Ok []; Err ValueError], Some 11).
Proof. split; [|vm_compute; reflexivity]. intros c s k Hc Hs Hk. cbn in Hk. cbn in Hc. repeat destruct Hc as [<-|Hc]; cbn in Hs; try lia; destruct Hc. Qed.
Theorem C69_int_states_refuted :
  fst (do_calls (act := nat) (fun k => k) fsm_new [CAdd 0 7 1; CInit 0; COptions]) = [Ok []; Ok []; Err KeyError] /\
  fst (spec_calls (act := nat) [] None [CAdd 0 7 1; CInit 0; COptions]) = [Ok []; Ok []; Ok [7]].
Proof. split; vm_compute; reflexivity. Qed.
