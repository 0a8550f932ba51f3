(** Property theorems C60, C61, C71-C73 (the traffic jam solver). *)
From Verif Require Import Prelude PreludeFacts Base BaseFacts BaseFacts2 BaseFacts3 Spec SpecFacts Loop SearchFacts BaseAlgFacts
  MaxFlowFacts HashFacts Sp SpFacts Bfs BfsFacts Fw DmFacts TrafficSpec Traffic TrafficFacts Jam JamFacts JamFacts2 JamFacts3 JamFacts4 FlowSpec PropsFlow PropsTraffic.

Section P.
(** [srt]: sorted() of (distance, node) pairs; [ordN], [ordS]: iteration orders of sets of nodes and of states;
    [apsrt]: sorted() by length, [pick]: set.pop(); [t0], [now]: the clock when the timer is created and at its i-th
    call.  The theorems hold for every such environment. *)
Context {L N O : Type} {EL : EqDec L} {EN : EqDec N}.
Notation graph := (graph N O Z).
Notation rawt := (N * option (list N) * option (list N))%type.
Context (srt : list (Z * N) -> list (Z * N)) (ordN : list N -> list N) (ordS : list (list (L * N)) -> list (list (L * N)))
  (apsrt : dict L (list N) -> dict L (list N)) (pick : nat -> list N -> N) (t0 : Z) (now : nat -> Z).
Definition environment : Prop :=
  (forall l, Permutation (srt l) l) /\ (forall l, Permutation (ordN l) l) /\ (forall l, Permutation (ordS l) l) /\
  sorts_by_len apsrt /\ (forall i l, l <> [] -> In (pick i l) l).
Notation solver n g ls timeout sync first := (jam_solver srt ordN ordS apsrt pick t0 now n g ls timeout sync first).
Implicit Types (g : graph) (ls : dict L rawt).

(** C60: the solver always terminates, at the latest when all states are explored.  It returns moves that lead from
    the starts to a position in which every load has arrived, each along an edge into a free location that is not
    prohibited for the load or is one of its ends; or it raises one of three exceptions. *)
Theorem C60_moves_legal g ls timeout sync first : environment -> reachable g -> nonneg g -> NoDup (dkeys ls) ->
  (sync = true -> NoDup (dvals (starts ls))) ->
  exists r, returns (fun n => solver n g ls timeout sync first) r /\
    match r with
    | Ok groups => exists P', plan_from (may_move_or_end g ls) (starts ls) (sequence groups) P' /\ arrived ls P'
    | Err e => e = ValueError \/ e = UnSolvable \/ e = NoSolution
    | OutOfFuel => False
    end.
Proof. intros (H1 & H2 & H3 & _) HR Hn HD Hs. destruct (jam_solver_spec srt H1 ordN H2 ordS H3 apsrt pick t0 now g (reachable_wf _ HR) Hn ls timeout sync first HD Hs) as (r & Hr & Hm & _). eauto. Qed.

(** C61: return_on_first has no effect: at every clock, with every time limit, the same result after the same work *)
Theorem C61_return_on_first_ignored_partial g ls timeout sync n : solver n g ls timeout sync true = solver n g ls timeout sync false.
Proof. apply jam_solver_dead. Qed.

(** C71: if no load may end at a location prohibited for it, no load ever enters a location prohibited for it.
    Missing: the case of prohibited ends, where it fails. *)
Theorem C71_prohibited_respected_partial g ls timeout sync first groups : environment -> reachable g -> nonneg g -> NoDup (dkeys ls) ->
  (sync = true -> NoDup (dvals (starts ls))) ->
  (forall l r x, In (l, r) ls -> In x (raw_ends r) -> ~ In x (raw_proh r)) ->
  returns (fun n => solver n g ls timeout sync first) (Ok groups) ->
  exists P', plan_from (may_move g ls) (starts ls) (sequence groups) P' /\ arrived ls P'.
Proof. intros He HR Hn HD Hs Hp Hret. destruct (C60_moves_legal g ls timeout sync first He HR Hn HD Hs) as (r & Hr & Hm). pose proof (returns_fun _ _ _ Hret Hr) as E. subst r.
  destruct Hm as (P' & HP & HA). exists P'. split; [|exact HA]. revert HP. apply plan_mono. intros l a b (r & d & E1 & E2 & E3). exists r, d. splits; auto. destruct E3 as [E3|E3]; [exact E3|]. exact (Hp l r b (dget_In _ _ _ E1) E3). Qed.

Lemma loads_ends_forall2 ls all : loads_rel ls all -> forall P' : dict L N, NoDup (dkeys ls) -> dkeys P' = dkeys ls ->
  (forall l a, In (l, a) P' -> exists r, dget l ls = Some r /\ In a (raw_ends r)) -> Forall2 (fun x c => In c (snd x)) (map (fun x : L * load N => (fst x, ld_ends (snd x))) all) (dvals P').
Proof. intros H. induction H as [|[k r] [k' ld] ls all [E Q] H IH]; intros P' D A1 A3; destruct P' as [|[k2 a] P']; try discriminate A1; cbn [map dvals]; [constructor|].
  cbn in A1. injection A1 as -> A1. cbn in D. apply NoDup_cons_iff in D. destruct D as [D1 D2]. apply Forall2_cons.
  - cbn [snd]. destruct (A3 k a) as (r0 & E0 & Ha); [left; reflexivity|]. cbn in E0. destruct (eq_dec k k); [|congruence]. injection E0 as <-. apply Q, Ha.
  - apply IH; auto. intros l b Hb. destruct (A3 l b) as (r0 & E0 & Ha); [right; exact Hb|]. exists r0. split; [|exact Ha]. cbn in E0. destruct (eq_dec l k) as [->|]; [|exact E0]. exfalso. apply D1. rewrite <- A1. apply (in_map fst) in Hb. exact Hb. Qed.
(** C72: NoSolution (without time limit) is only raised if there is no plan *)
Theorem C72_no_solution_exact_partial g ls sync first ms P' : environment -> reachable g -> nonneg g -> NoDup (dkeys ls) ->
  (sync = true -> NoDup (dvals (starts ls))) ->
  returns (fun n => solver n g ls None sync first) (Err NoSolution) -> plan_from (may_move g ls) (starts ls) ms P' -> ~ arrived ls P'.
Proof. intros (H1 & H2 & H3 & _) HR Hn HD Hs Hret HP HA. destruct (jam_solver_spec srt H1 ordN H2 ordS H3 apsrt pick t0 now g (reachable_wf _ HR) Hn ls None sync first HD Hs) as (r & Hr & Hm & Hc).
  pose proof (returns_fun _ _ _ Hret Hr) as E. subst r. destruct (Hc eq_refl ms P' HP HA) as [C _]. congruence. Qed.
(** a plan is found whenever there is one, if there are at most two loads or the sets of ends are pairwise nested or
    disjoint, all nodes are in the graph and no load starts where it is prohibited.  Missing: three or more loads with
    overlapping sets of ends, where it fails. *)
Theorem C72_complete_partial g ls sync first ms P' : environment -> reachable g -> nonneg g -> NoDup (dkeys ls) ->
  (sync = true -> NoDup (dvals (starts ls))) ->
  (forall l r, In (l, r) ls -> In (raw_start r) (nodes g) /\ ~ In (raw_start r) (raw_proh r) /\ forall x, In x (raw_ends r) -> In x (nodes g)) ->
  (length ls <= 2 \/
   forall l r l' r' x, In (l, r) ls -> In (l', r') ls -> In x (raw_ends r) -> In x (raw_ends r') -> incl (raw_ends r) (raw_ends r') \/ incl (raw_ends r') (raw_ends r)) ->
  plan_from (may_move g ls) (starts ls) ms P' -> arrived ls P' ->
  exists groups, returns (fun n => solver n g ls None sync first) (Ok groups).
Proof. intros (H1 & H2 & H3 & H4 & H5) HR Hn HD Hs Hin Hlam HP HA. destruct (jam_solver_spec srt H1 ordN H2 ordS H3 apsrt pick t0 now g (reachable_wf _ HR) Hn ls None sync first HD Hs) as (r & Hr & Hm & Hc).
  destruct (Hc eq_refl ms P' HP HA) as (_ & Hok & _). destruct Hok as [groups ->]; [| |eauto].
  - intros l r0 Hl. destruct (Hin l r0 Hl) as (K1 & K2 & K3). splits; auto. intros C.
    destruct HA as (A1 & _ & A3). assert (In l (dkeys P')) as K by (rewrite A1; apply (in_map fst) in Hl; exact Hl). apply in_map_iff in K. destruct K as ([l' a] & E & K). cbn in E. subst l'. destruct (A3 l a K) as (r1 & E1 & E2).
    apply In_dget in Hl; [|exact HD]. assert (r1 = r0) by congruence. subst r1. unfold raw_ends in E2. rewrite C in E2. destruct E2.
  - intros all Hrel. assert (forall l e, In (l, e) (map (fun x : L * load N => (fst x, ld_ends (snd x))) all) -> exists r0, In (l, r0) ls /\ NoDup e /\ forall x, In x e <-> In x (raw_ends r0)) as Hb.
    { intros l e Hle. apply in_map_iff in Hle. destruct Hle as ([l' ld] & E & Hl). inversion E; subst l' e. cbn [snd] in *. apply In_dget in Hl; [|rewrite (loads_rel_keys _ _ Hrel); exact HD].
      pose proof (loads_rel_get ls all l Hrel) as Q. rewrite Hl in Q. destruct (dget l ls) as [r0|] eqn:Er; [|destruct Q]. exists r0. split; [apply dget_In, Er|]. destruct Q as (_ & Q2 & _ & Q4 & _). auto. }
    assert (assignable (map (fun x : L * load N => (fst x, ld_ends (snd x))) all)) as Has.
    { destruct HA as (A1 & A2 & A3). exists (dvals P'). split; [|exact A2]. apply (loads_ends_forall2 ls all Hrel P' HD A1 A3). }
    destruct Hlam as [H2l|Hlam].
    { apply (C59_two_loads_partial apsrt pick); [exact H4|exact H5| | |exact Has].
      - intros l e Hle. destruct (Hb l e Hle) as (_ & _ & Q & _). exact Q.
      - rewrite map_length. pose proof (f_equal (@length L) (loads_rel_keys _ _ Hrel)) as Ek. unfold dkeys in Ek. rewrite !map_length in Ek. lia. }
    apply (C59_laminar_exact_partial apsrt pick); [exact H4|exact H5| | |exact Has].
    + intros l e Hle. destruct (Hb l e Hle) as (_ & _ & Q & _). exact Q.
    + intros l e l' e' x K1 K2 X1 X2. destruct (Hb l e K1) as (r1 & R1 & _ & Q1). destruct (Hb l' e' K2) as (r2 & R2 & _ & Q2). apply Q1 in X1. apply Q2 in X2.
      destruct (Hlam l r1 l' r2 x R1 R2 X1 X2) as [I|I]; [left|right]; intros y Hy; [apply Q2, I, Q1, Hy|apply Q1, I, Q2, Hy]. Qed.

Lemma arrived_unique ls P1 P2 : NoDup (dkeys ls) -> (forall l r x y, In (l, r) ls -> In x (raw_ends r) -> In y (raw_ends r) -> x = y) -> arrived ls P1 -> arrived ls P2 -> P1 = P2.
Proof. intros HD Hu (A1 & _ & A3) (B1 & _ & B3). rewrite <- A1 in B1. clear A1. revert P2 B1 B3. induction P1 as [|[l a] P1 IH]; intros [|[l' b] P2] B1 B3; try discriminate; [reflexivity|].
  cbn in B1. injection B1 as -> B1. f_equal.
  - f_equal. destruct (A3 l a (or_introl eq_refl)) as (r & R1 & R2). destruct (B3 l b (or_introl eq_refl)) as (r' & R1' & R2'). assert (r' = r) by congruence. subst r'. apply (Hu l r); auto. apply dget_In, R1.
  - apply IH; [intros k c H; apply A3; right; exact H|exact B1|intros k c H; apply B3; right; exact H]. Qed.
(** C73: the plan returned (without time limit) is at most as long as every plan of up to three moves, and as every plan
    of up to four moves if every load has one end.  Missing: longer plans, where it fails. *)
Theorem C73_short_plans_partial g ls sync first groups ms P' : environment -> reachable g -> nonneg g -> NoDup (dkeys ls) -> NoDup (dvals (starts ls)) ->
  returns (fun n => solver n g ls None sync first) (Ok groups) ->
  plan_from (may_move g ls) (starts ls) ms P' -> arrived ls P' ->
  length ms <= 3 \/ (length ms <= 4 /\ forall l r x y, In (l, r) ls -> In x (raw_ends r) -> In y (raw_ends r) -> x = y) ->
  (plan_length g (sequence groups) <= plan_length g ms)%Z.
Proof. intros (H1 & H2 & H3 & _) HR Hn HD Hs Hret HP HA Hlen. destruct (jam_solver_spec srt H1 ordN H2 ordS H3 apsrt pick t0 now g (reachable_wf _ HR) Hn ls None sync first HD (fun _ => Hs)) as (r & Hr & Hm & Hc).
  pose proof (returns_fun _ _ _ Hret Hr) as E. destruct (Hc eq_refl ms P' HP HA) as (_ & _ & K). apply (K Hs); [|symmetry; exact E].
  destruct Hlen as [Hl|[Hl Hu]]; [left; exact Hl|right]. split; [exact Hl|]. intros P2 H2'. apply (arrived_unique ls); assumption. Qed.
End P.

(** ** Concrete cases.  The environment: everything in list order. *)
Definition jam_graph (l : list (nat * nat * Z)) : graph nat unit Z :=
  ok_or empty_graph (run (map (fun e => OpAddEdge (fst (fst e)) (snd (fst e)) (snd e) false) l)).
Notation plain f := (f (fun l => l) (fun l => l) (fun l => l) sort_len (fun (_ : nat) (l : list nat) => hd 0 l)).
Definition jam_plain := plain (@jam_solver nat nat unit _ _) 0%Z (fun _ => 0%Z).
Example ex_environment : plain (@environment nat nat).
Proof. unfold environment. splits; auto using sort_len_ok. intros i [|x l] H; [congruence|left; reflexivity]. Qed.
Lemma jam_graph_ok l : match run (O := unit) (map (fun e => OpAddEdge (fst (fst e)) (snd (fst e)) (snd e) false) l) with Ok _ => true | _ => false end = true ->
  forallb (fun e => (0 <=? snd e)%Z) (edges (jam_graph l)) = true -> reachable (jam_graph l) /\ nonneg (jam_graph l).
Proof. intros H1 H2. assert (reachable (jam_graph l)) as HR. { eexists. unfold jam_graph. destruct (run _) eqn:E; [exact E|discriminate|discriminate]. } split; [exact HR|]. apply nonneg_check; [apply reachable_wf, HR|exact H2]. Qed.
Ltac norm_pos := match goal with |- plan_from ?m ?P ?ms ?Q => let P' := eval vm_compute in P in change (plan_from m P' ms Q) end.
Ltac jam_ok := apply jam_graph_ok; vm_compute; reflexivity.

(** two loads swap places in a passing loop 1-2-3 with a siding 4 at 2, with and without synchronous moves *)
Definition jam_siding : graph nat unit Z := jam_graph [(1, 2, 1%Z); (2, 1, 1%Z); (2, 3, 1%Z); (3, 2, 1%Z); (2, 4, 1%Z); (4, 2, 1%Z)].
Definition jam_swap : dict nat (nat * option (list nat) * option (list nat)) := [(0, (1, Some [3], None)); (1, (3, Some [1; 2], Some [4]))].
Example ex_jam : reachable jam_siding /\ nonneg jam_siding /\ NoDup (dkeys jam_swap) /\ NoDup (dvals (starts jam_swap)) /\
  (forall l r x, In (l, r) jam_swap -> In x (raw_ends r) -> ~ In x (raw_proh r)) /\
  jam_plain 100 jam_siding jam_swap None false true = Ok [[(0, (1, 2))]; [(0, (2, 4))]; [(1, (3, 2))]; [(1, (2, 1))]; [(0, (4, 2))]; [(0, (2, 3))]] /\
  jam_plain 100 jam_siding jam_swap (Some 10%Z) true true = Ok [[(0, (1, 2))]; [(0, (2, 4)); (1, (3, 2))]; [(1, (2, 1)); (0, (4, 2))]; [(0, (2, 3))]].
Proof. split; [|split; [|splits]].
  1,2: jam_ok.
  - repeat (constructor; [cbn; lia|]). constructor.
  - repeat (constructor; [cbn; lia|]). constructor.
  - intros l r x [H|[H|[]]] Hx; inversion H; subst; cbn in *; lia.
  - vm_compute. reflexivity.
  - vm_compute. reflexivity. Qed.

(** C61 fails: on the line 1 -> 2 -> ... -> 9 with goal 2 the first round of the search already records the move to the
    goal, but four more rounds do not end the search (with either value of return_on_first) *)
Definition jam_line : graph nat unit Z := jam_graph [(1, 2, 1%Z); (2, 3, 1%Z); (3, 4, 1%Z); (4, 5, 1%Z); (5, 6, 1%Z); (6, 7, 1%Z); (7, 8, 1%Z); (8, 9, 1%Z)].
Theorem C61_search_goes_on_refuted first : exists start finals dms J tm J1 tm1 i1,
  jam_init (fun l => l) 50 jam_line [(0, mkLoad 1 [2] [])] = Ok (start, finals, dms, J) /\ timer_new None 0 = Ok tm /\
  let step := jam_step (fun l => l) (fun l => l) (fun _ => 0%Z) 50 first jam_line [(0, mkLoad 1 [2] [])] start finals dms in
  step (J, tm, 0) = inl (J1, tm1, i1) /\
  shortest_multi 50 (j_mov J1) start finals = Ok (Fin 1, Some [[(0, 1)]; [(0, 2)]]) /\
  loop 4 step (J1, tm1, i1) = OutOfFuel.
Proof. do 8 eexists. split; [vm_compute; reflexivity|]. split; [reflexivity|]. cbv zeta. destruct first; (split; [vm_compute; reflexivity|split; vm_compute; reflexivity]). Qed.

(** C71 fails for prohibited ends: 4 is prohibited, and an end; the solver moves there although the end 3 is permitted *)
Definition jam_fork : graph nat unit Z := jam_graph [(1, 4, 1%Z); (1, 3, 9%Z)].
Definition jam_bad_end : dict nat (nat * option (list nat) * option (list nat)) := [(0, (1, Some [3; 4], Some [4]))].
Theorem C71_prohibited_end_refuted : reachable jam_fork /\ nonneg jam_fork /\
  jam_plain 40 jam_fork jam_bad_end None false true = Ok [[(0, (1, 4))]] /\ ~ may_move jam_fork jam_bad_end 0 1 4 /\
  plan_from (may_move jam_fork jam_bad_end) (starts jam_bad_end) [(0, 1, 3)] [(0, 3)] /\ arrived jam_bad_end [(0, 3)].
Proof. split; [|split; [|splits]].
  1,2: jam_ok.
  - vm_compute. reflexivity.
  - intros (r & d & E1 & _ & E3). inversion E1; subst r. apply E3. left. reflexivity.
  - apply plan_step; [reflexivity|cbn; lia| |apply plan_done]. exists (1, Some [3; 4], Some [4]), 9%Z. splits; [reflexivity|vm_compute; reflexivity|cbn; lia].
  - hnf. splits; [reflexivity|repeat (constructor; [cbn; lia|]); constructor|].
    intros l a [H|[]]. inversion H; subst. exists (1, Some [3; 4], Some [4]). split; [reflexivity|cbn; auto]. Qed.

(** C72: the hypotheses of the completeness theorem are met by ex_jam's input ... *)
Example ex_jam_complete :
  (forall l r, In (l, r) jam_swap -> In (raw_start r) (nodes jam_siding) /\ ~ In (raw_start r) (raw_proh r) /\ forall x, In x (raw_ends r) -> In x (nodes jam_siding)) /\
  (forall l r l' r' x, In (l, r) jam_swap -> In (l', r') jam_swap -> In x (raw_ends r) -> In x (raw_ends r') -> incl (raw_ends r) (raw_ends r') \/ incl (raw_ends r') (raw_ends r)) /\
  exists ms P', plan_from (may_move jam_siding jam_swap) (starts jam_swap) ms P' /\ arrived jam_swap P'.
Proof. splits.
  - assert (nodes jam_siding = [1; 2; 3; 4]) as -> by (vm_compute; reflexivity). intros l r [H|[H|[]]]; inversion H; subst; cbn; splits; try lia; intros x Hx; lia.
  - intros l r l' r' x [H|[H|[]]] [H'|[H'|[]]] Hx Hx'; inversion H; inversion H'; subst; cbn in Hx, Hx'; unfold incl; cbn; solve [left; intros; lia|right; intros; lia|exfalso; lia].
  - destruct ex_jam as (HR & Hn & HD & HS & Hp & E & _). apply (ex_intro _ (sequence [[(0, (1, 2))]; [(0, (2, 4))]; [(1, (3, 2))]; [(1, (2, 1))]; [(0, (4, 2))]; [(0, (2, 3))]])).
    eapply (C71_prohibited_respected_partial _ _ _ _ _ 0%Z (fun _ => 0%Z) jam_siding jam_swap None false true); [exact ex_environment|exact HR|exact Hn|exact HD|discriminate|exact Hp|].
    destruct (C60_moves_legal _ _ _ _ _ 0%Z (fun _ => 0%Z) jam_siding jam_swap None false true ex_environment HR Hn HD ltac:(discriminate)) as (r & Hr & _).
    rewrite <- E. assert (jam_plain 100 jam_siding jam_swap None false true = r) as Er by (apply (returns_of _ _ 100 Hr); fold jam_plain; rewrite E; discriminate). rewrite Er. exact Hr. Qed.
(** ... but it fails for overlapping sets of ends: UnSolvable although one move of each load does it *)
Definition jam_over : graph nat unit Z := jam_graph [(10, 1, 1%Z); (11, 3, 1%Z); (12, 2, 1%Z)].
Definition jam_over_loads : dict nat (nat * option (list nat) * option (list nat)) := [(0, (10, Some [1; 2], None)); (1, (11, Some [2; 3], None)); (2, (12, Some [1; 2], None))].
Theorem C72_unsolvable_refuted : reachable jam_over /\ nonneg jam_over /\ jam_plain 60 jam_over jam_over_loads None false true = Err UnSolvable /\
  plan_from (may_move jam_over jam_over_loads) (starts jam_over_loads) [(0, 10, 1); (1, 11, 3); (2, 12, 2)] [(0, 1); (1, 3); (2, 2)] /\
  arrived jam_over_loads [(0, 1); (1, 3); (2, 2)].
Proof. split; [|split; [|splits]].
  1,2: jam_ok.
  - vm_compute. reflexivity.
  - do 3 (apply plan_step; [reflexivity|cbn; lia|eexists; exists 1%Z; splits; [reflexivity|vm_compute; reflexivity|cbn; tauto]|norm_pos]). apply plan_done.
  - hnf. splits; [reflexivity|repeat (constructor; [cbn; lia|]); constructor|].
    intros l a [H|[H|[H|[]]]]; inversion H; subst; (eexists; split; [reflexivity|cbn; auto]). Qed.

(** C73 fails: a plan of length 23 is returned although there is one of length 6 (one load; 3 is only explored
    backwards and 4 only forwards, so the move 3 -> 4 is never recorded) *)
Definition jam_sub : graph nat unit Z := jam_graph [(0, 1, 1%Z); (1, 2, 1%Z); (2, 3, 1%Z); (3, 4, 1%Z); (4, 5, 1%Z); (5, 6, 1%Z); (3, 6, 20%Z); (0, 4, 60%Z)].
Definition jam_sub_loads : dict nat (nat * option (list nat) * option (list nat)) := [(0, (0, Some [6], None))].
Theorem C73_not_shortest_refuted : reachable jam_sub /\ nonneg jam_sub /\
  exists groups, jam_plain 60 jam_sub jam_sub_loads None false false = Ok groups /\ plan_length jam_sub (sequence groups) = 23%Z /\
  exists ms, plan_from (may_move jam_sub jam_sub_loads) (starts jam_sub_loads) ms [(0, 6)] /\ arrived jam_sub_loads [(0, 6)] /\ plan_length jam_sub ms = 6%Z.
Proof. split; [|split].
  1,2: jam_ok.
  eexists. split; [vm_compute; reflexivity|]. split; [vm_compute; reflexivity|]. exists [(0, 0, 1); (0, 1, 2); (0, 2, 3); (0, 3, 4); (0, 4, 5); (0, 5, 6)]. splits.
  - do 6 (apply plan_step; [reflexivity|cbn; lia|eexists; exists 1%Z; splits; [reflexivity|vm_compute; reflexivity|cbn; tauto]|norm_pos]). apply plan_done.
  - hnf. splits; [reflexivity|repeat (constructor; [cbn; lia|]); constructor|]. intros l a [H|[]]. inversion H; subst. eexists. split; [reflexivity|cbn; auto].
  - vm_compute. reflexivity. Qed.
(** the hypotheses of C73_short_plans_partial: a plan of four moves of length 4, and one of three moves of length 9 *)
Definition jam_short : graph nat unit Z := jam_graph [(0, 1, 1%Z); (1, 2, 1%Z); (2, 3, 1%Z); (3, 6, 1%Z); (0, 4, 3%Z); (4, 5, 3%Z); (5, 6, 3%Z)].
Example ex_short : reachable jam_short /\ nonneg jam_short /\ jam_plain 60 jam_short jam_sub_loads None false false = Ok [[(0, (0, 1))]; [(0, (1, 2))]; [(0, (2, 3))]; [(0, (3, 6))]] /\
  plan_from (may_move jam_short jam_sub_loads) (starts jam_sub_loads) [(0, 0, 4); (0, 4, 5); (0, 5, 6)] [(0, 6)] /\ arrived jam_sub_loads [(0, 6)] /\
  (forall l r x y, In (l, r) jam_sub_loads -> In x (raw_ends r) -> In y (raw_ends r) -> x = y) /\ plan_length jam_short [(0, 0, 4); (0, 4, 5); (0, 5, 6)] = 9%Z.
Proof. split; [|split; [|splits]].
  1,2: jam_ok.
  - vm_compute. reflexivity.
  - do 3 (apply plan_step; [reflexivity|cbn; lia|eexists; exists 3%Z; splits; [reflexivity|vm_compute; reflexivity|cbn; tauto]|norm_pos]). apply plan_done.
  - hnf. splits; [reflexivity|repeat (constructor; [cbn; lia|]); constructor|]. intros l a [H|[]]. inversion H; subst. eexists. split; [reflexivity|cbn; auto].
  - intros l r x y [H|[]]. inversion H; subst. cbn. lia.
  - vm_compute. reflexivity. Qed.
