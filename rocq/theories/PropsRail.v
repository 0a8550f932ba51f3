(** Property theorems C64, C65, C74, C75 (train schedules). *)
From Verif Require Import Prelude PreludeFacts Base BaseFacts BaseFacts2 BaseFacts3 Spec SpecFacts Loop SearchFacts BaseAlgFacts Sp SpFacts Perms
  RailSpec Rail RailFacts PropsFlow.

Lemma last_default {X} (l : list X) d d' : l <> [] -> last l d = last l d'.
Proof. intros H. destruct (exists_last H) as (m & x & ->). rewrite !last_last. reflexivity. Qed.

Section P.
Context {A O : Type} {EA : EqDec A}.
Notation graph := (graph A O Z).
Implicit Types (g : graph) (start : A) (jobs : list (A * A)).
Definition known g start jobs : Prop := contains g start = true /\ forall a b, In (a, b) jobs -> contains g a = true /\ contains g b = true.

(** C64: if some order of the jobs can be travelled, the schedule is an order of the jobs; if not, schedule never returns *)
Theorem C64_schedule_permutes g start jobs q : reachable g -> nonneg g -> known g start jobs ->
  Permutation q jobs -> feasible g start q ->
  exists r, returns (fun n => schedule n g start jobs) (Ok r) /\ Permutation r jobs.
Proof. intros HR Hn [Hs Hj] Hq Hf. apply reachable_wf in HR. destruct (sched_spec g start jobs HR Hn) as [(r & _ & _ & H1 & H2 & _)|(_ & _ & H)].
  - apply contains_In, Hs.
  - intros a b Hab. destruct (Hj a b Hab) as [K1 K2]. split; apply contains_In; assumption.
  - eauto.
  - destruct (H q Hq Hf). Qed.
Theorem C64_diverges_otherwise g start jobs : reachable g -> nonneg g -> known g start jobs ->
  (forall q, Permutation q jobs -> ~ feasible g start q) -> diverges (fun n => schedule n g start jobs).
Proof. intros HR Hn [Hs Hj] Hf. apply reachable_wf in HR. destruct (sched_spec g start jobs HR Hn) as [(r & q & z & _ & _ & H1 & H2 & _)|(H & _)]; [apply contains_In, Hs| | |exact H].
  - intros a b Hab. destruct (Hj a b Hab) as [K1 K2]. split; apply contains_In; assumption.
  - exfalso. apply (Hf q H1). apply (legs_fin g HR Hn); [apply contains_In, Hs| |eauto]. intros a b Hab. destruct (Hj a b (Permutation_in _ H1 Hab)) as [K1 K2]. split; apply contains_In; assumption. Qed.

(** C65 fails: no circuit is ever found *)
Theorem C65_never_finds_refuted n g start jobs : find_perfect_circuit n g start jobs = Ok [].
Proof. apply circuit_nil. Qed.

(** C74: if no edge is longer than a way round, no other order of the jobs is shorter.  Missing: other graphs, where it fails. *)
Theorem C74_schedule_shortest_partial g start jobs r : reachable g -> nonneg g -> metric g -> known g start jobs ->
  returns (fun n => schedule n g start jobs) (Ok r) ->
  exists z, travel g start r (Fin z) /\ forall q e, Permutation q jobs -> travel g start q e -> ext_le (Fin z) e.
Proof. intros HR Hn Hm [Hs Hj] Hret. apply reachable_wf in HR. apply contains_In in Hs. assert (forall a b, In (a, b) jobs -> In a (nodes g) /\ In b (nodes g)) as Hj'. { intros a b Hab. destruct (Hj a b Hab) as [K1 K2]. split; apply contains_In; assumption. }
  destruct (sched_spec g start jobs HR Hn Hs Hj') as [(r' & q & z & H1 & H2 & H3 & H4 & H5 & H6)|(H & _)].
  - pose proof (returns_fun _ _ _ Hret H1) as E. injection E as <-. subst r.
    destruct (taken_shorter g HR Hn Hm (route start q) start start jobs z 0%Z) as (c & C1 & C2); auto.
    { intros y [<-|Hy]; [exact Hs|]. apply (route_nodes g start q); [|exact Hy]. intros a b Hab. apply Hj', (Permutation_in _ H3), Hab. }
    { apply dist_self, Hn. }
    exists c. split; [exact C1|]. intros q' e Hq' He. specialize (H6 q' Hq' e He). destruct e as [e|]; cbn in *; [lia|exact Logic.I].
  - exfalso. destruct Hret as (_ & [N HN] & _). pose proof (HN N (le_n _)) as E. specialize (H N). cbv beta in *. congruence. Qed.

(** C75: find cuts every job down to the stops of the train: on a shortest route from a to b, the first and the last
    stop, where the stops on the route are connected one to the next by edges *)
Definition section_of g (stops : list A) (j s : A * A) : Prop :=
  exists route d, wpath (edge g) (fst j) route (snd j) d /\ dist (edge g) (fst j) (snd j) (Fin d) /\
    exists part, part = filter (fun x => mem x stops) route /\ path (has_edge g) (fst s) part (snd s).
Theorem C75_find_sections g stops jobs r : reachable g -> nonneg g -> returns (fun n => find_jobs n g stops jobs) (Ok r) ->
  Forall2 (section_of g stops) jobs r.
Proof. intros HR Hn Hret. apply reachable_wf in HR. destruct Hret as (_ & [N HN] & _). specialize (HN N (le_n _)). cbv beta in HN. unfold find_jobs in HN.
  assert (forall jobs acc r, foldM (fun subs (j : A * A) =>
    if negb (contains g (fst j)) then Err ValueError else
    if negb (contains g (snd j)) then Err ValueError else
    r <- shortest_path N g (fst j) (snd j) [] ;;
    let part := filter (fun p => mem p stops) (snd r) in
    b <- has_path g part ;;
    if negb b then Err ValueError else
    match part with [] => Err IndexError | h :: _ => Ok (subs ++ [(h, last part h)]) end) jobs acc = Ok r -> exists r', r = acc ++ r' /\ Forall2 (section_of g stops) jobs r') as H.
  { clear jobs r HN. induction jobs as [|[a b] jobs IH]; intros acc r; cbn [foldM]; [intros E; injection E as <-; exists []; rewrite app_nil_r; auto|]. cbn [fst snd].
    destruct (contains g a) eqn:Ea; cbn [negb]; [|discriminate]. destruct (contains g b) eqn:Eb; cbn [negb]; [|discriminate]. apply contains_In in Ea, Eb.
    destruct (shortest_path_dist g a b HR Hn Ea Eb) as (d & p & Hsp & Hd & Hp). destruct (shortest_path N g a b []) as [[d' p']| |] eqn:Es; cbn [bind]; [|discriminate|discriminate].
    assert ((d', p') = (d, p)) as E. { assert (Ok (d', p') = Ok (d, p)) as Q; [|congruence]. rewrite <- Es. apply (returns_of _ _ N Hsp). rewrite Es. discriminate. } injection E as -> ->. clear Es. cbn [snd].
    set (part := filter (fun x => mem x stops) p). destruct part as [|h t] eqn:Epart; [discriminate|]. cbn [has_path bind]. destruct (has_path_loop g h t) eqn:Ehp; cbn [negb bind]; [|discriminate].
    intros E. destruct (IH _ _ E) as (r' & -> & Hr'). exists ((h, last (h :: t) h) :: r'). split; [rewrite <- app_assoc; reflexivity|]. apply Forall2_cons; [|exact Hr'].
    assert (forall t h, has_path_loop g h t = true -> path (has_edge g) h (h :: t) (last (h :: t) h)) as HP.
    { clear. induction t as [|y t IH]; intros h H; [constructor|]. cbn in H. destruct (edge g h y) as [w|] eqn:E; [|discriminate]. apply (path_cons _ h y (y :: t)); [exists w; exact E|].
      specialize (IH y H). change (last (h :: y :: t) h) with (last (y :: t) h). rewrite (last_default (y :: t) h y) by discriminate. exact IH. }
    destruct d as [z|]; [|subst p; discriminate Epart]. exists p, z. cbn [fst snd]. splits; [exact Hp|exact Hd|]. exists (h :: t). split; [symmetry; exact Epart|apply HP, Ehp]. }
  destruct (H jobs [] r HN) as (r' & -> & Hr'). exact Hr'. Qed.
(** ... and which jobs it accepts: every job needs a route that visits a stop *)
Theorem C75_find_total g stops jobs : reachable g -> nonneg g ->
  exists r, returns (fun n => find_jobs n g stops jobs) r /\ r <> OutOfFuel /\ ((exists j, In j jobs /\ (contains g (fst j) = false \/ contains g (snd j) = false)) -> exists e, r = Err e).
Proof. intros HR Hn. apply reachable_wf in HR. unfold find_jobs. set (f := fun n subs (j : A * A) =>
    if negb (contains g (fst j)) then Err ValueError else
    if negb (contains g (snd j)) then Err ValueError else
    r <- shortest_path n g (fst j) (snd j) [] ;;
    let part := filter (fun p => mem p stops) (snd r) in
    b <- has_path g part ;;
    if negb b then Err ValueError else
    match part with [] => Err IndexError | h :: _ => Ok (subs ++ [(h, last part h)]) end).
  change (exists r, returns (fun n => foldM (f n) jobs []) r /\ r <> OutOfFuel /\ ((exists j, In j jobs /\ (contains g (fst j) = false \/ contains g (snd j) = false)) -> exists e, r = Err e)).
  generalize (@nil (A * A)) as acc. induction jobs as [|[a b] jobs IH]; intros acc.
  - exists (Ok acc). splits; [apply returns_const; discriminate|discriminate|intros (j & [] & _)].
  - assert (exists r1, returns (fun n => f n acc (a, b)) r1 /\ (contains g a = false \/ contains g b = false -> r1 = Err ValueError)) as (r1 & Hr1 & Hbad).
    { unfold f. cbn [fst snd]. destruct (contains g a) eqn:Ea; cbn [negb]; [|exists (Err ValueError); split; [apply returns_const; discriminate|auto]]. destruct (contains g b) eqn:Eb; cbn [negb]; [|exists (Err ValueError); split; [apply returns_const; discriminate|auto]].
      apply contains_In in Ea, Eb. destruct (shortest_path_dist g a b HR Hn Ea Eb) as (d & p & Hsp & _). set (part := filter (fun x => mem x stops) p).
      exists (b <- has_path g part ;; if negb b then Err ValueError else match part with [] => Err IndexError | h :: _ => Ok (acc ++ [(h, last part h)]) end). split; [|intros [C|C]; discriminate].
      refine (returns_bind _ (fun n r => let part := filter (fun p => mem p stops) (snd r) in b <- has_path g part ;; if negb b then Err ValueError else match part with [] => Err IndexError | h :: _ => Ok (acc ++ [(h, last part h)]) end) (d, p) _ Hsp _). cbn [snd]. fold part. apply returns_const.
      destruct part as [|h t]; [discriminate|]. cbn [has_path bind]. destruct (has_path_loop g h t); discriminate. }
    destruct r1 as [acc1|e|]; [| |destruct Hr1 as [C _]; congruence].
    + destruct (IH acc1) as (r & R1 & R2 & R3). exists r. splits; [refine (returns_bind _ (fun n s => foldM (f n) jobs s) acc1 r Hr1 R1)|exact R2|].
      intros (j & [<-|Hj] & Hc); [|apply R3; eauto]. cbn in Hc. specialize (Hbad Hc). discriminate.
    + exists (Err e). splits; [refine (returns_bind_err _ (fun n s => foldM (f n) jobs s) e Hr1)|discriminate|eauto]. Qed.
End P.

(** ** Concrete cases *)
Definition rail (l : list (nat * nat * Z)) : graph nat unit Z :=
  ok_or empty_graph (run (map (fun e => OpAddEdge (fst (fst e)) (snd (fst e)) (snd e) false) l)).
Lemma rail_ok l : match run (O := unit) (map (fun e => OpAddEdge (fst (fst e)) (snd (fst e)) (snd e) false) l) with Ok _ => true | _ => false end = true ->
  forallb (fun e => (0 <=? snd e)%Z) (edges (rail l)) = true -> reachable (rail l) /\ nonneg (rail l).
Proof. intros H1 H2. assert (reachable (rail l)) as HR. { eexists. unfold rail. destruct (run _) eqn:E; [exact E|discriminate|discriminate]. } split; [exact HR|]. apply nonneg_check; [apply reachable_wf, HR|exact H2]. Qed.
Ltac rail_ok := apply rail_ok; vm_compute; reflexivity.
Lemma metric_unit {A O} {EA : EqDec A} (g : graph A O Z) : wf g -> forallb (fun e => (snd e =? 1)%Z && negb (eqb (fst (fst e)) (snd (fst e)))) (edges g) = true -> metric g.
Proof. intros W H. rewrite forallb_forall in H. assert (forall x y w, edge g x y = Some w -> w = 1%Z /\ x <> y) as K.
  { intros x y w E. apply (In_edges g x y w W) in E. specialize (H _ E). cbn in H. apply andb_true_iff in H. destruct H as [H1 H2]. split; [apply Z.eqb_eq, H1|]. intros ->. unfold eqb in H2. destruct (eq_dec y y); [discriminate|congruence]. }
  intros x y w E. destruct (K x y w E) as [-> Hne]. split; [exists [x; y]; apply (wpath_eq (edge g) x [x; y] y (1 + 0)%Z); [econstructor; [exact E|constructor]|reflexivity]|].
  intros p z Hp. inversion Hp as [|? b q ? w d He Hq]; subst; [congruence|]. destruct (K _ _ _ He) as [-> _].
  enough (0 <= d)%Z by lia. clear - Hq K. induction Hq as [|a b p c w d He H IH]; [lia|]. destruct (K _ _ _ He). lia. Qed.
(** the example of the docstring: jobs (A,B), (A,C), (B,A), (C,A) on the line B - A - C *)
Definition rail_abc : graph nat unit Z := rail [(0, 1, 1%Z); (1, 0, 1%Z); (0, 2, 1%Z); (2, 0, 1%Z)].
Definition jobs_abc : list (nat * nat) := [(0, 1); (0, 2); (1, 0); (2, 0)].
Example ex_rail : reachable rail_abc /\ nonneg rail_abc /\ metric rail_abc /\ known rail_abc 0 jobs_abc /\
  Permutation [(0, 1); (1, 0); (0, 2); (2, 0)] jobs_abc /\ feasible rail_abc 0 [(0, 1); (1, 0); (0, 2); (2, 0)] /\
  schedule 30 rail_abc 0 jobs_abc = Ok [(0, 1); (1, 0); (0, 2); (2, 0)] /\ find_jobs 30 rail_abc [0; 2] [(1, 2); (2, 0)] = Ok [(0, 2); (2, 0)].
Proof. assert (reachable rail_abc /\ nonneg rail_abc) as [HR Hn] by rail_ok. splits; auto.
  - apply metric_unit; [apply reachable_wf, HR|vm_compute; reflexivity].
  - split; [vm_compute; reflexivity|]. intros a b H. assert (In a [0; 1; 2] /\ In b [0; 1; 2]) as [Ha Hb] by (cbn in H; repeat (destruct H as [H|H]; [inversion H; subst; cbn; lia|]); destruct H).
    assert (forall x, In x [0; 1; 2] -> contains rail_abc x = true) as K by (intros x [<-|[<-|[<-|[]]]]; vm_compute; reflexivity). split; apply K; assumption.
  - apply perm_skip. apply (Permutation_cons_app [(0, 2)] [(2, 0)]). reflexivity.
  - cbn [feasible]. assert (forall x y w, edge rail_abc x y = Some w -> reach (has_edge rail_abc) x y) as K by (intros x y w E; eapply reach_cons; [exists w; exact E|apply reach_refl]).
    splits; first [exact Logic.I|apply (K _ _ 1%Z); vm_compute; reflexivity|apply reach_refl]. Qed.
(** C64: an unreachable job makes schedule run for ever *)
Example ex_rail_stuck : reachable (rail [(0, 1, 1%Z)]) /\ nonneg (rail [(0, 1, 1%Z)]) /\ known (rail [(0, 1, 1%Z)]) 0 [(1, 0)] /\ forall q, Permutation q [(1, 0)] -> ~ feasible (rail [(0, 1, 1%Z)]) 0 q.
Proof. assert (reachable (rail [(0, 1, 1%Z)]) /\ nonneg (rail [(0, 1, 1%Z)])) as [HR Hn] by rail_ok. splits; auto.
  - split; [vm_compute; reflexivity|]. intros a b [H|[]]. inversion H; subst. split; vm_compute; reflexivity.
  - intros q Hq. apply Permutation_sym, Permutation_length_1_inv in Hq. subst q. cbn [feasible]. intros (_ & H & _). destruct H as [p Hp]. inversion Hp as [|? b q ? [w He]]; subst. pose proof (has_edge_nodes (rail [(0, 1, 1%Z)]) 1 b (reachable_wf _ HR)) as K.
    apply (In_edges _ 1 b w (reachable_wf _ HR)) in He. vm_compute in He. destruct He as [He|[]]. inversion He. Qed.
(** C65: the jobs 0 -> 1 and 1 -> 0 are a circuit *)
Theorem C65_circuit_missed_refuted : find_perfect_circuit 30 rail_abc 0 [(0, 1); (1, 0)] = Ok [] /\ path (fun x y => In (x, y) [(0, 1); (1, 0)]) 0 [0; 1; 0] 0.
Proof. split; [vm_compute; reflexivity|]. apply (path_cons _ 0 1 [1; 0]); [cbn; auto|]. apply (path_cons _ 1 0 [0]); [cbn; auto|constructor]. Qed.
(** C74 fails with an edge that is longer than the way round: 103 instead of 6 *)
Definition rail_detour : graph nat unit Z := rail [(0, 1, 1%Z); (1, 2, 1%Z); (2, 0, 1%Z); (1, 3, 1%Z); (3, 4, 1%Z); (2, 3, 100%Z)].
Definition jobs_detour : list (nat * nat) := [(0, 1); (1, 2); (3, 4)].
Theorem C74_not_shortest_refuted : reachable rail_detour /\ nonneg rail_detour /\ known rail_detour 0 jobs_detour /\
  schedule 30 rail_detour 0 jobs_detour = Ok [(0, 1); (1, 2); (3, 4)] /\ Permutation [(1, 2); (0, 1); (3, 4)] jobs_detour /\
  travel rail_detour 0 [(0, 1); (1, 2); (3, 4)] (Fin 103) /\ travel rail_detour 0 [(1, 2); (0, 1); (3, 4)] (Fin 6).
Proof. assert (reachable rail_detour /\ nonneg rail_detour) as [HR Hn] by rail_ok. splits; auto.
  - split; [vm_compute; reflexivity|]. intros a b [H|[H|[H|[]]]]; inversion H; subst; split; vm_compute; reflexivity.
  - apply perm_swap.
  - change (legs rail_detour 0 [1; 2; 3; 4] (Fin 103)). assert (forall x y w, edge rail_detour x y = Some w -> (w =? 0)%Z = false -> leg rail_detour x y (Fin w)) as K by (intros x y w E Hw; unfold leg; rewrite E, Hw; reflexivity).
    apply (legs_cons _ 0 1 [2; 3; 4] (Fin 1) (Fin 102)); [apply K; vm_compute; reflexivity|]. apply (legs_cons _ 1 2 [3; 4] (Fin 1) (Fin 101)); [apply K; vm_compute; reflexivity|].
    apply (legs_cons _ 2 3 [4] (Fin 100) (Fin 1)); [apply K; vm_compute; reflexivity|]. apply (legs_cons _ 3 4 [] (Fin 1) (Fin 0)); [apply K; vm_compute; reflexivity|constructor].
  - change (legs rail_detour 0 [1; 2; 0; 1; 3; 4] (Fin 6)). assert (forall x y, edge rail_detour x y = Some 1%Z -> leg rail_detour x y (Fin 1)) as K by (intros x y E; unfold leg; rewrite E; reflexivity).
    apply (legs_cons _ 0 1 [2; 0; 1; 3; 4] (Fin 1) (Fin 5)); [apply K; vm_compute; reflexivity|]. apply (legs_cons _ 1 2 [0; 1; 3; 4] (Fin 1) (Fin 4)); [apply K; vm_compute; reflexivity|].
    apply (legs_cons _ 2 0 [1; 3; 4] (Fin 1) (Fin 3)); [apply K; vm_compute; reflexivity|]. apply (legs_cons _ 0 1 [3; 4] (Fin 1) (Fin 2)); [apply K; vm_compute; reflexivity|].
    apply (legs_cons _ 1 3 [4] (Fin 1) (Fin 1)); [apply K; vm_compute; reflexivity|]. apply (legs_cons _ 3 4 [] (Fin 1) (Fin 0)); [apply K; vm_compute; reflexivity|constructor]. Qed.
