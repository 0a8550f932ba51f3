(** Proofs about train schedules *)
From Verif Require Import Prelude PreludeFacts Base BaseFacts BaseFacts2 BaseFacts3 Spec SpecFacts Loop SearchFacts BaseAlgFacts Sp SpFacts Perms RailSpec Rail.
Local Open Scope Z_scope.

Section Rail.
Context {A O : Type} {EA : EqDec A}.
Notation graph := (graph A O Z).
Notation job := (A * A)%type.
Implicit Types (g : graph) (start x y : A) (jobs todo : list job) (path : list A).

(** *** the circuit search finds nothing *)
Lemma circuit_nil n g start jobs : find_perfect_circuit n g start jobs = Ok [].
Proof. unfold find_perfect_circuit. assert (forall c : graph, foldM (fun (c : graph) (j : job) =>
         match edge_call c (fst j) (snd j) with
         | Err KeyError =>
             r <- shortest_path n g (fst j) (snd j) [] ;;
             match fst r with Fin d => add_edge c (fst j) (snd j) d false | Inf => Err TypeError end
         | Err e => Err e | OutOfFuel => OutOfFuel | Ok _ => Ok c end) jobs c = Ok c) as -> by (intros c; induction jobs as [|j t IH]; [reflexivity|exact IH]).
  cbn [bind]. induction (map snd _) as [|x t IH]; [reflexivity|]. cbn [foldM contains]. exact IH. Qed.

(** *** routes *)
Lemma last_app_ne {X} (l m : list X) (d : X) : m <> [] -> last (l ++ m) d = last m d.
Proof. intros Hm. destruct (exists_last Hm) as (m' & x & ->). rewrite app_assoc, !last_last. reflexivity. Qed.
Lemma path_route jobs start : path_from_schedule jobs start = start :: route start jobs.
Proof. unfold path_from_schedule. assert (forall jobs pre x, last pre start = x -> fold_left (fun path (j : job) => (if eq_dec (fst j) (last path start) then path else path ++ [fst j]) ++ [snd j]) jobs pre = pre ++ route x jobs) as H.
  { clear jobs. induction jobs as [|[a b] t IH]; intros pre x E; cbn [fold_left route]; [rewrite app_nil_r; reflexivity|]. cbn [fst snd]. rewrite E. rewrite (IH _ b).
    - destruct (eq_dec a x); [rewrite <- app_assoc; reflexivity|]. rewrite <- !app_assoc. reflexivity.
    - apply last_app_ne. discriminate. }
  apply (H jobs [start] start). reflexivity. Qed.
Lemma route_nodes g x jobs : (forall a b, In (a, b) jobs -> In a (nodes g) /\ In b (nodes g)) -> forall z, In z (route x jobs) -> In z (nodes g).
Proof. revert x. induction jobs as [|[a b] t IH]; intros x H z Hz; [destruct Hz|]. cbn in Hz. destruct (H a b (or_introl eq_refl)) as [Ha Hb]. apply in_app_iff in Hz. destruct Hz as [Hz|Hz].
  - destruct (eq_dec a x); cbn in Hz; destruct Hz as [<-|Hz]; auto; [destruct Hz|]. destruct Hz as [<-|[]]. exact Hb.
  - apply (IH b); [|exact Hz]. intros a' b' H'. apply H. right. exact H'. Qed.

(** *** finite legs *)
Lemma reach_dist g x y : wf g -> nonneg g -> In x (nodes g) -> In y (nodes g) -> (reach (has_edge g) x y <-> exists z, dist (edge g) x y (Fin z)).
Proof. intros W Hn Hx Hy. split.
  - intros Hr. destruct (dist_exists g x y W Hn Hx Hy) as ([z|] & Hd); [eauto|]. exfalso.
    assert (exists p z, wpath (edge g) x p y z) as (p & z & Hp); [|exact (Hd p z Hp)]. destruct Hr as [p Hp]. exists p. apply path_wpath, Hp.
  - intros (z & (p & Hp) & _). clear - Hp. induction Hp as [|a b p c w d He Hp IH]; [apply reach_refl|]. eapply reach_cons; [exists w; exact He|exact IH]. Qed.
Lemma leg_fin g x y : wf g -> nonneg g -> In x (nodes g) -> In y (nodes g) -> (reach (has_edge g) x y <-> exists z, leg g x y (Fin z)).
Proof. intros W Hn Hx Hy. pose proof (reach_dist g x y W Hn Hx Hy) as R. unfold leg. destruct (edge g x y) as [w|] eqn:E; [|exact R]. destruct (w =? 0); [exact R|]. split; [eauto|]. intros _. eapply reach_cons; [exists w; exact E|apply reach_refl]. Qed.
Lemma legs_fin g : wf g -> nonneg g -> forall jobs x, In x (nodes g) -> (forall a b, In (a, b) jobs -> In a (nodes g) /\ In b (nodes g)) -> (feasible g x jobs <-> exists z, travel g x jobs (Fin z)).
Proof. intros W Hn. unfold travel. induction jobs as [|[a b] t IH]; intros x Hx H; cbn [feasible route].
  - split; [intros _; exists 0; constructor|auto].
  - destruct (H a b (or_introl eq_refl)) as [Ha Hb]. pose proof (leg_fin g x a W Hn Hx Ha) as L1. pose proof (leg_fin g a b W Hn Ha Hb) as L2. assert (forall a' b', In (a', b') t -> In a' (nodes g) /\ In b' (nodes g)) as H' by (intros; apply H; right; assumption).
    pose proof (IH b Hb H') as L3. destruct (eq_dec a x) as [->|Hne]; cbn [app].
    + split.
      * intros (_ & K2 & K3). apply L2 in K2. apply L3 in K3. destruct K2 as [z1 K2], K3 as [z2 K3]. exists (z1 + z2). exact (legs_cons g x b _ (Fin z1) (Fin z2) K2 K3).
      * intros [z K]. inversion K as [|? ? ? d1 d2 K1 K2 E]; subst. destruct d1 as [z1|], d2 as [z2|]; try discriminate. splits; [apply reach_refl|apply L2; eauto|apply L3; eauto].
    + split.
      * intros (K1 & K2 & K3). apply L1 in K1. apply L2 in K2. apply L3 in K3. destruct K1 as [z0 K1], K2 as [z1 K2], K3 as [z2 K3]. exists (z0 + (z1 + z2)). exact (legs_cons g x a _ (Fin z0) (Fin (z1 + z2)) K1 (legs_cons g a b _ (Fin z1) (Fin z2) K2 K3)).
      * intros [z K]. inversion K as [|? ? ? d1 d2 K1 K2 E]; subst. inversion K2 as [|? ? ? d3 d4 K3 K4 E']; subst. destruct d1 as [z1|], d3 as [z2|], d4 as [z3|]; try discriminate. splits; [apply L1; eauto|apply L2; eauto|apply L3; eauto]. Qed.

(** *** the jobs taken from a path *)
Fixpoint taken (seq : list job) todo : list job :=
  match seq with [] => [] | j :: s => if mem j todo then j :: taken s (lremove j todo) else taken s todo end.
Fixpoint left (seq : list job) todo : list job :=
  match seq with [] => todo | j :: s => if mem j todo then left s (lremove j todo) else left s todo end.
Lemma take_taken seq todo new : take_jobs seq (todo, new) = (left seq todo, new ++ taken seq todo).
Proof. unfold take_jobs. revert todo new. induction seq as [|j s IH]; intros todo new; cbn [fold_left taken left]; [rewrite app_nil_r; reflexivity|]. cbn [fst snd]. destruct (mem j todo); rewrite IH; [rewrite <- app_assoc; reflexivity|reflexivity]. Qed.
Lemma lremove_perm {X} {EX : EqDec X} (j : X) l : In j l -> Permutation (j :: lremove j l) l.
Proof. induction l as [|y t IH]; intros H; [destruct H|]. cbn. destruct (eq_dec j y) as [->|Hne]; [reflexivity|]. destruct H as [->|H]; [congruence|]. rewrite perm_swap, (IH H). reflexivity. Qed.
Lemma taken_perm seq : forall todo, Permutation (taken seq todo ++ left seq todo) todo.
Proof. induction seq as [|j s IH]; intros todo; cbn [taken left]; [reflexivity|]. destruct (mem j todo) eqn:E; [|apply IH]. cbn [app]. rewrite IH. apply lremove_perm, mem_In, E. Qed.
Notation count l j := (count_occ (eq_dec (A := job)) l j).
Lemma left_count seq j : forall todo, (count (left seq todo) j = count todo j - count seq j)%nat.
Proof. induction seq as [|k s IH]; intros todo; cbn [left]; [cbn; lia|]. destruct (mem k todo) eqn:E.
  - rewrite IH. apply mem_In in E. pose proof (Permutation_count_occ (eq_dec (A := job)) (k :: lremove k todo) todo) as [P _]. specialize (P (lremove_perm k todo E) j). cbn [count_occ] in *. destruct (eq_dec k j); lia.
  - rewrite IH. cbn [count_occ]. destruct (eq_dec k j) as [->|]; [|lia]. assert (count todo j = 0%nat) as ->; [|lia]. apply count_occ_not_In. intros C. apply mem_In in C. congruence. Qed.
Lemma jobs_of_route x jobs j : (count jobs j <= count (jobs_from_path (x :: route x jobs)) j)%nat.
Proof. revert x. induction jobs as [|[a b] t IH]; intros x; [cbn; lia|]. cbn [route]. specialize (IH b). destruct (eq_dec a x) as [->|Hne].
  - change (x :: [b] ++ route b t) with (x :: b :: route b t). change (jobs_from_path (x :: b :: route b t)) with ((x, b) :: jobs_from_path (b :: route b t)). cbn [count_occ]. destruct (eq_dec (x, b) j); lia.
  - change (x :: [a; b] ++ route b t) with (x :: a :: b :: route b t). change (jobs_from_path (x :: a :: b :: route b t)) with ((x, a) :: (a, b) :: jobs_from_path (b :: route b t)). cbn [count_occ]. destruct (eq_dec (x, a) j); destruct (eq_dec (a, b) j); lia. Qed.
Lemma left_nil seq todo : (forall j, (count todo j <= count seq j)%nat) -> left seq todo = [].
Proof. intros H. destruct (left seq todo) as [|j l] eqn:E; [reflexivity|exfalso]. pose proof (left_count seq j todo) as C. rewrite E in C. cbn in C. destruct (eq_dec j j); [|congruence]. specialize (H j). lia. Qed.

(** *** the best permutation *)
Lemma best_spec g start jobs : wf g -> nonneg g -> In start (nodes g) -> (forall a b, In (a, b) jobs -> In a (nodes g) /\ In b (nodes g)) ->
  exists d p, returns (fun n => best_path n g start jobs) (Ok (d, p)) /\
    (forall q, Permutation q jobs -> forall e, travel g start q e -> ext_le d e) /\
    match d with Inf => p = [] | Fin z => exists q, Permutation q jobs /\ p = start :: route start q /\ travel g start q (Fin z) end.
Proof. intros W Hn Hs Hj. unfold best_path. set (f := fun n (best : ext * list A) perm => d <- distance_from_path n g (path_from_schedule perm start) ;; if ext_ltb d (fst best) then Ok (d, path_from_schedule perm start) else Ok best).
  assert (forall ps d0 p0, (forall q, In q ps -> Permutation q jobs) -> exists d p, returns (fun n => foldM (f n) ps (d0, p0)) (Ok (d, p)) /\
    ext_le d d0 /\ (forall q, In q ps -> forall e, travel g start q e -> ext_le d e) /\ ((d, p) = (d0, p0) \/ exists q z, d = Fin z /\ In q ps /\ p = start :: route start q /\ travel g start q (Fin z))) as H.
  { induction ps as [|q ps IH]; intros d0 p0 Hps; cbn [foldM].
    - exists d0, p0. splits; [apply returns_const; discriminate|destruct d0; cbn; [lia|exact Logic.I]|intros q []|auto].
    - assert (Permutation q jobs) as Hq by (apply Hps; left; reflexivity). assert (forall q', In q' ps -> Permutation q' jobs) as Hps' by (intros; apply Hps; right; assumption).
      destruct (distance_from_path_spec g start (route start q) W Hn Hs) as (d1 & Hl & Hr). { intros z Hz. apply (route_nodes g start q); [|exact Hz]. intros a b Hab. apply Hj. apply (Permutation_in _ Hq), Hab. }
      rewrite <- path_route in Hr. set (st1 := if ext_ltb d1 d0 then (d1, path_from_schedule q start) else (d0, p0)).
      assert (returns (fun n => f n (d0, p0) q) (Ok st1)) as Hf. { unfold f. refine (returns_bind _ (fun n d => if ext_ltb d (fst (d0, p0)) then Ok (d, path_from_schedule q start) else Ok (d0, p0)) d1 _ Hr _). unfold st1. cbn [fst]. destruct (ext_ltb d1 d0); apply returns_const; discriminate. }
      assert (ext_le (fst st1) d0 /\ ext_le (fst st1) d1) as [L1 L2]. { unfold st1. destruct d1 as [z1|], d0 as [z0|]; cbn; try (destruct (Z.ltb_spec z1 z0)); cbn; split; auto; lia. }
      destruct st1 as [d1' p1'] eqn:Es. destruct (IH d1' p1' Hps') as (d & p & R1 & R2 & R3 & R4). exists d, p. splits.
      + refine (returns_bind _ (fun n st => foldM (f n) ps st) (d1', p1') _ Hf R1).
      + revert R2 L1. clear. cbn [fst]. destruct d as [x|], d1' as [y|], d0 as [z|]; cbn; intros; auto; try lia; try contradiction.
      + intros q' [<-|Hq'] e He; [|apply (R3 q' Hq' e He)]. rewrite (legs_fun _ _ _ _ _ He Hl). revert R2 L2. clear. cbn [fst]. destruct d as [x|], d1' as [y|], d1 as [z|]; cbn; intros; auto; try lia; try contradiction.
      + destruct R4 as [E|(q' & z & E1 & E2 & E3 & E4)]; [|right; exists q', z; splits; auto; right; exact E2]. rewrite E. rewrite <- Es. unfold st1. destruct (ext_ltb d1 d0) eqn:El; [right|left; reflexivity].
        destruct d1 as [z|]; [|destruct d0; discriminate]. exists q, z. inversion E; subst d p. unfold st1 in Es. try rewrite El in Es. inversion Es; subst. splits; [reflexivity|left; reflexivity|apply path_route|exact Hl]. }
  destruct (H (permutations jobs) Inf []) as (d & p & H1 & _ & H2 & H3); [intros q; apply In_permutations|]. exists d, p. splits; [exact H1| |].
  - intros q Hq e. apply H2, In_permutations, Hq.
  - destruct H3 as [E|(q & z & -> & E2 & E3 & E4)]; [inversion E; reflexivity|]. exists q. splits; auto. apply In_permutations, E2. Qed.

(** *** the schedule *)
Lemma sched_step_eq n g start jobs new : jobs <> [] -> sched_step n g start (jobs, new) =
  match best_path n g start jobs with Ok b => inl (left (jobs_from_path (snd b)) jobs, new ++ taken (jobs_from_path (snd b)) jobs) | Err e => inr (Err e) | OutOfFuel => inr OutOfFuel end.
Proof. intros Hne. unfold sched_step. cbn [fst]. destruct jobs as [|j t]; [congruence|]. cbn [is_nil]. rewrite circuit_nil. cbn [bind]. destruct (best_path n g start (j :: t)) as [b| |]; [|reflexivity|reflexivity]. cbn [bind]. rewrite take_taken. reflexivity. Qed.
Lemma sched_spec g start jobs : wf g -> nonneg g -> In start (nodes g) -> (forall a b, In (a, b) jobs -> In a (nodes g) /\ In b (nodes g)) ->
  (exists r q z, returns (fun n => schedule n g start jobs) (Ok r) /\ Permutation r jobs /\ Permutation q jobs /\ travel g start q (Fin z) /\ r = taken (jobs_from_path (start :: route start q)) jobs /\
     (forall q', Permutation q' jobs -> forall e, travel g start q' e -> ext_le (Fin z) e)) \/
  (diverges (fun n => schedule n g start jobs) /\ jobs <> [] /\ forall q, Permutation q jobs -> ~ feasible g start q).
Proof. intros W Hn Hs Hj. destruct (best_spec g start jobs W Hn Hs Hj) as (d & p & (_ & [N HN] & Hor) & Hmin & Hd). destruct jobs as [|j0 t0] eqn:Ej.
  { left. exists [], [], 0. splits; [|reflexivity|reflexivity|constructor|reflexivity|].
    - hnf. splits; [discriminate|exists 1%nat; intros [|n] Hn'; [lia|reflexivity]|intros [|n]; [auto|right; reflexivity]].
    - intros q' Hq' e He. apply Permutation_sym, Permutation_nil in Hq'. subst q'. inversion He; subst. cbn. lia. }
  rewrite <- Ej in *. assert (jobs <> []) as Hne by (rewrite Ej; discriminate). clear Ej. unfold schedule. destruct d as [z|].
  - left. destruct Hd as (q & Q1 & -> & Q2). set (seq := jobs_from_path (start :: route start q)) in *.
    assert (left seq jobs = []) as El. { apply left_nil. intros j. rewrite <- (proj1 (Permutation_count_occ (eq_dec (A := job)) q jobs) Q1 j). apply jobs_of_route. }
    exists (taken seq jobs), q, z. splits; auto.
    + assert (forall n m, (best_path m g start jobs = Ok (Fin z, start :: route start q) -> loop (S (S n)) (sched_step m g start) (jobs, []) = Ok (taken seq jobs))) as HS.
      { intros n m E. cbn [loop]. rewrite (sched_step_eq m g start jobs [] Hne), E. cbn [snd]. fold seq. rewrite El. reflexivity. }
      hnf. splits; [discriminate|exists (S (S N)); intros [|[|n]] Hn'; [lia|lia|apply HS, HN; lia]|].
      intros [|[|n]]; [left; reflexivity| |].
      * left. cbn [loop]. rewrite (sched_step_eq _ g start jobs [] Hne). destruct (Hor 1%nat) as [-> | ->]; reflexivity.
      * destruct (Hor (S (S n))) as [E|E]; [left|right; apply HS, E]. cbn [loop]. rewrite (sched_step_eq _ g start jobs [] Hne), E. reflexivity.
    + pose proof (taken_perm seq jobs) as P. rewrite El, app_nil_r in P. exact P.
  - right. subst p. splits; [|exact Hne|].
    + intros n. cbv beta. assert (forall m, loop m (sched_step n g start) (jobs, []) = OutOfFuel) as H; [|apply H]. induction m as [|m IH]; [reflexivity|]. cbn [loop]. rewrite (sched_step_eq n g start jobs [] Hne). destruct (Hor n) as [-> | ->]; [reflexivity|exact IH].
    + intros q Hq Hf. apply (legs_fin g W Hn q start Hs) in Hf; [|intros a b Hab; apply Hj, (Permutation_in _ Hq), Hab]. destruct Hf as [z Hz]. exact (Hmin q Hq _ Hz). Qed.

(** *** with metric distances, skipping stops does not lengthen the route *)
Lemma dist_self g x : nonneg g -> dist (edge g) x x (Fin 0).
Proof. intros Hn. split; [exists [x]; constructor|]. intros p z H. clear - Hn H. induction H as [|a b p c w d He H IH]; [lia|]. specialize (Hn a b w He). lia. Qed.
Lemma dist_tri g x y z d e : wf g -> nonneg g -> In x (nodes g) -> In z (nodes g) -> dist (edge g) x y (Fin d) -> dist (edge g) y z (Fin e) -> exists f, dist (edge g) x z (Fin f) /\ f <= d + e.
Proof. intros W Hn Hx Hz ((p & Hp) & _) ((q & Hq) & _). destruct (dist_exists g x z W Hn Hx Hz) as (f & Hf). destruct (wpath_head _ _ _ _ _ Hq) as (t & ->).
  pose proof (wpath_app _ _ _ _ _ _ _ _ Hp Hq) as H. destruct f as [f|]; [|destruct (Hf _ _ H)]. exists f. split; [exact Hf|]. apply (proj2 Hf _ _ H). Qed.
Lemma leg_metric g x y d : metric g -> leg g x y d <-> dist (edge g) x y d.
Proof. intros Hm. unfold leg. destruct (edge g x y) as [w|] eqn:E; [|tauto]. destruct (w =? 0); [tauto|]. apply Hm in E. split; [intros ->; exact E|intros H; exact (dist_fun _ _ _ _ _ H E)]. Qed.
Lemma taken_shorter g : wf g -> nonneg g -> metric g -> forall t x y todo c e, (forall z, In z (x :: t) -> In z (nodes g)) -> In y (nodes g) -> legs g x t (Fin c) -> dist (edge g) y x (Fin e) ->
  exists c', travel g y (taken (jobs_from_path (x :: t)) todo) (Fin c') /\ c' <= e + c.
Proof. intros W Hn Hm. induction t as [|x' t IH]; intros x y todo c e Hin Hy Hl He.
  - inversion Hl; subst. exists 0. split; [constructor|]. destruct He as ((p & Hp) & _). enough (0 <= e) by lia. clear - Hn Hp. induction Hp as [|a b p c w d He H IH]; [lia|]. specialize (Hn a b w He). lia.
  - inversion Hl as [|? ? ? d1 d2 L1 L2 E]; subst. destruct d1 as [z1|], d2 as [z2|]; try discriminate. match goal with H : ext_add _ _ = _ |- _ => injection H as <- end. apply (leg_metric g _ _ _ Hm) in L1 as D1.
    assert (In x (nodes g)) as Nx by (apply Hin; left; reflexivity). assert (In x' (nodes g)) as Nx' by (apply Hin; right; left; reflexivity). assert (forall z, In z (x' :: t) -> In z (nodes g)) as Hin' by (intros; apply Hin; right; assumption).
    change (jobs_from_path (x :: x' :: t)) with ((x, x') :: jobs_from_path (x' :: t)). cbn [taken]. destruct (mem (x, x') todo).
    + destruct (IH x' x' (lremove (x, x') todo) z2 0 Hin' Nx' L2 (dist_self g x' Hn)) as (c' & T1 & T2). unfold travel in *. cbn [route]. destruct (eq_dec x y) as [->|Hne].
      * exists (z1 + c'). split; [exact (legs_cons g y x' _ (Fin z1) (Fin c') L1 T1)|]. destruct He as ((p & Hp) & _). enough (0 <= e) by lia. clear - Hn Hp. induction Hp as [|a b p c w d He H IH]; [lia|]. specialize (Hn a b w He). lia.
      * exists (e + (z1 + c')). split; [|lia]. apply (legs_cons g y x _ (Fin e) (Fin (z1 + c'))); [apply leg_metric; auto|]. exact (legs_cons g x x' _ (Fin z1) (Fin c') L1 T1).
    + destruct (dist_tri g y x x' e z1 W Hn Hy Nx' He D1) as (f & F1 & F2). destruct (IH x' y todo z2 f Hin' Hy L2 F1) as (c' & T1 & T2). exists c'. split; [exact T1|lia]. Qed.
End Rail.
