(** C86, continued: distance_from_path over legs that need not be edges. *)
From Coq Require Import ZArith SpecFloat.
From Verif Require Import Prelude PreludeFacts Base BaseFacts BaseFacts2 BaseFacts3 Spec SpecFacts Loop SearchFacts BaseAlgFacts Sp SpFacts GSp GSpec GSpFacts Float64 PropsFloat.
Open Scope nat_scope.

Section Legs.
Context {A O : Type} {EA : EqDec A}.
(** w is the length of the leg from x to y: the value of the edge if there is one that is not the number 0; otherwise the
    least length of a walk from x to y, or infinity without one.  Lengths of walks are sums from left to right, each rounded *)
Definition leg_length (g : graph A O spec_float) (x y : A) (w : spec_float) : Prop :=
  (edge g x y = Some w /\ SFeqb w (S754_zero false) = false) \/
  ((edge g x y = None \/ exists v, edge g x y = Some v /\ SFeqb v (S754_zero false) = true) /\
   ((exists p, lpath f64 (edge g) x p y w /\ forall p' d', lpath f64 (edge g) x p' y d' -> SFltb d' w = false) \/
    (w = S754_infinity false /\ forall p' d', ~ lpath f64 (edge g) x p' y d'))).
Context (g : graph A O spec_float) (R : reachable g) (G : good_edges f64_good g).
Notation E := (edge g).
Lemma leg_good x y w : leg_length g x y w -> f64_good w.
Proof. intros [[H _]|[_ [(p & H & _)|[-> _]]]]; [eapply G; eauto|exact (proj1 (lpath_nmz g G _ _ _ _ H))|split; [reflexivity|reflexivity]]. Qed.
Lemma inf_add w : f64_good w -> SFadd 53 1024 (S754_infinity false) w = S754_infinity false.
Proof. intros [_ H]. destruct w as [s|s| |s m e]; try reflexivity; [cbn in H; subst s; reflexivity|destruct H]. Qed.
Lemma add_inf w : f64_good w -> SFadd 53 1024 w (S754_infinity false) = S754_infinity false.
Proof. intros [_ H]. destruct w as [s|s| |s m e]; try reflexivity; [cbn in H; subst s; reflexivity|destruct H]. Qed.
Lemma inf_sum ws : Forall f64_good ws -> fold_left (SFadd 53 1024) ws (S754_infinity false) = S754_infinity false.
Proof. induction ws as [|w ws IH]; intros H; [reflexivity|]. apply Forall_cons_iff in H. destruct H as [H1 H2]. cbn [fold_left]. rewrite inf_add by exact H1. apply IH, H2. Qed.
Lemma search_leg x y : contains g x = true -> contains g y = true -> (E x y = None \/ exists v, E x y = Some v /\ SFeqb v (S754_zero false) = true) ->
  exists d p, returns (fun n => gshortest_path f64 n g x y []) (Ok (d, p)) /\ leg_length g x y d.
Proof. intros Hx Hy He. destruct (C86_shortest_path_floats g x y [] R G Hx Hy) as (d & p & Hr & H). exists d, p. split; [exact Hr|]. right. split; [exact He|]. destruct H as [(H1 & _ & _ & H2)|(-> & _ & H)].
  - left. exists p. split; [exact H1|]. intros p' d' H'. apply (H2 p' d' H'). intros ? _ [].
  - right. split; [reflexivity|]. intros p' d' H'. apply (H p' d' H'). intros ? _ []. Qed.
Lemma truthy_cases x y : (exists w, E x y = Some w /\ SFeqb w (S754_zero false) = false /\ gtruthy f64 (E x y) = Some w) \/
  ((E x y = None \/ exists v, E x y = Some v /\ SFeqb v (S754_zero false) = true) /\ gtruthy f64 (E x y) = None).
Proof. destruct (E x y) as [w|]; [|right; split; [auto|reflexivity]]. cbn [gtruthy]. change (a_eqb f64 w (a_zero f64)) with (SFeqb w (S754_zero false)). destruct (SFeqb w (S754_zero false)) eqn:Ez; [right|left; eauto]. split; [right; eauto|reflexivity]. Qed.
Lemma legs_total t : forall x, contains g x = true -> (forall y, In y t -> contains g y = true) -> exists ws, Forall2 (fun s w => leg_length g (fst s) (snd s) w) (combine (x :: t) t) ws.
Proof. induction t as [|y t IH]; intros x Hx Ht; [exists []; constructor|]. change (combine (x :: y :: t) (y :: t)) with ((x, y) :: combine (y :: t) t). pose proof (Ht y (or_introl eq_refl)) as Hy. destruct (IH y Hy) as [ws F]; [intros z Hz; apply Ht; right; exact Hz|].
  destruct (truthy_cases x y) as [(w & H1 & H2 & _)|[H _]]; [exists (w :: ws); constructor; [left; auto|exact F]|]. destruct (search_leg x y Hx Hy H) as (d & _ & _ & Hd). exists (d :: ws). constructor; [exact Hd|exact F]. Qed.
Lemma dfp_legs t : forall x cache acc, contains g x = true -> (forall y, In y t -> contains g y = true) -> (forall a b v, dget (a, b) cache = Some v -> (E a b = None \/ exists v, E a b = Some v /\ SFeqb v (S754_zero false) = true) -> leg_length g a b v) -> f64_good acc ->
  exists ws, Forall2 (fun s w => leg_length g (fst s) (snd s) w) (combine (x :: t) t) ws /\ returns (fun n => gdfp_loop f64 n g x t cache acc) (Ok (fold_left (SFadd 53 1024) ws acc)).
Proof. induction t as [|y t IH]; intros x cache acc Hx Ht Hc Ga; [exists []; split; [constructor|apply returns_const; discriminate]|]. change (combine (x :: y :: t) (y :: t)) with ((x, y) :: combine (y :: t) t). pose proof (Ht y (or_introl eq_refl)) as Hy. assert (forall z, In z t -> contains g z = true) as Ht' by (intros z Hz; apply Ht; right; exact Hz). cbn [gdfp_loop].
  destruct (truthy_cases x y) as [(w & H1 & H2 & ->)|[H ->]].
  - destruct (IH y cache (SFadd 53 1024 acc w) Hy Ht' Hc) as (ws & F & Hr); [apply (l_add _ _ f64_lawful); [exact Ga|eapply G; eauto]|]. exists (w :: ws). split; [constructor; [left; auto|exact F]|exact Hr].
  - destruct (gtruthy f64 (dget (x, y) cache)) as [w|] eqn:Ec.
    + assert (leg_length g x y w) as Hw by (destruct (dget (x, y) cache) as [v|] eqn:Ev; [|discriminate]; cbn [gtruthy] in Ec; destruct (a_eqb f64 v (a_zero f64)); [discriminate|]; injection Ec as <-; apply (Hc x y v Ev H)).
      destruct (IH y cache (SFadd 53 1024 acc w) Hy Ht' Hc) as (ws & F & Hr); [apply (l_add _ _ f64_lawful); [exact Ga|eapply leg_good; eauto]|]. exists (w :: ws). split; [constructor; [exact Hw|exact F]|exact Hr].
    + destruct (search_leg x y Hx Hy H) as (d & p & Hr & Hd). destruct (SFeqb d (S754_infinity false)) eqn:Ei.
      * assert (d = S754_infinity false) as -> by (clear - Ei; destruct d as [s|[]| |[] m e]; try reflexivity; cbn in Ei; discriminate). destruct (legs_total t y Hy Ht') as [ws F]. exists (S754_infinity false :: ws). split; [constructor; [exact Hd|exact F]|]. cbn [fold_left]. rewrite add_inf by exact Ga. rewrite inf_sum.
        -- refine (returns_bind _ (fun n r => _) (S754_infinity false, p) _ Hr _). cbn [fst]. apply returns_const. discriminate.
        -- clear - F G. induction F as [|s w l ws H F IH]; constructor; [eapply leg_good; eauto|exact IH].
      * destruct (IH y (dset (x, y) d cache) (SFadd 53 1024 acc d) Hy Ht') as (ws & F & Hr2).
        { intros a b v. rewrite dget_dset. destruct (eq_dec (a, b) (x, y)) as [Eab|]; [|apply Hc]. injection Eab as -> ->. intros Ev _. injection Ev as <-. exact Hd. }
        { apply (l_add _ _ f64_lawful); [exact Ga|eapply leg_good; eauto]. }
        exists (d :: ws). split; [constructor; [exact Hd|exact F]|]. refine (returns_bind _ (fun n r => _) (d, p) _ Hr _). cbn [fst]. change (a_eqb f64 d (a_inf f64)) with (SFeqb d (S754_infinity false)). rewrite Ei. exact Hr2. Qed.
End Legs.
(** distance_from_path over any nodes of the graph: the sum, from left to right, of the lengths of the legs; infinity as soon as a
    leg has none *)
Theorem C86_distance_from_path_legs {A O} {EA : EqDec A} (g : graph A O spec_float) x t : reachable g -> good_edges f64_good g -> (forall y, In y (x :: t) -> contains g y = true) ->
  exists ws, Forall2 (fun s w => leg_length g (fst s) (snd s) w) (combine (x :: t) t) ws /\
    returns (fun n => gdistance_from_path f64 n g (x :: t)) (Ok (fold_left (SFadd 53 1024) ws (S754_zero false))) /\
    (In (S754_infinity false) ws -> fold_left (SFadd 53 1024) ws (S754_zero false) = S754_infinity false).
Proof. intros R G Ht. destruct (dfp_legs g R G t x [] (S754_zero false)) as (ws & F & Hr); [apply Ht; left; reflexivity|intros y Hy; apply Ht; right; exact Hy|discriminate|apply (l_zero _ _ f64_lawful)|]. exists ws. splits; [exact F|exact Hr|].
  assert (Forall f64_good ws) as Gw by (clear - F G; induction F as [|s w l ws H F IH]; constructor; [eapply (leg_good g G); eauto|exact IH]). intros Hi. assert (f64_good (S754_zero false)) as Ga by apply (l_zero _ _ f64_lawful). revert Ga Hi. generalize (S754_zero false). clear Hr F. induction Gw as [|w ws H Gw IH]; intros acc Ga; [intros []|]. cbn [fold_left]. intros [->|Hi]; [rewrite add_inf by exact Ga; apply inf_sum, Gw|]. apply IH; [apply (l_add _ _ f64_lawful); assumption|exact Hi]. Qed.
(** a graph with a leg that is an edge, one that is not, and a node that cannot be reached *)
Definition ops_legs : list (op nat unit spec_float) := [OpAddEdge 0 1 f01 false; OpAddEdge 1 2 f02 false; OpAddNode 3 None].
Definition g_legs : graph nat unit spec_float := ok_or empty_graph (run ops_legs).
Example ex_legs : returns (fun n => gdistance_from_path f64 n g_legs [0; 2]) (Ok (SFadd 53 1024 f01 f02)) /\ returns (fun n => gdistance_from_path f64 n g_legs [0; 2; 3]) (Ok (S754_infinity false)).
Proof. assert (reachable g_legs) as R by (exists ops_legs; vm_compute; reflexivity). assert (good_edges f64_good g_legs) as G by (apply good_check; [apply reachable_wf, R|vm_compute; reflexivity]).
  assert (forall t d, (forall y, In y (0 :: t) -> contains g_legs y = true) -> gdistance_from_path f64 30 g_legs (0 :: t) = Ok d -> returns (fun n => gdistance_from_path f64 n g_legs (0 :: t)) (Ok d)) as K.
  { intros t d Ht E. destruct (C86_distance_from_path_legs g_legs 0 t R G Ht) as (ws & _ & Hr & _). pose proof (returns_of _ _ 30 Hr) as E2. cbv beta in E2. rewrite E in E2. specialize (E2 ltac:(discriminate)). injection E2 as ->. exact Hr. }
  split; apply K; try (vm_compute; reflexivity); intros y Hy; repeat (destruct Hy as [<-|Hy]; [vm_compute; reflexivity|]); destruct Hy. Qed.
