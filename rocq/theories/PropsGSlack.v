(** Property theorems C101 (critical_path_minimize_for_slack with float durations). *)
From Coq Require Import ZArith SpecFloat.
From Verif Require Import Prelude PreludeFacts Base BaseFacts BaseFacts2 BaseFacts3 Spec SpecFacts Loop SearchFacts BaseAlgFacts DagFacts Topo TopoFacts Cpm CpmFacts SlackFacts Fw FwFacts GSp GSpec Float64 FloatExact FloatSigned GCpm GCpmSpec GCpmFacts CpmFloat PropsFloat FwFloat GFw GFwSpec CentreFloat PropsCentreFloat GSlack GSlackSpec GSlackFacts PropsCpmFloat.
Local Open Scope Z_scope.

Section Any.
Context {A W V : Type} {EA : EqDec A} (ar : arith W) (sub : W -> W -> W) (sumf : list W -> W) (one : V) (good : W -> Prop).
Notation graph := (graph A W V).
Implicit Types (g ng : graph).
(** what a result of critical_path_minimize_for_slack must be *)
Definition slack_result (srt : list A -> list A) g ng : Prop :=
  (forall x, contains ng x = contains g x) /\ (forall x, node ng x = node g x) /\
  (forall a b v, edge g a b = Some v -> edge ng a b = Some v) /\ acyclic (has_edge ng) /\
  exists cpl d cpl' d', returns (fun n => gcritical_path_of ar sub IsGraph srt n g) (Ok (cpl, d)) /\ returns (fun n => gcritical_path_of ar sub IsGraph srt n ng) (Ok (cpl', d')) /\
    a_eqb ar cpl' cpl = true /\
    exists s, measured ar sub sumf srt ng s /\ (s = gtotal_slack sub sumf d \/ a_ltb ar s (gtotal_slack sub sumf d) = true).
(** Any arithmetic that keeps the order and whose == and < agree, whatever the subtraction and sum() do: it terminates; the only
    exception is AttributeError (critical_path on an intermediate graph with a cycle); the result has the tasks, durations and
    dependencies of the given plan, no cycle, an equal critical path length, and a total slack that was measured for it is the
    total slack of the given plan or less. *)
Theorem C101_slack_rounded g srt ord : lawful ar good ->
  (forall x y : W, good x -> good y -> (a_eqb ar x y = true <-> a_ltb ar y x = false /\ a_ltb ar x y = false)) ->
  (forall x y z : W, a_ltb ar x y = true -> a_ltb ar y z = true -> a_ltb ar x z = true) ->
  reachable g -> (forall l, Permutation (srt l) l) -> (forall i l, Permutation (ord i l) l) ->
  gplan good g -> acyclic (has_edge g) -> nodes g <> [] ->
  exists r, returns (fun n => gminimize_for_slack ar sub sumf one srt ord n g) r /\
    (r = Err AttributeError \/ exists ng, r = Ok ng /\ slack_result srt g ng).
Proof. intros LW EQB LT R Hs Ho HP Hac Hne.
  destruct (gminimize_spec ar sub sumf one good LW EQB LT srt Hs ord g R Ho HP Hac Hne) as (cpl & d & r & Hr & Gc & _ & Hm & Hres). exists r. split; [exact Hm|].
  destruct r as [ng|e|]; [right|left; f_equal; exact Hres|destruct Hres]. exists ng. split; [reflexivity|]. destruct Hres as (s & (R' & H1 & H2 & H3 & H4 & (c & d' & Hr' & G' & _ & L1 & L2) & HM) & Hb).
  hnf. splits; auto. exists cpl, d, c, d'. splits; auto; [apply EQB; auto|]. exists s. split; [exact HM|exact Hb]. Qed.
End Any.

Lemma sf_ltb_trans x y z : SFltb x y = true -> SFltb y z = true -> SFltb x z = true.
Proof. unfold SFltb. destruct x as [[|]|[|]| |[|] m1 e1], y as [[|]|[|]| |[|] m2 e2], z as [[|]|[|]| |[|] m3 e3]; cbn; try discriminate; auto;
  change (Pos.compare_cont Eq) with Pos.compare in *;
  destruct (Z.compare_spec e1 e2), (Z.compare_spec e2 e3), (Z.compare_spec e1 e3); try discriminate; try lia; auto;
  destruct (Pos.compare_spec m1 m2), (Pos.compare_spec m2 m3), (Pos.compare_spec m1 m3); cbn; try discriminate; try lia; auto. Qed.
Lemma sf_eqb_ltb_trans x y z : SFeqb x y = true -> SFltb y z = true -> SFltb x z = true.
Proof. unfold SFltb, SFeqb. destruct x as [[|]|[|]| |[|] m1 e1], y as [[|]|[|]| |[|] m2 e2], z as [[|]|[|]| |[|] m3 e3]; cbn; try discriminate; auto;
  change (Pos.compare_cont Eq) with Pos.compare in *;
  destruct (Z.compare_spec e1 e2), (Z.compare_spec e2 e3), (Z.compare_spec e1 e3); try discriminate; try lia; auto;
  destruct (Pos.compare_spec m1 m2), (Pos.compare_spec m2 m3), (Pos.compare_spec m1 m3); cbn; try discriminate; try lia; auto. Qed.
Lemma f64_eqb_le x y : f64_good x -> f64_good y -> (SFeqb x y = true <-> SFltb y x = false /\ SFltb x y = false).
Proof. intros Gx Gy. rewrite (feqb_iv x y Gx Gy), ext_eqb_eq. rewrite !(ltb_spec 53 1024 ltac:(lia)) by assumption. split.
  - intros ->. destruct (ival 53 1024 y); cbn; rewrite ?Z.ltb_irrefl; auto.
  - intros [H1 H2]. destruct (ival 53 1024 x) as [a|], (ival 53 1024 y) as [b|]; cbn in *; try discriminate; try reflexivity. apply Z.ltb_ge in H1, H2. f_equal. lia. Qed.

Section Fl.
Context {A V : Type} {EA : EqDec A} (sumf : list spec_float -> spec_float) (one : V).
Notation graph := (graph A spec_float V).
Implicit Types (g ng : graph) (srt : list A -> list A).
Notation fcp srt n g := (gcritical_path_of f64 fsub IsGraph srt n g).
Notation sv := (sval 53 1024).
(** on floats that are not negative (inf included) *)
Theorem C101_slack_floats_partial g srt ord : reachable g -> (forall l, Permutation (srt l) l) -> (forall i l, Permutation (ord i l) l) ->
  gplan f64_good g -> acyclic (has_edge g) -> nodes g <> [] ->
  exists r, returns (fun n => gminimize_for_slack f64 fsub sumf one srt ord n g) r /\
    (r = Err AttributeError \/ exists ng, r = Ok ng /\ slack_result f64 fsub sumf srt g ng).
Proof. intros. apply (C101_slack_rounded f64 fsub sumf one f64_good); auto; [exact f64_lawful|exact f64_eqb_le|exact sf_ltb_trans]. Qed.

(** ** multiples of a power of two *)
Section Grid.
Context (j : Z) (Hj : 0 <= j < 2045) (Hnear : sums_near sumf) (Hgrid : sums_grid sumf j).
Definition grid_plan g : Prop := gplan finite_duration g /\ forall x w, node g x = Some w -> (2 ^ j | units w).
Lemma grid_same g1 g2 : same_tasks g1 g2 -> grid_plan g1 -> grid_plan g2.
Proof. intros HS [H1 H2]. split; [eapply same_gplan; eauto|]. intros x w. rewrite <- (proj1 (proj2 HS)). apply H2. Qed.
Lemma exact_same g1 g2 : same_tasks g1 g2 -> same_plan (exact_plan g1) (exact_plan g2).
Proof. intros HS. pose proof HS as (H1 & H2 & H3). hnf; splits.
  - intros x. unfold exact_plan. rewrite !dkeys_with. apply same_nodes, HS.
  - intros x. unfold exact_plan. rewrite !node_with, H2. reflexivity.
  - exact H3. Qed.
Lemma same_length g1 g2 : wf g1 -> wf g2 -> same_tasks g1 g2 -> length (nodes g1) = length (nodes g2).
Proof. intros W1 W2 HS. apply Permutation_length, NoDup_Permutation; [apply W1|apply W2|intros x; apply same_nodes, HS]. Qed.
Lemma good_of x z : valid_binary 53 1024 x = true -> sv x = Some z -> 0 <= z -> f64_good x /\ ival 53 1024 x = Fin z.
Proof. intros Vx E Hz. destruct x as [s|s| |s m e]; cbn in E; try discriminate; inversion E; subst; clear E.
  - split; [split; [exact Vx|exact Logic.I]|reflexivity].
  - destruct s; cbn [cond_Zopp] in Hz.
    + exfalso. pose proof (emin_le 53 1024 m e Vx) as K. change (SpecFloat.emin 53 1024) with (-1074) in K. assert (0 < 2 ^ (e - -1074)) as P by (apply Z.pow_pos_nonneg; lia). destruct (2 ^ (e - -1074)); lia.
    + split; [split; [exact Vx|reflexivity]|reflexivity]. Qed.
(** a run on a plan of the grid whose length is that of another run with the exact length C *)
Lemma grid_run g srt c d C1 D1 C : wf g -> (forall l, Permutation (srt l) l) -> grid_plan g -> acyclic (has_edge g) ->
  returns (fun n => fcp srt n g) (Ok (c, d)) -> schedule_ok (exact_plan g) C1 D1 -> sv c = Some C -> 3 * Z.of_nat (length (nodes g)) <= 2 ^ 53 ->
  (Z.of_nat (length (nodes g)) + 1) * C < 2 ^ (53 + j) -> nodes g <> [] ->
  C1 = C /\ f64_good (gtotal_slack fsub sumf d) /\ ival 53 1024 (gtotal_slack fsub sumf d) = Fin (total_slack D1).
Proof. intros W0 Hs [HP Hdiv] Hac Hr HS Hc Hn HB Hne.
  destruct (gcritical_path_eqs f64 fsub IsGraph srt g W0 Hs) as (c' & d' & order & Hr' & Heq & Hnd & Hperm & Hpf); [|exact Hac|].
  { intros x Hx E. apply contains_In in Hx. destruct (HP x Hx) as (dd & E2 & _). congruence. }
  pose proof (returns_fun _ _ _ Hr Hr') as E. inversion E; subst c' d'; clear E.
  set (n := Z.of_nat (length (nodes g))) in *. assert (1 <= n) as Hn1 by (unfold n; destruct (nodes g); [congruence|cbn [length]; lia]).
  destruct (error_bounds g W0 HP Hac c d order Heq Hnd Hperm Hpf C1 D1 HS C Hn Hc) as [(u & Eu & HC1) _]. rewrite Hc in Eu. inversion Eu; subst u; clear Eu. fold n in HC1.
  pose proof (cz_range g W0 HP c d order Heq Hperm Hpf C Hc) as [C0 _].
  assert (C1 <= 2 * C) as HC2. { assert (n * C <= 2 ^ 53 * C) as K by (apply Z.mul_le_mono_nonneg_r; [exact C0|lia]). set (P := 2 ^ 53) in *. assert (0 < P) by reflexivity. clearbody P. nia. }
  assert (2 * C <= (n + 1) * C) as HC3 by (apply Z.mul_le_mono_nonneg_r; [exact C0|lia]).
  destruct (multiples_bounds g W0 HP c d order Heq Hnd Hperm Hpf C1 D1 HS j) as [Sc Hsl]; [lia|change (1024 - SpecFloat.emin 53 1024) with 2098; lia|exact Hdiv|lia|].
  rewrite Hc in Sc. injection Sc as E1. symmetry in E1. clear HC2. split; [exact E1|]. subst C1.
  assert (forall x, (2 ^ j | duration (exact_plan g) x)) as Dd. { intros x. rewrite (duration_exact g). unfold gduration. destruct (node g x) as [w|] eqn:Ew; [eapply Hdiv; eauto|exists 0; reflexivity]. }
  assert (forall p, (2 ^ j | total_duration (exact_plan g) p)) as Dt by (induction p as [|x p IH]; cbn [total_duration]; [exists 0; reflexivity|apply Z.divide_add_r; auto]).
  assert (2 ^ j | C) as DC. { destruct HS as (_ & [[_ ->]|(a & p & b & _ & _ & <-)] & _); [exists 0; reflexivity|apply Dt]. }
  pose proof HS as (P1 & _ & L1 & T1 & _).
  assert (forall x T, dget x D1 = Some T -> (2 ^ j | t_slack T) /\ 0 <= t_slack T <= C) as HT.
  { intros x T ET. destruct (T1 x T ET) as [((Y1 & Y2 & Y3 & Y4 & _) & X4 & X5) Y5]. assert (In x (nodes g)) as Hx by (rewrite <- (dkeys_with g units); apply (Permutation_in x P1); eapply dget_Some_key; eauto).
    destruct X5 as [(b & p & Hp & Ep) _]. destruct Y4 as [(a & q & Hq & Eq) _]. pose proof (total_nonneg g HP q) as Q0.
    assert (t_dur T = duration (exact_plan g) x) as Ed by (unfold duration; first [rewrite Y1; reflexivity|rewrite Y2; reflexivity|congruence]).
    pose proof (dur_nonneg g HP x) as Q1. assert (duration (exact_plan g) x <= total_duration (exact_plan g) p) as Q2.
    { inversion Hp as [u|u v r w Huv Hr0]; subst; cbn [total_duration]; [lia|]. pose proof (total_nonneg g HP r). lia. }
    unfold t_slack in *. split; [|lia]. replace (t_lf T - t_ef T) with (C - total_duration (exact_plan g) p + duration (exact_plan g) x - total_duration (exact_plan g) q) by lia.
    apply Z.divide_sub_r; [apply Z.divide_add_r; [apply Z.divide_sub_r; auto|auto]|auto]. }
  pose (f := fun x => match dget x D1 with Some T => t_slack T | None => 0 end).
  assert (NoDup (dkeys d)) as ND by (rewrite (proj1 Heq); exact Hnd).
  assert (NoDup (dkeys D1)) as ND1 by (eapply Permutation_NoDup; [symmetry; exact P1|apply (wf_exact g W0)]).
  assert (forall x, In x (dkeys d) <-> In x (dkeys D1)) as HK.
  { intros x. rewrite (proj1 Heq). split; intros H.
    - apply (Permutation_in x (Permutation_sym P1)). unfold exact_plan. rewrite dkeys_with. apply (Permutation_in x Hperm), H.
    - apply (Permutation_in x (Permutation_sym Hperm)). rewrite <- (dkeys_with g units). apply (Permutation_in x P1), H. }
  assert (total_slack D1 = zsum (map f (dkeys d))) as ET.
  { rewrite (dvals_zsum f D1 ND1) by (intros x t Et; unfold f; rewrite Et; reflexivity). apply zsum_perm, Permutation_map, NoDup_Permutation; auto. intros x. symmetry. apply HK. }
  assert (forall x t, In (x, t) d -> f64_good (gt_slack fsub t) /\ ival 53 1024 (gt_slack fsub t) = Fin (f x) /\ (2 ^ j | f x) /\ 0 <= f x <= C) as Hf.
  { intros x t Hin0. assert (dget x d = Some t) as Hin by (apply In_dget; auto). destruct (dget_key x D1) as (T & ET1); [apply HK; eapply dget_Some_key; eauto|]. unfold f. rewrite ET1. destruct (HT x T ET1) as [HT1 HT2]. destruct (Hsl x t T Hin ET1) as (_ & S2 & _ & _ & S5).
    assert (In x (nodes g)) as Hx by (apply (Permutation_in x Hperm); rewrite <- (proj1 Heq); eapply dget_Some_key; eauto).
    destruct (early_x g W0 HP c d order Heq Hperm Hpf x Hx) as (_ & G2 & _). destruct (late_x g W0 HP c d order Heq Hnd Hperm Hpf x Hx) as (G4 & _). unfold efd, lfd in *. rewrite Hin in *.
    assert (num (gt_slack fsub t)) as NS by (apply fsub_num; [exact G4|split; [exact G2|eauto]]).
    destruct (good_of _ _ (proj1 NS) S5 (proj1 HT2)) as [K1 K2]. auto. }
  assert (exact_sum (map (gt_slack fsub) (dvals d)) = Fin (zsum (map f (dkeys d))) /\ 0 <= zsum (map f (dkeys d)) <= Z.of_nat (length d) * C) as [ES EB].
  { clear - Hf C0. unfold exact_sum, dvals, dkeys. induction d as [|[x t] l IH]; [cbn; split; [reflexivity|lia]|]. destruct IH as [IH1 IH2]; [intros; apply Hf; cbn; auto|]. destruct (Hf x t) as (_ & K2 & _ & K4); [cbn; auto|].
    cbn [map fold_right fst snd zsum length]. rewrite K2, IH1. split; [reflexivity|lia]. }
  assert (length d = length (nodes g)) as EL. { rewrite <- (map_length fst d). change (map fst d) with (dkeys d). rewrite (proj1 Heq). apply Permutation_length, Hperm. }
  assert (forall w, In w (map (gt_slack fsub) (dvals d)) -> exists x t, In (x, t) d /\ w = gt_slack fsub t) as HIn.
  { intros w Hw. apply in_map_iff in Hw. destruct Hw as (t & <- & Hw). unfold dvals in Hw. apply in_map_iff in Hw. destruct Hw as ([x t'] & <- & Hw). exists x, t'. auto. }
  unfold gtotal_slack. split.
  - apply Hnear. intros w Hw. destruct (HIn w Hw) as (x & t & Hin & ->). apply (Hf x t Hin).
  - rewrite ET. apply (Hgrid _ (zsum (map f (dkeys d)))); [| |exact ES|].
    + intros w Hw. destruct (HIn w Hw) as (x & t & Hin & ->). apply (Hf x t Hin).
    + intros w z Hw Ez. destruct (HIn w Hw) as (x & t & Hin & ->). destruct (Hf x t Hin) as (_ & K2 & K3 & _). rewrite K2 in Ez. inversion Ez; subst. exact K3.
    + rewrite <- Z.pow_add_r by lia. rewrite EL in EB. fold n in EB. lia. Qed.

Lemma iv_sv x z : f64_good x -> ival 53 1024 x = Fin z -> sv x = Some z.
Proof. intros [_ G] E. destruct x as [s|s| |s m e]; cbn in *; try discriminate; try (destruct G; fail); [inversion E; reflexivity|]. subst s. inversion E; reflexivity. Qed.
Lemma sv_iv x z : f64_good x -> sv x = Some z -> ival 53 1024 x = Fin z.
Proof. intros [_ G] E. destruct x as [s|s| |s m e]; cbn in *; try discriminate; try (destruct G; fail); [inversion E; reflexivity|]. subst s. inversion E; reflexivity. Qed.
Lemma grid_len g srt c d C D : wf g -> (forall l, Permutation (srt l) l) -> grid_plan g -> acyclic (has_edge g) ->
  returns (fun n => fcp srt n g) (Ok (c, d)) -> schedule_ok (exact_plan g) C D -> C < 2 ^ (53 + j) -> sv c = Some C.
Proof. intros W0 Hs [HP Hdiv] Hac Hr HS HB.
  destruct (gcritical_path_eqs f64 fsub IsGraph srt g W0 Hs) as (c' & d' & order & Hr' & Heq & Hnd & Hperm & Hpf); [|exact Hac|].
  { intros x Hx E. apply contains_In in Hx. destruct (HP x Hx) as (dd & E2 & _). congruence. }
  pose proof (returns_fun _ _ _ Hr Hr') as E. inversion E; subst c' d'; clear E.
  destruct (multiples_bounds g W0 HP c d order Heq Hnd Hperm Hpf C D HS j) as [Sc _]; auto; [lia|change (1024 - SpecFloat.emin 53 1024) with 2098; lia]. Qed.
Lemma same_len c1 c2 z : f64_good c1 -> f64_good c2 -> SFltb c2 c1 = false -> SFltb c1 c2 = false -> sv c2 = Some z -> sv c1 = Some z.
Proof. intros G1 G2 L1 L2 E. apply iv_sv; [exact G1|]. apply (sv_iv c2 z G2) in E. rewrite <- E. apply ext_eqb_eq. rewrite <- (feqb_iv c1 c2 G1 G2). apply f64_eqb_le; auto. Qed.

(** If all durations are multiples of 2^j (in units of 2^-1074) and the slacks can be added within 53 bits, the result is what
    exact arithmetic demands: the length is the same number, and the total slack of the exact schedule is no more than before; the
    values that critical_path returns for it are these numbers. *)
Theorem C101_grid_slack g srt ord : reachable g -> (forall l, Permutation (srt l) l) -> (forall i l, Permutation (ord i l) l) ->
  grid_plan g -> acyclic (has_edge g) -> nodes g <> [] -> 3 * Z.of_nat (length (nodes g)) <= 2 ^ 53 ->
  exists C D r, returns (fun n => critical_path_of IsGraph srt n (exact_plan g)) (Ok (C, D)) /\
    returns (fun n => gminimize_for_slack f64 fsub sumf one srt ord n g) r /\
    ((Z.of_nat (length (nodes g)) + 1) * C < 2 ^ (53 + j) ->
     r = Err AttributeError \/ exists ng D', r = Ok ng /\ slack_result f64 fsub sumf srt g ng /\
       returns (fun n => critical_path_of IsGraph srt n (exact_plan ng)) (Ok (C, D')) /\ total_slack D' <= total_slack D /\
       exists c d, returns (fun n => fcp srt n ng) (Ok (c, d)) /\ sv c = Some C /\ sv (gtotal_slack fsub sumf d) = Some (total_slack D')).
Proof. intros R Hs Ho HG Hac Hne Hn. pose proof (reachable_wf _ R) as W0. pose proof HG as [HP Hdiv].
  assert (forall g0, gplan finite_duration g0 -> gplan f64_good g0) as HF by (intros g0 H x Hx; destruct (H x Hx) as (w & E & Hw); exists w; split; [exact E|apply Hw]).
  destruct (critical_path_of_spec IsGraph srt (exact_plan g) (wf_exact g W0) Hs (plan_exact g HP) Hac) as (C & D & HR & HS).
  destruct (C101_slack_floats_partial g srt ord R Hs Ho (HF g HP) Hac Hne) as (r & Hm & Hres). exists C, D, r. splits; auto. intros HB.
  destruct Hres as [->|(ng & -> & HRes)]; [left; reflexivity|right].
  destruct (gminimize_spec f64 fsub sumf one f64_good f64_lawful f64_eqb_le sf_ltb_trans srt Hs ord g R Ho (HF g HP) Hac Hne) as (cpl & d & r & Hr & Gc & _ & Hm2 & Hres2).
  pose proof (returns_fun _ _ _ Hm Hm2) as <-. destruct Hres2 as (s & (R' & H1 & H2 & H3 & H4 & (c & d' & Hr' & G' & _ & L1 & L2) & (ng0 & c0 & d0 & R0 & S0 & Hr0 & HM)) & Hb).
  pose proof (reachable_wf _ R') as W'. pose proof (reachable_wf _ R0) as W00. set (n := Z.of_nat (length (nodes g))) in *.
  assert (1 <= n) as Hn1 by (unfold n; destruct (nodes g); [congruence|cbn [length]; lia]).
  assert (0 <= C) as C0 by (destruct HS as (_ & [[_ ->]|(a & p & b & _ & _ & <-)] & _); [lia|apply (total_nonneg g HP)]).
  assert (sv cpl = Some C) as Sc by (apply (grid_len g srt cpl d C D); auto; nia).
  assert (sv c = Some C) as Sc' by (apply (same_len c cpl); auto).
  assert (forall x, In x (nodes ng) <-> In x (nodes g)) as HNi by (intros x; rewrite <- !contains_In, H1; reflexivity).
  assert (length (nodes ng) = length (nodes g)) as EL by (apply Permutation_length, NoDup_Permutation; [apply W'|apply W0|exact HNi]).
  assert (grid_plan ng) as HG'. { split; [intros x Hx; rewrite H2; apply HP; rewrite <- H1; exact Hx|intros x w; rewrite H2; apply Hdiv]. }
  pose proof (grid_same _ _ (same_sym _ _ S0) HG') as HG0. pose proof (same_acyclic _ _ (same_sym _ _ S0) H4) as Hac0. pose proof (same_length _ _ W00 W' S0) as EL0.
  assert (nodes ng <> []) as Hne' by (intros E; rewrite E in EL; destruct (nodes g); [congruence|discriminate EL]).
  assert (nodes ng0 <> []) as Hne0 by (intros E; rewrite E in EL0; destruct (nodes ng); [congruence|discriminate EL0]).
  destruct (gcp_spec f64 fsub f64_good f64_lawful srt ng0 W00 Hs (HF _ (proj1 HG0)) Hac0) as (c00 & d00 & Hr00 & G0 & L0 & _).
  pose proof (returns_fun _ _ _ Hr0 Hr00) as E. inversion E; subst c00 d00; clear E Hr00.
  destruct (gcp_spec f64 fsub f64_good f64_lawful srt ng W' Hs (HF _ (proj1 HG')) H4) as (c00 & d00 & Hr00 & _ & L & _).
  pose proof (returns_fun _ _ _ Hr' Hr00) as E. inversion E; subst c00 d00; clear E Hr00.
  assert (sv c0 = Some C) as Sc0 by (apply (same_len c0 c); auto; [apply (longest_same f64 f64_good f64_lawful ng0 ng)|apply (longest_same f64 f64_good f64_lawful ng ng0)]; auto; apply same_sym; exact S0).
  destruct (critical_path_of_spec IsGraph srt (exact_plan ng) (wf_exact ng W') Hs (plan_exact ng (proj1 HG')) H4) as (C' & D' & HR' & HS').
  destruct (critical_path_of_spec IsGraph srt (exact_plan ng0) (wf_exact ng0 W00) Hs (plan_exact ng0 (proj1 HG0)) Hac0) as (C0' & D0 & _ & HS0).
  destruct (grid_run ng srt c d' C' D' C) as (-> & K1 & K2); auto; [rewrite EL; exact Hn|rewrite EL; exact HB|].
  destruct (grid_run ng0 srt c0 d0 C0' D0 C) as (-> & K3 & K4); auto; [rewrite EL0, EL; exact Hn|rewrite EL0, EL; exact HB|].
  destruct (grid_run g srt cpl d C D C) as (_ & K5 & K6); auto.
  destruct (schedule_unique (exact_plan ng0) (exact_plan ng) C D0 C D') as [_ ES]; [apply (wf_exact ng0 W00)|apply (wf_exact ng W')|apply exact_same, S0|exact HS0|exact HS'|].
  exists ng, D'. splits; auto.
  - rewrite <- ES. set (t0 := gtotal_slack fsub sumf d0) in *. set (t := gtotal_slack fsub sumf d) in *.
    assert (SFeqb t0 t = true \/ SFltb t0 t = true) as HC.
    { destruct Hb as [->|Hb], HM as [HM|HM].
      - left. rewrite HM, feqb_iv by auto. apply ext_eqb_eq. reflexivity.
      - left. exact HM.
      - right. rewrite HM. exact Hb.
      - right. exact (sf_eqb_ltb_trans _ _ _ HM Hb). }
    destruct HC as [HC|HC]; [rewrite feqb_iv in HC by auto; apply ext_eqb_eq in HC|rewrite (ltb_spec 53 1024 ltac:(lia)) in HC by auto]; rewrite K4, K6 in HC; cbn in HC; [inversion HC; lia|apply Z.ltb_lt in HC; lia].
  - exists c, d'. splits; auto. apply iv_sv; auto. Qed.
End Grid.
End Fl.

(** the inserted dependencies can close a cycle; critical_path then raises (the plan of C39, the durations as floats) *)
Definition fz (z : Z) : spec_float := binary_normalize 53 1024 z 0 false.
Definition ops_cpx : list (op nat spec_float Z) :=
  [OpAddNode 0%nat (Some (fz 1)); OpAddNode 1%nat (Some (fz 99)); OpAddNode 2%nat (Some (fz 50)); OpAddNode 3%nat (Some (fz 50)); OpAddNode 10%nat (Some (fz 10));
   OpAddNode 11%nat (Some (fz 7)); OpAddNode 12%nat (Some (fz 5)); OpAddNode 13%nat (Some (fz 60));
   OpAddEdge 0%nat 1%nat 1 false; OpAddEdge 2%nat 3%nat 1 false; OpAddEdge 0%nat 10%nat 1 false; OpAddEdge 0%nat 11%nat 1 false; OpAddEdge 2%nat 12%nat 1 false; OpAddEdge 10%nat 13%nat 1 false].
Definition g_cpx : graph nat spec_float Z := ok_or empty_graph (run ops_cpx).
Theorem C101_raises_refuted : reachable g_cpx /\ gplan finite_duration g_cpx /\ acyclic (has_edge g_cpx) /\
  forall n, gminimize_for_slack f64 fsub naive_sum 1 (fun l => l) (fun _ l => l) (100 + n) g_cpx = Err AttributeError.
Proof. assert (reachable g_cpx) as R by (exists ops_cpx; vm_compute; reflexivity). splits; [exact R| | |].
  - apply plan_check_ok. vm_compute. reflexivity.
  - apply increasing_acyclic; [vm_compute; reflexivity|apply reachable_wf, R].
  - intros n. vm_compute. reflexivity. Qed.
(** the hypotheses of the theorems hold for the plan of the documentation with its durations as floats; one dependency is inserted *)
Definition ops_doc : list (op nat spec_float Z) :=
  [OpAddNode 1%nat (Some (fz 10)); OpAddNode 2%nat (Some (fz 20)); OpAddNode 3%nat (Some (fz 5)); OpAddNode 4%nat (Some (fz 10)); OpAddNode 9%nat (Some (fz 20));
   OpAddNode 6%nat (Some (fz 15)); OpAddNode 7%nat (Some (fz 5)); OpAddNode 8%nat (Some (fz 15));
   OpAddEdge 1%nat 2%nat 0 false; OpAddEdge 2%nat 3%nat 0 false; OpAddEdge 3%nat 4%nat 0 false; OpAddEdge 4%nat 9%nat 0 false; OpAddEdge 1%nat 6%nat 0 false;
   OpAddEdge 6%nat 7%nat 0 false; OpAddEdge 7%nat 9%nat 0 false; OpAddEdge 1%nat 8%nat 0 false; OpAddEdge 8%nat 9%nat 0 false].
Definition g_doc : graph nat spec_float Z := ok_or empty_graph (run ops_doc).
Lemma doc_ok : reachable g_doc /\ grid_plan 1074 g_doc /\ acyclic (has_edge g_doc) /\ nodes g_doc <> [] /\ gplan f64_good g_doc.
Proof. assert (reachable g_doc) as R by (exists ops_doc; vm_compute; reflexivity). assert (gplan finite_duration g_doc) as P by (apply plan_check_ok; vm_compute; reflexivity). splits; [exact R| | | |].
  - split; [exact P|]. apply (div_check g_doc (2 ^ 1074)); [intros C0; vm_compute in C0; discriminate C0|vm_compute; reflexivity].
  - apply increasing_acyclic; [vm_compute; reflexivity|apply reachable_wf, R].
  - vm_compute. discriminate.
  - intros x Hx. destruct (P x Hx) as (w & E & Hw). exists w. split; [exact E|apply Hw]. Qed.
Definition doc_total (r : res (spec_float * dict nat (gtask spec_float))) : option (spec_float * spec_float) :=
  match r with Ok (c, d) => Some (c, gtotal_slack fsub naive_sum d) | _ => None end.
Definition doc_answer : option (option Z * option (spec_float * spec_float)) :=
  match gminimize_for_slack f64 fsub naive_sum 1 (fun l => l) (fun _ l => l) 50 g_doc with
  | Ok ng => Some (edge ng 8%nat 6%nat, doc_total (gcritical_path_of f64 fsub IsGraph (fun l => l) 50 ng))
  | _ => None end.
(** the total slack falls from 50 to 0 *)
Example ex_doc_run : edge g_doc 8%nat 6%nat = None /\ doc_total (gcritical_path_of f64 fsub IsGraph (fun l => l) 50 g_doc) = Some (fz 65, fz 50) /\
  doc_answer = Some (Some 1, Some (fz 65, fz 0)).
Proof. splits; vm_compute; reflexivity. Qed.
Lemma doc_short : match critical_path_of IsGraph (fun l => l) 50 (exact_plan g_doc) with Ok (C, _) => (Z.of_nat (length (nodes g_doc)) + 1) * C <? 2 ^ (53 + 1074) | _ => false end = true.
Proof. vm_compute. reflexivity. Qed.
(** so all hypotheses of C101_grid_slack hold for it *)
Example ex_doc_grid : exists C D r, returns (fun n => critical_path_of IsGraph (fun l => l) n (exact_plan g_doc)) (Ok (C, D)) /\
  (Z.of_nat (length (nodes g_doc)) + 1) * C < 2 ^ (53 + 1074) /\
  returns (fun n => gminimize_for_slack f64 fsub naive_sum 1 (fun l => l) (fun _ l => l) n g_doc) r /\
  (r = Err AttributeError \/ exists ng D', r = Ok ng /\ returns (fun n => critical_path_of IsGraph (fun l => l) n (exact_plan ng)) (Ok (C, D')) /\ total_slack D' <= total_slack D).
Proof. destruct doc_ok as (R & G & Hac & Hne & _). destruct (C98_naive_sum 1074 ltac:(lia)) as [S1 S2]. pose proof doc_short as Sh.
  destruct (C101_grid_slack naive_sum 1 1074 ltac:(lia) S1 S2 g_doc (fun l => l) (fun _ l => l) R (fun l => Permutation_refl l) (fun _ l => Permutation_refl l) G Hac Hne) as (C & D & r & H1 & H2 & H3); [vm_compute; discriminate|].
  revert H1 H2 H3 Sh. clear R G Hac Hne S1 S2. generalize g_doc. intros g H1 H2 H3 Sh. destruct (critical_path_of IsGraph (fun l => l) 50 (exact_plan g)) as [[C1 D1]|e|] eqn:E; try discriminate Sh.
  assert (Ok (C1, D1) = Ok (C, D)) as EC by (rewrite <- E; apply (returns_of _ _ 50%nat H1); rewrite E; discriminate). inversion EC; subst C1 D1. apply Z.ltb_lt in Sh.
  exists C, D, r. split; [exact H1|]. split; [exact Sh|]. split; [exact H2|]. destruct (H3 Sh) as [K|(ng & D' & K1 & _ & K2 & K3 & _)]; [left; exact K|right; exists ng, D'; auto]. Qed.
