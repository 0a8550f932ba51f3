(** maximum_flow on floats: the operations on amounts, 1 / c and the path search. *)
From Coq Require Import ZArith SpecFloat.
From Verif Require Import Prelude PreludeFacts Base BaseFacts BaseFacts2 BaseFacts3 Spec SpecFacts Loop SearchFacts BaseAlgFacts FlowSpec MaxFlowFacts
  GSp GSpec GSpFacts Float64 FloatExact FloatSigned FloatStep GCpmSpec CpmFloat PropsFloat PropsFlowFloat GFlow GFlowSpec.
Local Open Scope Z_scope.
Notation rnd64 := (rnd 53).
Notation fadd := (SFadd 53 1024).
Notation BIG := (2 ^ (1024 - SpecFloat.emin 53 1024)).

Lemma good_of w z : f64_good w -> ival 53 1024 w = Fin z -> finite_amount w /\ units w = z.
Proof. intros G E. destruct w as [s|s| |s m k]; cbn [ival] in E; try discriminate.
  - inv E. split; [split; [exact G|exists 0; reflexivity]|reflexivity].
  - pose proof (proj2 G) as Gs. cbn in Gs. subst s. assert (sval 53 1024 (S754_finite false m k) = Some (Zpos m * 2 ^ (k - SpecFloat.emin 53 1024))) as Es by reflexivity.
    assert (forall a b : Z, Fin a = Fin b -> a = b) as FI by congruence. apply FI in E.
    split; [split; [exact G|eexists; exact Es]|]. unfold units. rewrite Es. exact E. Qed.
Lemma fa_facts w : finite_amount w -> f64_good w /\ ival 53 1024 w = Fin (units w) /\ 0 <= units w /\ rnd64 (units w) = units w /\ units w < BIG /\ xv 53 1024 w = units w.
Proof. intros H. destruct (fd_units w H) as (V & E & P & X). destruct H as [G _]. splits; auto.
  - destruct w as [s|s| |s m k]; cbn [sval ival] in *; try discriminate; apply some_inj in E; rewrite <- E; [reflexivity|]. pose proof (proj2 G) as Gs. cbn in Gs. subst s. reflexivity.
  - pose proof (srnd_xv 53 1024 ltac:(lia) ltac:(lia) w _ V E) as R. unfold srnd in R. set (u := units w) in *. clearbody u. destruct (Z.ltb_spec u 0); [lia|exact R].
  - pose proof (sval_lt 53 1024 ltac:(lia) ltac:(lia) w _ V E) as R. set (u := units w) in *. set (B := BIG) in *. clearbody u B. clear - P R. lia. Qed.
Lemma add_fa v p : finite_amount v -> finite_amount p -> rnd64 (units v + units p) < BIG -> finite_amount (fadd v p) /\ units (fadd v p) = rnd64 (units v + units p).
Proof. intros Hv Hp H. destruct (fa_facts v Hv) as (G1 & I1 & _). destruct (fa_facts p Hp) as (G2 & I2 & _). destruct (add_spec 53 1024 ltac:(lia) ltac:(lia) v p G1 G2) as [G E].
  rewrite I1, I2 in E. cbn [iadd] in E. unfold ovf in E. destruct (Z.ltb_spec (rnd64 (units v + units p)) BIG) as [_|C]; [|exfalso; revert C H; set (B := BIG); clearbody B; clear; lia]. apply good_of; assumption. Qed.
Lemma num_good x : num x -> 0 <= xv 53 1024 x -> f64_good x.
Proof. intros [V N] H. split; [exact V|]. destruct x as [s|s| |s m k]; auto; cbn [xv] in H.
  - destruct s; [exfalso|reflexivity]. cbn [cond_Zopp] in H. pose proof (BIG_pos 53 1024 ltac:(lia) ltac:(lia)) as P. set (B := BIG) in *. clearbody B. lia.
  - destruct s; [exfalso|reflexivity]. cbn [cond_Zopp] in H. destruct (fin_bound 53 1024 ltac:(lia) ltac:(lia) m k V) as [[P _] _]. set (B := Zpos m * _) in *. clearbody B. lia. Qed.
Lemma sub_val c v : finite_amount c -> finite_amount v -> num (fsub c v) /\ xv 53 1024 (fsub c v) = srnd 53 (units c - units v).
Proof. intros Hc Hv. destruct (fa_facts c Hc) as (G1 & I1 & P1 & R1 & B1 & X1). destruct (fa_facts v Hv) as (G2 & I2 & P2 & R2 & B2 & X2). destruct (fd_units v Hv) as (V2 & S2 & _). destruct (fd_units c Hc) as (V1 & S1 & _).
  destruct (sub_spec 53 1024 ltac:(lia) ltac:(lia) c v _ (good_num c G1) V2 S2) as [N E]. rewrite S1 in E. split; [exact N|]. rewrite E. apply clamp_id.
  pose proof (srnd_mono 53 ltac:(lia) (units c - units v) (units c) ltac:(lia)) as M1. pose proof (srnd_mono 53 ltac:(lia) (- units v) (units c - units v) ltac:(lia)) as M2.
  assert (srnd 53 (units c) = units c) as K1 by (apply (srnd_xv 53 1024 ltac:(lia) ltac:(lia) c); assumption).
  assert (srnd 53 (- units v) = - units v) as K2. { unfold srnd. destruct (Z.ltb_spec (- units v) 0); [rewrite Z.opp_involutive, R2; reflexivity|]. assert (units v = 0) as -> by lia. apply rnd_0. lia. }
  rewrite K1 in M1. rewrite K2 in M2. set (B := BIG) in *. set (x := srnd 53 (units c - units v)) in *. clearbody B x. clear - M1 M2 B1 B2 P1 P2. lia. Qed.
Lemma sub_fa c v : finite_amount c -> finite_amount v -> units v <= units c -> finite_amount (fsub c v) /\ units (fsub c v) = rnd64 (units c - units v).
Proof. intros Hc Hv H. destruct (sub_val c v Hc Hv) as [N E]. pose proof (rnd_nn 53 ltac:(lia) (units c - units v) ltac:(lia)) as P. unfold srnd in E. destruct (Z.ltb_spec (units c - units v) 0); [lia|].
  assert (f64_good (fsub c v)) as G by (apply num_good; [exact N|rewrite E; exact P]).
  destruct (fa_facts c Hc) as (_ & _ & P1 & R1 & B1 & _). destruct (fa_facts v Hv) as (_ & _ & P2 & _).
  assert (rnd64 (units c - units v) <= units c) as L by (rewrite <- R1; apply (rnd_mono 53 ltac:(lia)); lia).
  assert (sval 53 1024 (fsub c v) = Some (rnd64 (units c - units v))) as Es. { rewrite <- E. apply sval_num; [exact N|]. rewrite E. set (B := BIG) in *. set (x := rnd64 (units c - units v)) in *. clearbody B x. clear - L P B1. lia. }
  split; [split; [exact G|eexists; exact Es]|]. unfold units at 1. rewrite Es. reflexivity. Qed.
Lemma lt_fa v w : finite_amount v -> finite_amount w -> SFltb v w = (units v <? units w).
Proof. intros Hv Hw. destruct (fa_facts v Hv) as (G1 & _ & _ & _ & _ & X1). destruct (fa_facts w Hw) as (G2 & _ & _ & _ & _ & X2). rewrite lt_val by (apply good_num; assumption). rewrite X1, X2. reflexivity. Qed.
Lemma lt_inf v : finite_amount v -> SFltb (S754_infinity false) v = false.
Proof. intros [[V G] (z & E)]. destruct v; try discriminate; reflexivity. Qed.
Lemma sub_sign c v : finite_amount c -> finite_amount v -> SFltb f0 (fsub c v) = (units v <? units c).
Proof. intros Hc Hv. destruct (sub_val c v Hc Hv) as [N E]. rewrite lt_val by (try exact N; exact num_zero). rewrite E. change (xv 53 1024 f0) with 0.
  pose proof (srnd_error 53 ltac:(lia) (units c - units v)) as B. set (n := units c - units v) in *. assert (units c = units v + n) as -> by (unfold n; lia). clearbody n. destruct (Z.ltb_spec (units v) (units v + n)); [apply Z.ltb_lt|apply Z.ltb_ge].
  - unfold srnd. destruct (Z.ltb_spec n 0); [lia|]. apply rnd_pos; lia.
  - unfold srnd. destruct (Z.ltb_spec n 0); [pose proof (rnd_nn 53 ltac:(lia) (- n) ltac:(lia)); lia|]. assert (n = 0) as -> by lia. rewrite rnd_0; lia. Qed.
Lemma zero_fa : finite_amount f0 /\ units f0 = 0.
Proof. split; [exact fd_zero|reflexivity]. Qed.
Lemma eq_zero w : f64_good w -> SFeqb w f0 = true <-> finite_amount w /\ units w = 0.
Proof. intros G. destruct w as [s|s| |s m k]; cbn [SFeqb SFcompare].
  - split; [intros _; split; [split; [exact G|exists 0; reflexivity]|reflexivity]|reflexivity].
  - pose proof (proj2 G) as Gs. cbn in Gs. subst s. split; [discriminate|]. intros [[_ (z & C)] _]. discriminate.
  - destruct (proj2 G).
  - pose proof (proj2 G) as Gs. cbn in Gs. subst s. split; [discriminate|]. intros [H E]. exfalso. destruct (fin_bound 53 1024 ltac:(lia) ltac:(lia) m k (proj1 G)) as [[P _] _]. destruct (fa_facts _ H) as (_ & I & _). cbn [ival] in I.
    assert (forall a b : Z, Fin a = Fin b -> a = b) as FI by congruence. apply FI in I. rewrite I, E in P. revert P. clear. lia. Qed.

(** ** 1 / c *)
Definition finv (c : spec_float) : spec_float := SFdiv 53 1024 f1 c.
(** at most 2^952 *)
Definition weight (w : spec_float) : Prop := f64_good w /\ exists z, ival 53 1024 w = Fin z /\ 0 <= z <= 2 ^ 2026.
Lemma inv_weight c : finite_amount c -> 2 ^ 122 <= units c <= 2 ^ 1975 -> weight (finv c).
Proof. intros Hc Hu. destruct (fa_facts c Hc) as (G & I & _). destruct c as [s|s| |s m e]; cbn [ival] in I; try discriminate.
  { exfalso. assert (forall a b : Z, Fin a = Fin b -> a = b) as FI by congruence. apply FI in I. rewrite <- I in Hu. destruct Hu as [Hu _]. revert Hu. vm_compute. intros C. apply C. reflexivity. }
  assert (forall a b : Z, Fin a = Fin b -> a = b) as FI by congruence. apply FI in I. rewrite <- I in Hu. clear I FI.
  destruct (good_finite 53 1024 s m e G) as (-> & Hf & He1 & He2 & Hd). change (SpecFloat.emin 53 1024) with (-1074) in *. replace (e - -1074) with (e + 1074) in Hu by lia.
  change (SpecFloat.fexp 53 1024 (Zpos (digits2_pos m) + e)) with (Z.max (Zpos (digits2_pos m) + e - 53) (-1074)) in Hf.
  pose proof (digits_bounds m) as [B1 B2]. set (d := Zpos (digits2_pos m)) in *.
  assert (0 < 2 ^ (e + 1074)) as Pe by (apply Z.pow_pos_nonneg; lia).
  assert (122 < d + (e + 1074)) as Hlo. { apply (Z.pow_lt_mono_r_iff 2); [lia|unfold d; lia|]. apply Z.le_lt_trans with (Zpos m * 2 ^ (e + 1074)); [apply Hu|]. rewrite (Z.pow_add_r 2 d (e + 1074)) by (unfold d; lia). apply Z.mul_lt_mono_pos_r; [exact Pe|exact B2]. }
  assert (d = 53) as D53 by lia. rewrite D53 in *. clear Hf Hd.
  assert (52 + (e + 1074) <= 1975) as Hhi. { apply (Z.pow_le_mono_r_iff 2); [lia|lia|]. apply Z.le_trans with (Zpos m * 2 ^ (e + 1074)); [|apply Hu]. rewrite (Z.pow_add_r 2 52 (e + 1074)) by lia. apply Z.mul_le_mono_nonneg_r; [lia|exact B1]. }
  clear Hu. unfold finv, SFdiv, f1. unfold SFdiv_core_binary. change (Zdigits2 4503599627370496) with 53. change (Zdigits2 (Zpos m)) with (Zpos (digits2_pos m)). fold d. rewrite D53.
  replace (53 + -52 - (53 + e)) with (-52 - e) by lia. assert (Z.min (SpecFloat.fexp 53 1024 (-52 - e)) (-52 - e) = -105 - e) as -> by (unfold SpecFloat.fexp, SpecFloat.emin; lia).
  replace (-52 - e - (-105 - e)) with 53 by lia. cbn [xorb].
  assert (Z.shiftl 4503599627370496 53 = 2 ^ 105) as -> by reflexivity.
  destruct (Z.div_eucl (2 ^ 105) (Zpos m)) as [q r] eqn:Eq.
  assert (q = 2 ^ 105 / Zpos m) as Hq by (unfold Z.div; rewrite Eq; reflexivity). assert (r = 2 ^ 105 mod Zpos m) as Hr by (unfold Z.modulo; rewrite Eq; reflexivity).
  pose proof (Z.div_mod (2 ^ 105) (Zpos m) ltac:(lia)) as Hdm. pose proof (Z.mod_pos_bound (2 ^ 105) (Zpos m) ltac:(lia)) as Hb. rewrite <- Hq, <- Hr in Hdm. rewrite <- Hr in Hb. clear Eq.
  change (53 - 1) with 52 in B1.
  assert (2 ^ 52 <= q) as Q1. { rewrite Hq. apply Z.div_le_lower_bound; [lia|]. apply Z.le_trans with (2 ^ 53 * 2 ^ 52); [apply Z.mul_le_mono_nonneg_r; lia|lia]. }
  assert (q <= 2 ^ 53) as Q2. { rewrite Hq. apply Z.div_le_upper_bound; [lia|]. apply Z.le_trans with (2 ^ 52 * 2 ^ 53); [lia|apply Z.mul_le_mono_nonneg_r; lia]. }
  assert (r <> 0 -> q < 2 ^ 53) as Q3. { intros Hr0. destruct (Z.eq_dec q (2 ^ 53)) as [E|]; [exfalso|lia]. rewrite E in Hdm. nia. }
  set (k := -105 - e) in *. assert (-1074 <= k) as Hk by lia. assert (k + 1074 <= 1973) as Hk2 by lia.
  assert (forall x, 0 < x -> 2 ^ 52 <= x <= 2 ^ 53 -> k <= SpecFloat.fexp 53 1024 (Zdigits2 x + k)) as Hfe.
  { intros x Hx0 [Hx _]. pose proof (Zdigits_mono (2 ^ 52) x ltac:(lia) ltac:(lia)) as Hm'. change (Zdigits2 (2 ^ 52)) with 53 in Hm'. unfold SpecFloat.fexp, SpecFloat.emin. lia. }
  assert (forall x, 2 ^ 52 <= x <= 2 ^ 53 -> weight (binary_round_aux 53 1024 false x k loc_Exact)) as Hround.
  { intros x Hx. destruct (round_aux_spec 53 1024 ltac:(lia) ltac:(lia) x k) as [G' E']; [lia|exact Hk|apply Hfe; lia|]. split; [exact G'|]. change (SpecFloat.emin 53 1024) with (-1074) in E'. replace (k - -1074) with (k + 1074) in E' by lia.
    assert (0 <= x * 2 ^ (k + 1074) <= 2 ^ 2026) as Hn. { split; [apply Z.mul_nonneg_nonneg; [lia|apply Z.pow_nonneg; lia]|]. apply Z.le_trans with (2 ^ 53 * 2 ^ 1973); [|rewrite <- Z.pow_add_r by lia; apply Z.le_refl]. apply Z.mul_le_mono_nonneg; [lia|lia|apply Z.pow_nonneg; lia|apply Z.pow_le_mono_r; lia]. }
    set (n := x * 2 ^ (k + 1074)) in *. clearbody n. pose proof (rnd_mono 53 ltac:(lia) n _ (proj1 Hn) (proj2 Hn)) as M. assert (rnd64 (2 ^ 2026) = 2 ^ 2026) as E2 by (vm_compute; reflexivity). rewrite E2 in M. pose proof (rnd_nn 53 ltac:(lia) n (proj1 Hn)) as M0.
    exists (rnd64 n). split; [|split; assumption]. rewrite E'. unfold ovf. destruct (Z.ltb_spec (rnd64 n) (2 ^ (1024 - SpecFloat.emin 53 1024))) as [|C]; [reflexivity|exfalso].
    assert (2 ^ (1024 - SpecFloat.emin 53 1024) <= 2 ^ 2026) as C' by (eapply Z.le_trans; eauto). revert C'. vm_compute. intros C'. apply C'. reflexivity. }
  destruct (Z.eq_dec r 0) as [Hr0|Hr0].
  - assert (new_location (Zpos m) r = loc_Exact) as ->. { rewrite Hr0. unfold new_location, new_location_even, new_location_odd. destruct (Z.even (Zpos m)); reflexivity. }
    apply Hround; lia.
  - specialize (Q3 Hr0). set (l := new_location (Zpos m) r).
    assert (exists m1, round_nearest_even (shr_m (shr_record_of_loc q l)) (loc_of_shr_record (shr_record_of_loc q l)) = m1 /\ (m1 = q \/ m1 = q + 1)) as (m1 & Em1 & Hm1).
    { eexists. split; [reflexivity|]. destruct l as [|[]]; cbn; auto. destruct (Z.even q); auto. }
    assert (Zdigits2 q = 53) as Dq by (apply digits_unique; lia).
    assert (binary_round_aux 53 1024 false q k l =
      let '(mrs, e') := shr_fexp 53 1024 m1 k loc_Exact in
      match shr_m mrs with Z0 => S754_zero false | Zpos m => if Zle_bool e' (1024 - 53) then S754_finite false m e' else S754_infinity false | _ => S754_nan end) as ->.
    { unfold binary_round_aux, shr_fexp at 1. rewrite Dq.
      assert (SpecFloat.fexp 53 1024 (53 + k) - k = 0) as -> by (unfold SpecFloat.fexp, SpecFloat.emin; lia).
      cbn [shr]. rewrite Em1. reflexivity. }
    rewrite aux_exact.
    + apply Hround; lia.
    + lia.
    + lia.
    + apply Hfe; lia.
    + pose proof (Zdigits_mono m1 (2 ^ 53) ltac:(lia) ltac:(lia)) as Hm'. change (Zdigits2 (2 ^ 53)) with 54 in Hm'. exact Hm'.
    + intros D. destruct (Zdigits_bounds m1 ltac:(lia)) as [[D1 _] _]. rewrite D in D1. change (54 - 1) with 53 in D1. lia. Qed.

(** ** the path search on such weights never mistakes a path for no path *)
Lemma weight_sum {A O} {EA : EqDec A} (h : graph A O spec_float) a p b d : (forall x y w, edge h x y = Some w -> weight w) -> lpath f64 (edge h) a p b d ->
  exists z, ival 53 1024 d = Fin z /\ 0 <= z <= 2 ^ 2079.
Proof. intros U H. assert (good_edges f64_good h) as G by (intros x y w E; apply (U x y w E)).
  induction H as [|p b c w d H IH Hw]; [exists 0; split; [reflexivity|split; [lia|apply Z.pow_nonneg; lia]]|].
  destruct IH as (z & Ez & Hz). destruct (U _ _ _ Hw) as (_ & y & Ey & Hy).
  destruct (add_spec 53 1024 ltac:(lia) ltac:(lia) d w) as [_ Ea]; [eapply (lpath_good f64 f64_good f64_lawful); eauto|eapply G; eauto|].
  change (a_add f64 d w) with (SFadd 53 1024 d w). rewrite Ea, Ez, Ey. cbn [iadd].
  assert (0 <= z + y <= 2 ^ 2079 + 2 ^ 2026) as Hle by (split; [apply Z.add_nonneg_nonneg; [apply Hz|apply Hy]|apply Z.add_le_mono; [apply Hz|apply Hy]]).
  pose proof (rnd_nn 53 ltac:(lia) (z + y) (proj1 Hle)) as M0.
  pose proof (rnd_mono 53 ltac:(lia) (z + y) _ (proj1 Hle) (proj2 Hle)) as M.
  assert (rnd 53 (2 ^ 2079 + 2 ^ 2026) = 2 ^ 2079) as Er by (vm_compute; reflexivity). rewrite Er in M.
  exists (rnd 53 (z + y)). split; [|split; assumption]. unfold ovf.
  destruct (Z.ltb_spec (rnd 53 (z + y)) (2 ^ (1024 - SpecFloat.emin 53 1024))) as [|C]; [reflexivity|exfalso].
  assert (2 ^ (1024 - SpecFloat.emin 53 1024) <= 2 ^ 2079) as C' by (eapply Z.le_trans; eauto). revert C'. vm_compute. intros C'. apply C'. reflexivity. Qed.
Theorem search_finds_paths {A O} {EA : EqDec A} : finds_paths weight (@gmf_search A O spec_float EA f64).
Proof. intros h s e R U Hs He. assert (good_edges f64_good h) as G by (intros x y w E; apply (U x y w E)).
  destruct (C86_shortest_path_floats h s e [] R G Hs He) as (d & p & Hr & Hp).
  exists (if SFeqb d (S754_infinity false) then None else Some p). split.
  { apply (returns_bind_ok _ (fun r => if SFeqb (fst r) (S754_infinity false) then None else Some (snd r)) (d, p) Hr). }
  destruct Hp as [(Hp & _ & Hn & _)|(-> & _ & Hno)].
  - destruct (weight_sum h s p e d U Hp) as (z & Ez & _). destruct d as [sg|sg| |sg m k]; try discriminate; cbn [SFeqb SFcompare].
    + split; [eapply lpath_has; eauto|exact Hn].
    + destruct sg; (split; [eapply lpath_has; eauto|exact Hn]).
  - intros [p' Hp']. destruct (path_lpath h s p' e Hp') as [d' Hd']. apply (Hno p' d' Hd'). intros ? _ []. Qed.
