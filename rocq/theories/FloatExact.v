(** Signed floats whose sums are exact: the multiples of one power of two that are not too large. *)
From Coq Require Import ZArith SpecFloat.
From Verif Require Import Prelude PreludeFacts GSp GSpec Float64.
Local Open Scope Z_scope.

Lemma some_inj {T} (a b : T) : Some a = Some b -> a = b.
Proof. congruence. Qed.
Section Ex.
Context (prec emax : Z) (Hprec : 1 < prec) (Hemax : prec < emax).
Notation emin := (emin prec emax).
Notation fgood := (fgood prec emax).
Notation ival := (ival prec emax).
Notation valid := (valid_binary prec emax).
(** the value of a float in units of the smallest positive float; None for infinities and NaN *)
Definition sval (x : spec_float) : option Z :=
  match x with
  | S754_zero _ => Some 0
  | S754_finite s m e => Some (cond_Zopp s (Zpos m * 2 ^ (e - emin)))
  | _ => None
  end.
Lemma sval_opp x : sval (SFopp x) = option_map Z.opp (sval x).
Proof. destruct x as [s|s| |s m e]; cbn [SFopp sval option_map]; try reflexivity. destruct s; cbn [negb cond_Zopp]; f_equal; lia. Qed.
Lemma valid_opp x : valid (SFopp x) = valid x.
Proof. destruct x; reflexivity. Qed.
Lemma sub_opp x y : SFsub prec emax x y = SFadd prec emax x (SFopp y).
Proof. destruct x as [sx|sx| |sx mx ex], y as [sy|sy| |sy my ey]; cbn [SFsub SFadd SFopp]; try reflexivity. cbv zeta. f_equal. destruct sy; cbn [negb cond_Zopp]; lia. Qed.
Lemma round_neg m e : binary_round prec emax true m e = SFopp (binary_round prec emax false m e).
Proof. unfold binary_round. destruct (shl_align _ _ _) as [mz ez]. unfold binary_round_aux. destruct (shr_fexp _ _ _ _ _) as [r e1]. destruct (shr_fexp _ _ _ _ _) as [r2 e2]. destruct (shr_m r2); try reflexivity. destruct (Z.leb _ _); reflexivity. Qed.
(** the numbers that floats can hold *)
Definition fits (n : Z) : Prop := rnd prec (Z.abs n) = Z.abs n /\ Z.abs n < 2 ^ (emax - emin).
Lemma round_fits p e : emin <= e -> fits (Zpos p * 2 ^ (e - emin)) -> valid (binary_round prec emax false p e) = true /\ sval (binary_round prec emax false p e) = Some (Zpos p * 2 ^ (e - emin)).
Proof. intros He [F1 F2]. assert (0 < 2 ^ (e - emin)) as Hp by (apply Z.pow_pos_nonneg; lia). rewrite Z.abs_eq in F1, F2 by nia. destruct (binary_round_spec prec emax Hprec Hemax p e He) as [G E]. rewrite F1 in E. unfold ovf in E. apply Z.ltb_lt in F2. rewrite F2 in E.
  split; [exact (proj1 G)|]. destruct (binary_round prec emax false p e) as [s|s| |s m f]; cbn in E |- *; try discriminate; [injection E as <-; reflexivity|]. destruct G as [_ ->]. cbn [cond_Zopp]. injection E as <-. reflexivity. Qed.
Lemma emin_le m e : bounded prec emax m e = true -> emin <= e.
Proof. intros H. apply (bounded_spec prec emax) in H. destruct H as [<- _]. apply fexp_emin. Qed.
Lemma sadd_spec x y a b : valid x = true -> valid y = true -> sval x = Some a -> sval y = Some b -> fits (a + b) ->
  valid (SFadd prec emax x y) = true /\ sval (SFadd prec emax x y) = Some (a + b).
Proof. intros Vx Vy Sx Sy F. destruct x as [sx|sx| |sx mx ex], y as [sy|sy| |sy my ey]; cbn [sval] in Sx, Sy; try discriminate; apply some_inj in Sx; apply some_inj in Sy; subst a b; cbn [SFadd].
  - destruct (Bool.eqb sx sy); split; reflexivity.
  - split; [exact Vy|reflexivity].
  - split; [exact Vx|]. rewrite Z.add_0_r. reflexivity.
  - cbn [valid_binary] in Vx, Vy. apply emin_le in Vx, Vy. set (ez := Z.min ex ey). pose proof (shl_align_fst mx ex ez ltac:(lia)) as Ex. pose proof (shl_align_fst my ey ez ltac:(lia)) as Ey.
    destruct (shl_align mx ex ez) as [mx' ?], (shl_align my ey ez) as [my' ?]. cbn [fst] in *.
    assert (cond_Zopp sx (Zpos mx * 2 ^ (ex - emin)) + cond_Zopp sy (Zpos my * 2 ^ (ey - emin)) = (cond_Zopp sx (Zpos mx') + cond_Zopp sy (Zpos my')) * 2 ^ (ez - emin)) as E.
    { assert (Zpos mx' * 2 ^ (ez - emin) = Zpos mx * 2 ^ (ex - emin)) as E1 by (rewrite Ex, <- Z.mul_assoc, <- Z.pow_add_r by lia; do 2 f_equal; lia). assert (Zpos my' * 2 ^ (ez - emin) = Zpos my * 2 ^ (ey - emin)) as E2 by (rewrite Ey, <- Z.mul_assoc, <- Z.pow_add_r by lia; do 2 f_equal; lia).
      rewrite <- E1, <- E2. destruct sx, sy; cbn [cond_Zopp]; ring. }
    rewrite E in F. rewrite E. clear E. set (s := cond_Zopp sx (Zpos mx') + cond_Zopp sy (Zpos my')) in *. clearbody s. unfold binary_normalize. destruct s as [|p|p].
    + split; reflexivity.
    + apply round_fits; [lia|exact F].
    + rewrite round_neg, valid_opp, sval_opp. replace (Zneg p * 2 ^ (ez - emin)) with (- (Zpos p * 2 ^ (ez - emin))) in * by lia. unfold fits in F. rewrite Z.abs_opp in F. destruct (round_fits p ez ltac:(lia) F) as [H1 H2]. rewrite H2. split; [exact H1|reflexivity]. Qed.

(** comparison *)
Lemma cmp_pos m1 e1 m2 e2 : bounded prec emax m1 e1 = true -> bounded prec emax m2 e2 = true ->
  match Z.compare e1 e2 with Lt => Lt | Gt => Gt | Eq => Pos.compare m1 m2 end = Z.compare (Zpos m1 * 2 ^ (e1 - emin)) (Zpos m2 * 2 ^ (e2 - emin)).
Proof. intros B1 B2. destruct (Z.compare_spec e1 e2) as [->|H|H].
  - assert (0 < 2 ^ (e2 - emin)) as Hp by (apply Z.pow_pos_nonneg; [lia|]; apply emin_le in B2; lia). rewrite <- Zmult_compare_compat_r by lia. reflexivity.
  - symmetry. apply Z.compare_lt_iff. apply (canon_lt prec emax Hprec); [split; [exact B1|reflexivity]|split; [exact B2|reflexivity]|exact H].
  - symmetry. apply Z.compare_gt_iff. apply (canon_lt prec emax Hprec); [split; [exact B2|reflexivity]|split; [exact B1|reflexivity]|exact H]. Qed.
Lemma cmp_spec x y a b : valid x = true -> valid y = true -> sval x = Some a -> sval y = Some b -> SFcompare x y = Some (Z.compare a b).
Proof. intros Vx Vy Sx Sy. assert (forall s m e, valid (S754_finite s m e) = true -> 0 < Zpos m * 2 ^ (e - emin)) as Pos. { intros s m e V. cbn [valid_binary] in V. apply emin_le in V. assert (0 < 2 ^ (e - emin)) by (apply Z.pow_pos_nonneg; lia). nia. }
  destruct x as [sx|sx| |sx mx ex], y as [sy|sy| |sy my ey]; cbn [sval] in Sx, Sy; try discriminate; apply some_inj in Sx; apply some_inj in Sy; subst a b; cbn [SFcompare]; try reflexivity; f_equal.
  - specialize (Pos _ _ _ Vy). destruct sy; cbn [cond_Zopp]; symmetry; [apply Z.compare_gt_iff|apply Z.compare_lt_iff]; lia.
  - specialize (Pos _ _ _ Vx). destruct sx; cbn [cond_Zopp]; symmetry; [apply Z.compare_lt_iff|apply Z.compare_gt_iff]; lia.
  - pose proof (Pos _ _ _ Vx) as P1. pose proof (Pos _ _ _ Vy) as P2. pose proof (cmp_pos mx ex my ey Vx Vy) as C. destruct sx, sy; cbn [cond_Zopp].
    + rewrite Z.compare_opp, (Z.compare_antisym (Zpos mx * 2 ^ (ex - emin)) (Zpos my * 2 ^ (ey - emin))), <- C. destruct (Z.compare ex ey); reflexivity.
    + symmetry. apply Z.compare_lt_iff. lia.
    + symmetry. apply Z.compare_gt_iff. lia.
    + rewrite <- C. destruct (Z.compare ex ey); reflexivity. Qed.

(** multiples z of 2^j with |z| < 2^prec fit *)
Lemma multiple_fits j z : 0 <= j -> j + prec <= emax - emin -> Z.abs z < 2 ^ prec -> fits (z * 2 ^ j).
Proof. intros Hj Hje Hz. assert (0 < 2 ^ j) as Hp by (apply Z.pow_pos_nonneg; lia). unfold fits. rewrite Z.abs_mul, (Z.abs_eq (2 ^ j)) by lia. split.
  - destruct (Z.eq_dec z 0) as [->|Hz0]; [cbn; apply rnd_0; lia|]. apply (rnd_exact prec); [lia|exact Hj|]. destruct (Zdigits_bounds (Z.abs z) ltac:(lia)) as [[D1 _] D2].
    destruct (Z.le_gt_cases (Zdigits2 (Z.abs z)) prec) as [|C]; [assumption|exfalso]. assert (2 ^ prec <= 2 ^ (Zdigits2 (Z.abs z) - 1)) by (apply Z.pow_le_mono_r; lia). lia.
  - apply Z.lt_le_trans with (2 ^ prec * 2 ^ j); [nia|]. rewrite <- Z.pow_add_r by lia. apply Z.pow_le_mono_r; lia. Qed.
End Ex.
