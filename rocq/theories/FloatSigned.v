(** Addition and subtraction of signed floats: the exact result, rounded; both keep the order. *)
From Coq Require Import ZArith SpecFloat.
From Verif Require Import Prelude PreludeFacts GSp GSpec Float64 FloatExact.
Local Open Scope Z_scope.

Section Sg.
Context (prec emax : Z) (Hprec : 1 < prec) (Hemax : prec < emax).
Notation emin := (emin prec emax).
Notation valid := (valid_binary prec emax).
Notation sval := (sval prec emax).
Notation BIG := (2 ^ (emax - emin)).
(** the value of a float that is not NaN, in units of the smallest positive float; infinities count as +-2^emax *)
Definition xv (x : spec_float) : Z :=
  match x with
  | S754_zero _ => 0
  | S754_finite s m e => cond_Zopp s (Zpos m * 2 ^ (e - emin))
  | S754_infinity s => cond_Zopp s BIG
  | S754_nan => 0
  end.
Definition number (x : spec_float) : Prop := valid x = true /\ x <> S754_nan.
Definition srnd (n : Z) : Z := if n <? 0 then - rnd prec (- n) else rnd prec n.
Definition clamp (n : Z) : Z := if n <? - BIG then - BIG else if BIG <? n then BIG else n.

Lemma BIG_pos : 0 < BIG. Proof. apply Z.pow_pos_nonneg; unfold SpecFloat.emin; lia. Qed.
Lemma fin_bound m e : bounded prec emax m e = true -> 0 < Zpos m * 2 ^ (e - emin) < BIG /\ rnd prec (Zpos m * 2 ^ (e - emin)) = Zpos m * 2 ^ (e - emin).
Proof. intros B. assert (fgood prec emax (S754_finite false m e)) as G by (split; [exact B|reflexivity]). pose proof (ival_rep prec emax Hprec Hemax _ G) as H. cbn [ival] in H. destruct H as (H1 & H2 & H3). unfold ovf in H3.
  destruct (Z.ltb_spec (Zpos m * 2 ^ (e - emin)) BIG); [|discriminate]. splits; auto. assert (0 < 2 ^ (e - emin)) by (apply Z.pow_pos_nonneg; [lia|]; apply (emin_le prec emax) in B; lia). nia. Qed.
Lemma xv_bound x : valid x = true -> Z.abs (xv x) <= BIG.
Proof. pose proof BIG_pos. destruct x as [s|s| |s m e]; cbn [xv valid_binary]; intros V; try (rewrite Z.abs_0; lia); [destruct s; cbn [cond_Zopp]; lia|]. pose proof (fin_bound m e V). destruct s; cbn [cond_Zopp]; lia. Qed.
Lemma sval_xv x a : sval x = Some a -> xv x = a.
Proof. destruct x; cbn [FloatExact.sval xv]; try discriminate; intros H; apply some_inj in H; exact H. Qed.
Lemma sval_lt x a : valid x = true -> sval x = Some a -> Z.abs a < BIG.
Proof. pose proof BIG_pos. destruct x as [s|s| |s m e]; cbn [FloatExact.sval valid_binary]; try discriminate; intros V H0; apply some_inj in H0; subst a; [rewrite Z.abs_0; lia|]. pose proof (fin_bound m e V). destruct s; cbn [cond_Zopp]; lia. Qed.
Lemma srnd_xv x a : valid x = true -> sval x = Some a -> srnd a = a.
Proof. destruct x as [s|s| |s m e]; cbn [FloatExact.sval valid_binary]; try discriminate; intros V H0; apply some_inj in H0; subst a; [unfold srnd; cbn; apply rnd_0; lia|]. destruct (fin_bound m e V) as [B E]. unfold srnd. destruct s; cbn [cond_Zopp].
  - destruct (Z.ltb_spec (- (Zpos m * 2 ^ (e - emin))) 0); [|lia]. rewrite Z.opp_involutive, E. reflexivity.
  - destruct (Z.ltb_spec (Zpos m * 2 ^ (e - emin)) 0); [lia|]. exact E. Qed.
Lemma rnd_nonneg n : 0 <= n -> 0 <= rnd prec n.
Proof. intros H. rewrite <- (rnd_0 prec ltac:(lia)). apply (rnd_mono prec ltac:(lia)); lia. Qed.
Lemma srnd_mono n m : n <= m -> srnd n <= srnd m.
Proof. intros H. unfold srnd. destruct (Z.ltb_spec n 0), (Z.ltb_spec m 0); try lia.
  - pose proof (rnd_mono prec ltac:(lia) (- m) (- n) ltac:(lia) ltac:(lia)). lia.
  - pose proof (rnd_nonneg (- n) ltac:(lia)). pose proof (rnd_nonneg m ltac:(lia)). lia.
  - apply (rnd_mono prec); lia. Qed.
Lemma srnd_error n : 2 ^ prec * Z.abs (srnd n - n) <= Z.abs n.
Proof. unfold srnd. destruct (Z.ltb_spec n 0).
  - pose proof (rnd_error prec ltac:(lia) (- n) ltac:(lia)). assert (0 < 2 ^ prec) by (apply Z.pow_pos_nonneg; lia). rewrite (Z.abs_neq n) by lia. destruct (Z.abs_spec (- rnd prec (- n) - n)) as [[_ ->]|[_ ->]]; nia.
  - pose proof (rnd_error prec ltac:(lia) n ltac:(lia)). assert (0 < 2 ^ prec) by (apply Z.pow_pos_nonneg; lia). rewrite (Z.abs_eq n) by lia. destruct (Z.abs_spec (rnd prec n - n)) as [[_ ->]|[_ ->]]; nia. Qed.
(** the error in terms of the rounded result *)
Lemma rnd_error2 n : 0 <= n -> 2 ^ prec * Z.abs (rnd prec n - n) <= rnd prec n.
Proof. intros Hn. destruct (Z.eq_dec n 0) as [->|H0]; [rewrite rnd_0 by lia; rewrite Z.sub_diag, Z.abs_0; lia|]. destruct (Zdigits_bounds n ltac:(lia)) as [[B1 B2] B3]. pose proof (rnd_bounds prec ltac:(lia) n ltac:(lia)) as [RB _].
  unfold rnd in *. destruct (Z.leb_spec (Zdigits2 n) prec); [rewrite Z.sub_diag, Z.abs_0; lia|]. set (s := Zdigits2 n - prec) in *. assert (0 < s) as Hs by lia.
  assert (0 < 2 ^ (s - 1)) as Hp by (apply Z.pow_pos_nonneg; lia).
  assert (2 ^ s = 2 * 2 ^ (s - 1)) as E2. { rewrite <- Z.pow_succ_r by lia. f_equal. lia. }
  assert (- 2 ^ (s - 1) <= rne n s * 2 ^ s - n <= 2 ^ (s - 1)) as He.
  { pose proof (Z.div_mod n (2 ^ s) ltac:(lia)) as Hdm. pose proof (Z.mod_pos_bound n (2 ^ s) ltac:(lia)) as Hb. unfold rne. clear RB.
    set (q := n / 2 ^ s) in *. set (r := n mod 2 ^ s) in *.
    repeat match goal with |- context [?a <? ?b] => destruct (Z.ltb_spec a b) end; try destruct (Z.even _); nia. }
  assert (2 ^ prec * 2 ^ (s - 1) = 2 ^ (Zdigits2 n - 1)) as E3. { rewrite <- Z.pow_add_r by lia. f_equal. lia. }
  assert (0 < 2 ^ prec) by (apply Z.pow_pos_nonneg; lia). set (r := rne n s * 2 ^ s) in *. apply Z.le_trans with (2 ^ prec * 2 ^ (s - 1)); [|lia]. apply Z.mul_le_mono_nonneg_l; lia. Qed.
Lemma srnd_error2 n : 2 ^ prec * Z.abs (srnd n - n) <= Z.abs (srnd n).
Proof. unfold srnd. destruct (Z.ltb_spec n 0).
  - pose proof (rnd_error2 (- n) ltac:(lia)). pose proof (rnd_nonneg (- n) ltac:(lia)). rewrite Z.abs_opp, (Z.abs_eq (rnd prec (- n))) by lia. replace (- rnd prec (- n) - n) with (- (rnd prec (- n) - (- n))) by ring. rewrite Z.abs_opp. exact H0.
  - pose proof (rnd_error2 n ltac:(lia)). pose proof (rnd_nonneg n ltac:(lia)). rewrite (Z.abs_eq (rnd prec n)) by lia. exact H0. Qed.
Lemma clamp_mono n m : n <= m -> clamp n <= clamp m.
Proof. intros H. unfold clamp. pose proof BIG_pos. destruct (Z.ltb_spec n (- BIG)), (Z.ltb_spec m (- BIG)), (Z.ltb_spec BIG n), (Z.ltb_spec BIG m); lia. Qed.
Lemma clamp_id n : Z.abs n <= BIG -> clamp n = n.
Proof. intros H. unfold clamp. destruct (Z.ltb_spec n (- BIG)), (Z.ltb_spec BIG n); lia. Qed.
Lemma clamp_bound n : - BIG <= clamp n <= BIG.
Proof. unfold clamp. pose proof BIG_pos. destruct (Z.ltb_spec n (- BIG)), (Z.ltb_spec BIG n); lia. Qed.

(** SFltb is the order of the values *)
Lemma lt_spec x y : number x -> number y -> SFltb x y = (xv x <? xv y).
Proof. intros [Vx Nx] [Vy Ny]. pose proof BIG_pos as BP. destruct (sval x) as [a|] eqn:Sx.
  - rewrite (sval_xv x a Sx). pose proof (sval_lt x a Vx Sx) as Ba. destruct (sval y) as [b|] eqn:Sy.
    + rewrite (sval_xv y b Sy). unfold SFltb, Z.ltb. rewrite (cmp_spec prec emax Hprec x y a b Vx Vy Sx Sy). reflexivity.
    + destruct y as [s|s| |s m e]; try discriminate; [|congruence]. cbn [xv]. destruct s; cbn [cond_Zopp].
      * destruct x as [s|s| |s m e]; try discriminate; unfold SFltb; cbn [SFcompare]; symmetry; apply Z.ltb_ge; lia.
      * destruct x as [s|s| |s m e]; try discriminate; unfold SFltb; cbn [SFcompare]; symmetry; apply Z.ltb_lt; lia.
  - destruct x as [s|s| |s m e]; try discriminate; [|congruence]. cbn [xv]. destruct (sval y) as [b|] eqn:Sy.
    + rewrite (sval_xv y b Sy). pose proof (sval_lt y b Vy Sy) as Bb. destruct y as [s'|s'| |s' m e]; try discriminate; destruct s; unfold SFltb; cbn [SFcompare cond_Zopp]; symmetry; first [apply Z.ltb_lt; lia|apply Z.ltb_ge; lia].
    + destruct y as [s'|s'| |s' m e]; try discriminate; [|congruence]. cbn [xv]. destruct s, s'; unfold SFltb; cbn [SFcompare cond_Zopp]; symmetry; first [apply Z.ltb_lt; lia|apply Z.ltb_ge; lia]. Qed.

(** rounding a signed number *)
Lemma round_signed p e : emin <= e -> number (binary_round prec emax false p e) /\ xv (binary_round prec emax false p e) = clamp (rnd prec (Zpos p * 2 ^ (e - emin))).
Proof. intros He. assert (0 < 2 ^ (e - emin)) as Hp by (apply Z.pow_pos_nonneg; lia). destruct (binary_round_spec prec emax Hprec Hemax p e He) as [G E]. pose proof BIG_pos as BP.
  pose proof (rnd_nonneg (Zpos p * 2 ^ (e - emin)) ltac:(nia)) as R0. set (r := rnd prec (Zpos p * 2 ^ (e - emin))) in *. unfold ovf in E. split.
  - split; [exact (proj1 G)|]. intros C. rewrite C in G. exact (proj2 G).
  - unfold clamp. destruct (Z.ltb_spec r (- BIG)); [lia|]. destruct (binary_round prec emax false p e) as [s|s| |s m f]; cbn [ival xv] in *.
    + destruct (Z.ltb_spec r BIG); [|discriminate]. destruct (Z.ltb_spec BIG r); [lia|]. congruence.
    + destruct G as [_ ->]. cbn [cond_Zopp]. destruct (Z.ltb_spec r BIG); [discriminate|]. destruct (Z.ltb_spec BIG r); lia.
    + destruct G as [_ []].
    + destruct G as [_ ->]. cbn [cond_Zopp]. destruct (Z.ltb_spec r BIG) as [L|L]; [|discriminate]. destruct (Z.ltb_spec BIG r); [lia|]. congruence. Qed.
Lemma xv_opp x : xv (SFopp x) = - xv x.
Proof. destruct x as [s|s| |s m e]; cbn [SFopp xv]; try reflexivity; destruct s; cbn [negb cond_Zopp]; lia. Qed.
Lemma number_opp x : number x -> number (SFopp x).
Proof. intros [V N]. split; [rewrite valid_opp; exact V|]. destruct x; cbn; congruence. Qed.
Lemma clamp_opp n : clamp (- n) = - clamp n.
Proof. unfold clamp. pose proof BIG_pos. destruct (Z.ltb_spec n (- BIG)), (Z.ltb_spec BIG n), (Z.ltb_spec (- n) (- BIG)), (Z.ltb_spec BIG (- n)); lia. Qed.
Lemma add_finite x y a b : valid x = true -> valid y = true -> sval x = Some a -> sval y = Some b ->
  number (SFadd prec emax x y) /\ xv (SFadd prec emax x y) = clamp (srnd (a + b)).
Proof. intros Vx Vy Sx Sy. pose proof (srnd_xv x a Vx Sx) as Rx. pose proof (srnd_xv y b Vy Sy) as Ry. pose proof (sval_lt x a Vx Sx) as Ba. pose proof (sval_lt y b Vy Sy) as Bb. pose proof BIG_pos as BP.
  assert (srnd 0 = 0) as R0 by (unfold srnd; cbn; apply rnd_0; lia).
  destruct x as [sx|sx| |sx mx ex], y as [sy|sy| |sy my ey]; cbn [FloatExact.sval] in Sx, Sy; try discriminate; apply some_inj in Sx; apply some_inj in Sy; subst a b; cbn [SFadd].
  - rewrite Z.add_0_l, R0, clamp_id by lia. destruct (Bool.eqb sx sy); (split; [split; [reflexivity|discriminate]|reflexivity]).
  - rewrite Z.add_0_l, Ry, clamp_id by lia. split; [split; [exact Vy|discriminate]|reflexivity].
  - rewrite Z.add_0_r, Rx, clamp_id by lia. split; [split; [exact Vx|discriminate]|reflexivity].
  - clear Rx Ry Ba Bb R0. cbn [valid_binary] in Vx, Vy. apply (emin_le prec emax) in Vx, Vy. set (ez := Z.min ex ey). pose proof (shl_align_fst mx ex ez ltac:(lia)) as Ex. pose proof (shl_align_fst my ey ez ltac:(lia)) as Ey.
    destruct (shl_align mx ex ez) as [mx' ?], (shl_align my ey ez) as [my' ?]. cbn [fst] in *.
    assert (cond_Zopp sx (Zpos mx * 2 ^ (ex - emin)) + cond_Zopp sy (Zpos my * 2 ^ (ey - emin)) = (cond_Zopp sx (Zpos mx') + cond_Zopp sy (Zpos my')) * 2 ^ (ez - emin)) as E.
    { assert (Zpos mx' * 2 ^ (ez - emin) = Zpos mx * 2 ^ (ex - emin)) as E1 by (rewrite Ex, <- Z.mul_assoc, <- Z.pow_add_r by lia; do 2 f_equal; lia). assert (Zpos my' * 2 ^ (ez - emin) = Zpos my * 2 ^ (ey - emin)) as E2 by (rewrite Ey, <- Z.mul_assoc, <- Z.pow_add_r by lia; do 2 f_equal; lia).
      rewrite <- E1, <- E2. destruct sx, sy; cbn [cond_Zopp]; ring. }
    rewrite E. clear E. set (s := cond_Zopp sx (Zpos mx') + cond_Zopp sy (Zpos my')). clearbody s. assert (emin <= ez) as He by lia. clearbody ez. assert (0 < 2 ^ (ez - emin)) as Hp by (apply Z.pow_pos_nonneg; lia). unfold binary_normalize. destruct s as [|p|p].
    + split; [split; [reflexivity|discriminate]|]. unfold srnd. cbn [Z.mul Z.ltb Z.compare]. rewrite rnd_0 by lia. rewrite clamp_id by (cbn; lia). reflexivity.
    + unfold srnd. destruct (Z.ltb_spec (Zpos p * 2 ^ (ez - emin)) 0); [nia|]. apply round_signed, He.
    + rewrite round_neg, xv_opp. destruct (round_signed p ez He) as [H1 H2]. split; [apply number_opp, H1|]. rewrite H2. unfold srnd. replace (Zneg p * 2 ^ (ez - emin)) with (- (Zpos p * 2 ^ (ez - emin))) by lia.
      destruct (Z.ltb_spec (- (Zpos p * 2 ^ (ez - emin))) 0); [|nia]. rewrite Z.opp_involutive, clamp_opp. reflexivity. Qed.
(** x - w for a finite w *)
Lemma sub_spec x w b : number x -> valid w = true -> sval w = Some b ->
  number (SFsub prec emax x w) /\ xv (SFsub prec emax x w) = match sval x with Some a => clamp (srnd (a - b)) | None => xv x end.
Proof. intros [Vx Nx] Vw Sw. rewrite sub_opp. assert (sval (SFopp w) = Some (- b)) as So by (rewrite sval_opp, Sw; reflexivity). destruct (sval x) as [a|] eqn:Sx.
  - apply add_finite; auto. rewrite valid_opp. exact Vw.
  - destruct x as [s|s| |s m e]; try discriminate; [|congruence]. destruct w as [s'|s'| |s' m e]; try discriminate; cbn [SFopp SFadd]; (split; [split; [reflexivity|discriminate]|reflexivity]). Qed.
End Sg.
