(** Python's floats as edge values: IEEE-754 binary64 as specified by the standard library's
    [Coq.Floats.SpecFloat] (computable definitions, no axioms: neither primitive floats nor reals are used).
    Here: non-negative floats satisfy the laws of [GSpec.lawful] although their addition rounds. *)
From Coq Require Import ZArith SpecFloat.
From Verif Require Import Prelude PreludeFacts GSp GSpec.
Local Open Scope Z_scope.

Section Fl.
Context (prec emax : Z) (Hprec : 1 < prec) (Hemax : prec < emax).
Notation emin := (emin prec emax).
Notation fexp := (fexp prec emax).

(** ** numbers of binary digits *)
Lemma digits_bounds (p : positive) : 2 ^ (Zpos (digits2_pos p) - 1) <= Zpos p < 2 ^ Zpos (digits2_pos p).
Proof. induction p as [p IH|p IH|]; cbn [digits2_pos].
  - rewrite Pos2Z.inj_succ. replace (Z.succ (Zpos (digits2_pos p)) - 1) with (Z.succ (Zpos (digits2_pos p) - 1)) by lia.
    rewrite !Z.pow_succ_r by lia. lia.
  - rewrite Pos2Z.inj_succ. replace (Z.succ (Zpos (digits2_pos p)) - 1) with (Z.succ (Zpos (digits2_pos p) - 1)) by lia.
    rewrite !Z.pow_succ_r by lia. lia.
  - cbn. lia. Qed.
Lemma digits_unique (n d : Z) : 0 < n -> 2 ^ (d - 1) <= n < 2 ^ d -> 0 < d -> Zdigits2 n = d.
Proof. intros Hn [H1 H2] Hd. destruct n as [|p|p]; try lia. cbn [Zdigits2]. pose proof (digits_bounds p) as [B1 B2].
  set (k := Zpos (digits2_pos p)) in *. assert (k - 1 < d) by (apply (Z.pow_lt_mono_r_iff 2); lia).
  assert (d - 1 < k) by (apply (Z.pow_lt_mono_r_iff 2); lia). lia. Qed.
Lemma Zdigits_bounds n : 0 < n -> 2 ^ (Zdigits2 n - 1) <= n < 2 ^ Zdigits2 n /\ 0 < Zdigits2 n.
Proof. intros H. destruct n as [|p|p]; try lia. cbn [Zdigits2]. split; [apply digits_bounds|lia]. Qed.
Lemma Zdigits_shift n k : 0 < n -> 0 <= k -> Zdigits2 (n * 2 ^ k) = Zdigits2 n + k.
Proof. intros H Hk. destruct (Zdigits_bounds n H) as [[B1 B2] B3]. apply digits_unique; [| |lia].
  - apply Z.mul_pos_pos; [lia|]. apply Z.pow_pos_nonneg; lia.
  - replace (Zdigits2 n + k - 1) with ((Zdigits2 n - 1) + k) by lia. rewrite !Z.pow_add_r by lia.
    assert (0 < 2 ^ k) by (apply Z.pow_pos_nonneg; lia). split; [apply Z.mul_le_mono_nonneg_r; lia|apply Z.mul_lt_mono_pos_r; lia]. Qed.

(** ** rounding an integer to [prec] significant bits, ties to even *)
Definition rne (n s : Z) : Z :=
  let q := n / 2 ^ s in let r := n mod 2 ^ s in
  if 2 * r <? 2 ^ s then q else if 2 ^ s <? 2 * r then q + 1 else if Z.even q then q else q + 1.
Definition rnd (n : Z) : Z :=
  if Zdigits2 n <=? prec then n else rne n (Zdigits2 n - prec) * 2 ^ (Zdigits2 n - prec).

Lemma rne_bounds n s : 0 < s -> n / 2 ^ s <= rne n s <= n / 2 ^ s + 1.
Proof. intros Hs. unfold rne. repeat destruct (_ <? _); try destruct (Z.even _); lia. Qed.
Lemma rne_mono n m s : 0 < s -> n <= m -> rne n s <= rne m s.
Proof. intros Hs Hnm. assert (0 < 2 ^ s) as Hp by (apply Z.pow_pos_nonneg; lia).
  pose proof (Z.div_le_mono n m (2 ^ s) Hp Hnm) as Hq. destruct (Z.eq_dec (n / 2 ^ s) (m / 2 ^ s)) as [E|E].
  - assert (n mod 2 ^ s <= m mod 2 ^ s) as Hr. { pose proof (Z.div_mod n (2 ^ s)). pose proof (Z.div_mod m (2 ^ s)). rewrite E in *. lia. }
    unfold rne. rewrite E. repeat match goal with |- context [?a <? ?b] => destruct (Z.ltb_spec a b) end; try destruct (Z.even _); lia.
  - pose proof (rne_bounds n s Hs). pose proof (rne_bounds m s Hs). lia. Qed.
Lemma Zdigits_mono n m : 0 < n -> n <= m -> Zdigits2 n <= Zdigits2 m.
Proof. intros Hn Hm. destruct (Zdigits_bounds n Hn) as [[B1 _] _]. destruct (Zdigits_bounds m) as [[_ B2] B3]; [lia|].
  assert (Zdigits2 n - 1 < Zdigits2 m) by (apply (Z.pow_lt_mono_r_iff 2); lia). lia. Qed.
Lemma rnd_bounds n : 0 < n -> 2 ^ (Zdigits2 n - 1) <= rnd n <= 2 ^ Zdigits2 n.
Proof. intros Hn. destruct (Zdigits_bounds n Hn) as [[B1 B2] B3]. unfold rnd. destruct (Z.leb_spec (Zdigits2 n) prec); [lia|].
  set (d := Zdigits2 n) in *. set (s := d - prec). assert (0 < s) as Hs by lia. assert (0 < 2 ^ s) as Hp by (apply Z.pow_pos_nonneg; lia).
  pose proof (rne_bounds n s Hs) as [R1 R2].
  assert (2 ^ (prec - 1) <= n / 2 ^ s) as Q1. { apply Z.div_le_lower_bound; [lia|]. rewrite <- Z.pow_add_r by lia. replace (s + (prec - 1)) with (d - 1) by lia. exact B1. }
  assert (n / 2 ^ s < 2 ^ prec) as Q2. { apply Z.div_lt_upper_bound; [lia|]. rewrite <- Z.pow_add_r by lia. replace (s + prec) with d by lia. exact B2. }
  replace (2 ^ (d - 1)) with (2 ^ (prec - 1) * 2 ^ s) by (rewrite <- Z.pow_add_r by lia; f_equal; lia).
  replace (2 ^ d) with (2 ^ prec * 2 ^ s) by (rewrite <- Z.pow_add_r by lia; f_equal; lia).
  split; apply Z.mul_le_mono_nonneg_r; lia. Qed.
Lemma rnd_0 : rnd 0 = 0.
Proof. unfold rnd. cbn. destruct (Z.leb_spec 0 prec); lia. Qed.
Lemma rnd_mono n m : 0 <= n -> n <= m -> rnd n <= rnd m.
Proof. intros Hn Hm. destruct (Z.eq_dec n 0) as [->|Hn0].
  { rewrite rnd_0. destruct (Z.eq_dec m 0) as [->|]; [rewrite rnd_0; lia|]. pose proof (rnd_bounds m).
    assert (0 < 2 ^ (Zdigits2 m - 1)) by (apply Z.pow_pos_nonneg; [lia|]; pose proof (Zdigits_bounds m); lia). lia. }
  pose proof (Zdigits_mono n m ltac:(lia) Hm) as Hd. destruct (Z.eq_dec (Zdigits2 n) (Zdigits2 m)) as [E|E].
  - unfold rnd. rewrite E. destruct (Z.leb_spec (Zdigits2 m) prec); [exact Hm|]. apply Z.mul_le_mono_nonneg_r; [apply Z.pow_nonneg; lia|].
    apply rne_mono; lia.
  - pose proof (rnd_bounds n ltac:(lia)). pose proof (rnd_bounds m ltac:(lia)).
    assert (2 ^ Zdigits2 n <= 2 ^ (Zdigits2 m - 1)) by (apply Z.pow_le_mono_r; lia). lia. Qed.
(** numbers with at most [prec] significant bits are kept *)
Lemma rnd_exact m k : 0 < m -> 0 <= k -> Zdigits2 m <= prec -> rnd (m * 2 ^ k) = m * 2 ^ k.
Proof. intros Hm Hk Hd. unfold rnd. rewrite Zdigits_shift by lia. destruct (Z.leb_spec (Zdigits2 m + k) prec); [reflexivity|].
  set (s := Zdigits2 m + k - prec). assert (0 < s <= k) as Hs by lia.
  assert (0 < 2 ^ s) as Hp by (apply Z.pow_pos_nonneg; lia).
  assert (m * 2 ^ k = m * 2 ^ (k - s) * 2 ^ s) as E. { rewrite <- Z.mul_assoc, <- Z.pow_add_r by lia. do 2 f_equal. lia. }
  rewrite E. unfold rne. rewrite Z.div_mul, Z.mod_mul by lia. destruct (Z.ltb_spec (2 * 0) (2 ^ s)); [reflexivity|lia]. Qed.

(** ** the right shift of SpecFloat, which keeps a round bit and a sticky bit *)
Definition shr_inv (n k : Z) (t : shr_record) : Prop :=
  shr_m t = n / 2 ^ k /\
  match shr_r t, shr_s t with
  | false, false => n mod 2 ^ k = 0
  | false, true => 0 < 2 * (n mod 2 ^ k) < 2 ^ k
  | true, false => 2 * (n mod 2 ^ k) = 2 ^ k
  | true, true => 2 ^ k < 2 * (n mod 2 ^ k)
  end.
Lemma shr_inv_step n k t : 0 <= n -> 0 <= k -> shr_inv n k t -> shr_inv n (k + 1) (shr_1 t).
Proof. intros Hn Hk [Hm Hrs]. assert (0 < 2 ^ k) as Hp by (apply Z.pow_pos_nonneg; lia).
  pose proof (Z.div_mod n (2 ^ k) ltac:(lia)) as Hdm. pose proof (Z.mod_pos_bound n (2 ^ k) Hp) as Hb.
  set (q := n / 2 ^ k) in *. set (r := n mod 2 ^ k) in *. assert (0 <= q) by (apply Z.div_pos; lia).
  destruct t as [m rb sb]. cbn [shr_m shr_r shr_s] in Hm, Hrs. subst m.
  assert (forall q' b, (b = 0 \/ b = 1) -> q = 2 * q' + b -> n / 2 ^ (k + 1) = q' /\ n mod 2 ^ (k + 1) = r + b * 2 ^ k) as Hstep.
  { intros q' b Hb' Eq. assert (n = 2 ^ (k + 1) * q' + (r + b * 2 ^ k)) as En by (rewrite Z.pow_add_r, Z.pow_1_r by lia; nia).
    assert (0 <= r + b * 2 ^ k < 2 ^ (k + 1)) by (rewrite Z.pow_add_r, Z.pow_1_r by lia; nia).
    split; [symmetry; apply (Z.div_unique_pos n (2 ^ (k + 1)) q' (r + b * 2 ^ k)); lia|symmetry; apply (Z.mod_unique_pos n (2 ^ (k + 1)) q' (r + b * 2 ^ k)); lia]. }
  assert (2 ^ (k + 1) = 2 * 2 ^ k) as E2 by (rewrite Z.pow_add_r, Z.pow_1_r by lia; lia).
  assert (orb rb sb = false <-> r = 0) as Hsb. { destruct rb, sb; cbn; split; intros; try discriminate; try reflexivity; lia. }
  unfold shr_1, shr_inv. destruct q as [|[p|p|]|p] eqn:Eq; try lia; cbn [shr_m shr_r shr_s].
  - destruct (Hstep 0 0) as [-> ->]; [lia|lia|]. split; [reflexivity|]. rewrite E2. destruct (rb || sb); [|apply proj1 in Hsb; specialize (Hsb eq_refl); lia].
    assert (r <> 0) by (intros C; apply (proj2 Hsb) in C; discriminate). lia.
  - destruct (Hstep (Zpos p) 1) as [-> ->]; [lia|lia|]. split; [reflexivity|]. rewrite E2. destruct (rb || sb); [|apply proj1 in Hsb; specialize (Hsb eq_refl); lia].
    assert (r <> 0) by (intros C; apply (proj2 Hsb) in C; discriminate). lia.
  - destruct (Hstep (Zpos p) 0) as [-> ->]; [lia|lia|]. split; [reflexivity|]. rewrite E2. destruct (rb || sb); [|apply proj1 in Hsb; specialize (Hsb eq_refl); lia].
    assert (r <> 0) by (intros C; apply (proj2 Hsb) in C; discriminate). lia.
  - destruct (Hstep 0 1) as [-> ->]; [lia|lia|]. split; [reflexivity|]. rewrite E2. destruct (rb || sb); [|apply proj1 in Hsb; specialize (Hsb eq_refl); lia].
    assert (r <> 0) by (intros C; apply (proj2 Hsb) in C; discriminate). lia. Qed.
Lemma shr_inv_iter n p : 0 <= n -> forall k t, 0 <= k -> shr_inv n k t -> shr_inv n (k + Zpos p) (SpecFloat.iter_pos shr_1 p t).
Proof. intros Hn. induction p as [p IH|p IH|]; intros k t Hk Ht; cbn [SpecFloat.iter_pos].
  - replace (k + Zpos p~1) with (k + 1 + Zpos p + Zpos p) by lia. apply IH; [lia|]. apply IH; [lia|]. apply shr_inv_step; auto.
  - replace (k + Zpos p~0) with (k + Zpos p + Zpos p) by lia. apply IH; [lia|]. apply IH; [lia|]. auto.
  - apply shr_inv_step; auto. Qed.
Lemma shr_round n k t : 0 <= n -> 0 <= k -> shr_inv n k t -> round_nearest_even (shr_m t) (loc_of_shr_record t) = rne n k.
Proof. intros Hn Hk [Hm Hrs]. assert (0 < 2 ^ k) as Hp by (apply Z.pow_pos_nonneg; lia). destruct t as [m r s]. cbn [shr_m shr_r shr_s] in *. subst m.
  unfold rne. destruct r, s; cbn [loc_of_shr_record round_nearest_even];
  repeat match goal with |- context [?a <? ?b] => destruct (Z.ltb_spec a b) end; try lia. Qed.
Lemma shr_exact n k t : 0 <= n -> 0 <= k -> n mod 2 ^ k = 0 -> shr_inv n k t -> shr_m t * 2 ^ k = n.
Proof. intros Hn Hk Hr [Hm _]. assert (0 < 2 ^ k) as Hp by (apply Z.pow_pos_nonneg; lia). pose proof (Z.div_mod n (2 ^ k)). rewrite Hm. lia. Qed.

(** ** values.  A finite non-negative float is a multiple of 2^emin: [ival] is that multiple. *)
Definition ival (x : spec_float) : ext :=
  match x with
  | S754_zero _ => Fin 0
  | S754_finite _ m e => Fin (Zpos m * 2 ^ (e - emin))
  | _ => Inf
  end.
(** a float that is not NaN and not negative (-0.0 is not negative) *)
Definition fgood (x : spec_float) : Prop :=
  valid_binary prec emax x = true /\
  match x with S754_nan => False | S754_zero _ => True | S754_infinity s => s = false | S754_finite s _ _ => s = false end.
(** overflow *)
Definition ovf (n : Z) : ext := if n <? 2 ^ (emax - emin) then Fin n else Inf.

Lemma bounded_spec m e : bounded prec emax m e = true <-> fexp (Zpos (digits2_pos m) + e) = e /\ e <= emax - prec.
Proof. unfold bounded, canonical_mantissa. rewrite andb_true_iff, <- Zeq_is_eq_bool, <- Zle_is_le_bool. reflexivity. Qed.
Lemma fexp_emin e : emin <= fexp e.
Proof. unfold SpecFloat.fexp. lia. Qed.

(** rounding a mantissa m with exponent e >= emin, aligned so that no left shift is needed *)
Lemma round_aux_spec mz ez : 0 < mz -> emin <= ez -> ez <= fexp (Zdigits2 mz + ez) ->
  fgood (binary_round_aux prec emax false mz ez loc_Exact) /\
  ival (binary_round_aux prec emax false mz ez loc_Exact) = ovf (rnd (mz * 2 ^ (ez - emin))).
Proof. intros Hm Hez Hf. destruct (Zdigits_bounds mz Hm) as [[B1 B2] B3].
  assert (exists m' e', 0 < m' /\ Zdigits2 m' <= prec /\ fexp (Zdigits2 m' + e') = e' /\ emin <= e' /\
    binary_round_aux prec emax false mz ez loc_Exact =
      match m' with Z0 => S754_zero false | Zpos m => if Zle_bool e' (emax - prec) then S754_finite false m e' else S754_infinity false | _ => S754_nan end /\
    m' * 2 ^ (e' - emin) = rnd (mz * 2 ^ (ez - emin))) as (m' & e' & Hm' & Hd' & Hf' & He' & -> & <-).
  { unfold binary_round_aux, shr_fexp. cbn [shr_record_of_loc].
    destruct (Z.eq_dec (fexp (Zdigits2 mz + ez)) ez) as [E|E].
    - replace (fexp (Zdigits2 mz + ez) - ez) with 0 by lia. cbn [shr shr_m loc_of_shr_record round_nearest_even].
      replace (fexp (Zdigits2 mz + ez) - ez) with 0 by lia. cbn [shr shr_m]. exists mz, ez.
      assert (Zdigits2 mz <= prec) by (unfold SpecFloat.fexp in E; lia). splits; auto. symmetry. apply rnd_exact; lia.
    - assert (fexp (Zdigits2 mz + ez) = Zdigits2 mz + ez - prec) as Ef by (unfold SpecFloat.fexp in *; lia).
      rewrite Ef. assert (exists ps, Zdigits2 mz + ez - prec - ez = Zpos ps) as [ps Eps].
      { destruct (Zdigits2 mz + ez - prec - ez) as [|ps|ps] eqn:Ed; try lia. eauto. }
      rewrite Eps. pose (s := Zpos ps). assert (0 < s) as Hs by (unfold s; lia). assert (s = Zdigits2 mz - prec) as Es by (unfold s; lia).
      clear Eps. assert (Zpos ps = s) as Eps by reflexivity. clearbody s.
      unfold shr at 1.
      pose proof (shr_inv_iter mz ps ltac:(lia) 0 (Build_shr_record mz false false) ltac:(lia)) as Hi.
      rewrite Z.add_0_l, Eps in Hi.
      assert (shr_inv mz s (SpecFloat.iter_pos shr_1 ps {| shr_m := mz; shr_r := false; shr_s := false |})) as Hi'.
      { apply Hi. split; cbn [shr_m shr_r shr_s]; [rewrite Z.pow_0_r, Z.div_1_r; reflexivity|apply Z.mod_1_r]. }
      rewrite (shr_round mz s _ ltac:(lia) ltac:(lia) Hi'). clear Hi Hi'.
      assert (0 < 2 ^ s) as Hp by (apply Z.pow_pos_nonneg; lia).
      assert (rnd (mz * 2 ^ (ez - emin)) = rne mz s * 2 ^ (s + (ez - emin))) as Er.
      { unfold rnd. rewrite Zdigits_shift by lia. destruct (Z.leb_spec (Zdigits2 mz + (ez - emin)) prec); [lia|].
        replace (Zdigits2 mz + (ez - emin) - prec) with (s + (ez - emin)) by lia. f_equal.
        set (k := ez - emin). assert (0 <= k) by lia. assert (0 < 2 ^ k) as Hpk by (apply Z.pow_pos_nonneg; lia).
        unfold rne. rewrite (Z.add_comm s k), Z.pow_add_r, (Z.mul_comm mz) by lia. rewrite Z.div_mul_cancel_l, Z.mul_mod_distr_l by lia.
        set (r := mz mod 2 ^ s). set (P := 2 ^ s) in *. set (K := 2 ^ k) in *.
        replace (2 * (K * r) <? K * P) with (2 * r <? P); [|apply Bool.eq_iff_eq_true; rewrite !Z.ltb_lt; nia].
        replace (K * P <? 2 * (K * r)) with (P <? 2 * r); [reflexivity|apply Bool.eq_iff_eq_true; rewrite !Z.ltb_lt; nia]. }
      assert (2 ^ (prec - 1) <= rne mz s <= 2 ^ prec) as Hq.
      { pose proof (rne_bounds mz s Hs) as [R1 R2].
        assert (2 ^ (prec - 1) <= mz / 2 ^ s). { apply Z.div_le_lower_bound; [lia|]. rewrite <- Z.pow_add_r by lia. replace (s + (prec - 1)) with (Zdigits2 mz - 1) by lia. exact B1. }
        assert (mz / 2 ^ s < 2 ^ prec). { apply Z.div_lt_upper_bound; [lia|]. rewrite <- Z.pow_add_r by lia. replace (s + prec) with (Zdigits2 mz) by lia. exact B2. }
        lia. }
      assert (0 < 2 ^ (prec - 1)) as Hp1 by (apply Z.pow_pos_nonneg; lia).
      rewrite Er. set (q := rne mz s) in *. destruct (Z.eq_dec q (2 ^ prec)) as [Eq|Eq].
      + assert (Zdigits2 q = prec + 1) as Dq. { apply digits_unique; [lia| |lia]. rewrite Eq. replace (prec + 1 - 1) with prec by lia.
          rewrite Z.pow_add_r, Z.pow_1_r by lia. lia. }
        rewrite Dq. replace (fexp (prec + 1 + (ez + Zpos ps)) - (ez + Zpos ps)) with 1 by (unfold SpecFloat.fexp; lia).
        unfold shr. cbn [SpecFloat.iter_pos].
        pose proof (shr_inv_step q 0 (Build_shr_record q false false) ltac:(lia) ltac:(lia)) as Hi.
        assert (shr_inv q (0 + 1) (shr_1 (Build_shr_record q false false))) as Hi'.
        { apply Hi. split; cbn [shr_m shr_r shr_s]; [rewrite Z.pow_0_r, Z.div_1_r; reflexivity|apply Z.mod_1_r]. }
        assert (2 ^ prec = 2 * 2 ^ (prec - 1)) as E2. { rewrite <- Z.pow_succ_r by lia. f_equal. lia. }
        assert (shr_m (shr_1 (Build_shr_record q false false)) = 2 ^ (prec - 1)) as Em.
        { destruct Hi' as [Hi' _]. rewrite Hi', Z.add_0_l, Z.pow_1_r, Eq, E2. symmetry; apply Z.div_unique_exact; lia. }
        rewrite Em. exists (2 ^ (prec - 1)), (ez + Zpos ps + 1).
        assert (Zdigits2 (2 ^ (prec - 1)) = prec) as Dp. { apply digits_unique; [lia| |lia]. lia. }
        rewrite Dp. splits; auto; try lia.
        * unfold SpecFloat.fexp. lia.
        * rewrite Eq. rewrite <- !Z.pow_add_r by lia. f_equal. lia.
      + assert (Zdigits2 q = prec) as Dq. { apply digits_unique; lia. }
        rewrite Dq. replace (fexp (prec + (ez + Zpos ps)) - (ez + Zpos ps)) with 0 by (unfold SpecFloat.fexp; lia).
        cbn [shr shr_m]. exists q, (ez + Zpos ps). splits; auto; try lia.
        * rewrite Dq. unfold SpecFloat.fexp. lia.
        * do 2 f_equal. lia. }
  destruct m' as [|m|m]; try lia. cbn [Zdigits2] in *. destruct (Zdigits_bounds (Zpos m) ltac:(lia)) as [[D1 D2] _]. cbn [Zdigits2] in D1, D2.
  destruct (Z.leb e' (emax - prec)) eqn:El.
  - apply Z.leb_le in El. split.
    + split; [|reflexivity]. cbn [valid_binary]. apply bounded_spec. auto.
    + cbn [ival]. unfold ovf. destruct (Z.ltb_spec (Zpos m * 2 ^ (e' - emin)) (2 ^ (emax - emin))) as [|C]; [reflexivity|exfalso].
      assert (2 ^ Zpos (digits2_pos m) <= 2 ^ prec) by (apply Z.pow_le_mono_r; lia).
      assert (2 ^ prec * 2 ^ (e' - emin) <= 2 ^ (emax - emin)) by (rewrite <- Z.pow_add_r by lia; apply Z.pow_le_mono_r; lia).
      assert (0 < 2 ^ (e' - emin)) by (apply Z.pow_pos_nonneg; lia). nia.
  - apply Z.leb_gt in El. split; [split; reflexivity|]. cbn [ival]. unfold ovf.
    destruct (Z.ltb_spec (Zpos m * 2 ^ (e' - emin)) (2 ^ (emax - emin))) as [C|]; [exfalso|reflexivity].
    assert (Zpos (digits2_pos m) = prec) as Dm. { unfold SpecFloat.fexp in Hf'. unfold SpecFloat.emin in *. lia. }
    rewrite Dm in D1. assert (2 ^ (emax - emin) <= 2 ^ (prec - 1) * 2 ^ (e' - emin)).
    { rewrite <- Z.pow_add_r by lia. apply Z.pow_le_mono_r; lia. }
    assert (0 < 2 ^ (e' - emin)) by (apply Z.pow_pos_nonneg; lia). nia. Qed.

Lemma shift_pos_spec d m : Zpos (shift_pos d m) = Zpos m * 2 ^ Zpos d.
Proof. rewrite shift_pos_correct, Z.mul_comm. reflexivity. Qed.
Lemma shl_align_fst m e e' : e' <= e -> Zpos (fst (shl_align m e e')) = Zpos m * 2 ^ (e - e').
Proof. intros H. unfold shl_align. destruct (e' - e) as [|d|d] eqn:E; cbn [fst].
  - replace (e - e') with 0 by lia. lia.
  - lia.
  - rewrite shift_pos_spec. f_equal. f_equal. lia. Qed.
Lemma binary_round_spec m e : emin <= e ->
  fgood (binary_round prec emax false m e) /\ ival (binary_round prec emax false m e) = ovf (rnd (Zpos m * 2 ^ (e - emin))).
Proof. intros He. unfold binary_round. set (f := fexp (Zpos (digits2_pos m) + e)). pose proof (fexp_emin (Zpos (digits2_pos m) + e)) as Hf. fold f in Hf.
  destruct (Z.le_gt_cases e f) as [Hle|Hgt].
  - assert (shl_align m e f = (m, e)) as ->. { unfold shl_align. destruct (f - e) eqn:E; [reflexivity|reflexivity|lia]. }
    apply round_aux_spec; [lia|exact He|exact Hle].
  - pose proof (shl_align_fst m e f ltac:(lia)) as Hs.
    assert (snd (shl_align m e f) = f) as Hsn. { unfold shl_align. destruct (f - e) eqn:E; [lia|lia|reflexivity]. }
    destruct (shl_align m e f) as [mz ez]. cbn [fst snd] in *. subst ez.
    assert (Zdigits2 (Zpos mz) = Zpos (digits2_pos m) + (e - f)) as Hd. { rewrite Hs. apply (Zdigits_shift (Zpos m)); lia. }
    replace (Zpos m * 2 ^ (e - emin)) with (Zpos mz * 2 ^ (f - emin)).
    + apply round_aux_spec; [lia|exact Hf|]. rewrite Hd. replace (Zpos (digits2_pos m) + (e - f) + f) with (Zpos (digits2_pos m) + e) by lia. fold f. lia.
    + rewrite Hs, <- Z.mul_assoc, <- Z.pow_add_r by lia. do 2 f_equal. lia. Qed.

(** ** the sum of two non-negative floats is their exact sum, rounded *)
Definition iadd (x y : ext) : ext := match x, y with Fin a, Fin b => ovf (rnd (a + b)) | _, _ => Inf end.
Lemma good_finite s m e : fgood (S754_finite s m e) -> s = false /\ fexp (Zpos (digits2_pos m) + e) = e /\ e <= emax - prec /\ emin <= e /\ Zpos (digits2_pos m) <= prec.
Proof. intros [H ->]. cbn [valid_binary] in H. apply bounded_spec in H. destruct H as [H1 H2]. splits; auto; unfold SpecFloat.fexp in H1; lia. Qed.
Lemma ival_rep x : fgood x -> match ival x with Fin n => 0 <= n /\ rnd n = n /\ ovf n = Fin n | Inf => True end.
Proof. destruct x as [s|s| |s m e]; intros G; cbn [ival]; try exact Logic.I.
  - rewrite rnd_0. splits; auto; [lia|]. unfold ovf. destruct (Z.ltb_spec 0 (2 ^ (emax - emin))) as [|C]; [reflexivity|].
    assert (0 < 2 ^ (emax - emin)) by (apply Z.pow_pos_nonneg; unfold SpecFloat.emin; lia). lia.
  - destruct (good_finite _ _ _ G) as (-> & H1 & H2 & H3 & H4). assert (0 < 2 ^ (e - emin)) as Hp by (apply Z.pow_pos_nonneg; lia).
    splits; [nia|apply rnd_exact; cbn [Zdigits2]; lia|]. unfold ovf.
    destruct (Z.ltb_spec (Zpos m * 2 ^ (e - emin)) (2 ^ (emax - emin))) as [|C]; [reflexivity|exfalso].
    destruct (digits_bounds m) as [D1 D2]. assert (2 ^ Zpos (digits2_pos m) <= 2 ^ prec) by (apply Z.pow_le_mono_r; lia).
    assert (2 ^ prec * 2 ^ (e - emin) <= 2 ^ (emax - emin)) by (rewrite <- Z.pow_add_r by lia; apply Z.pow_le_mono_r; lia). nia. Qed.
Lemma add_spec x y : fgood x -> fgood y -> fgood (SFadd prec emax x y) /\ ival (SFadd prec emax x y) = iadd (ival x) (ival y).
Proof. intros Gx Gy. pose proof (ival_rep x Gx) as Rx. pose proof (ival_rep y Gy) as Ry.
  destruct x as [sx|sx| |sx mx ex], y as [sy|sy| |sy my ey]; try (exfalso; exact (proj2 Gx)); try (exfalso; exact (proj2 Gy)); cbn [SFadd ival iadd] in *.
  - destruct (Bool.eqb sx sy); (split; [split; auto; exact Logic.I|]); cbn [ival]; rewrite Z.add_0_l; destruct Rx as (_ & -> & ->); reflexivity.
  - split; [split; [reflexivity|first [apply Gx|apply Gy]]|reflexivity].
  - split; [exact Gy|]. rewrite Z.add_0_l. destruct Ry as (_ & -> & ->); reflexivity.
  - split; [split; [reflexivity|first [apply Gx|apply Gy]]|reflexivity].
  - destruct Gx as [_ ->], Gy as [_ ->]. cbn. split; [split; reflexivity|reflexivity].
  - split; [split; [reflexivity|first [apply Gx|apply Gy]]|reflexivity].
  - split; [exact Gx|]. rewrite Z.add_0_r. destruct Rx as (_ & -> & ->); reflexivity.
  - split; [split; [reflexivity|first [apply Gx|apply Gy]]|reflexivity].
  - destruct (good_finite _ _ _ Gx) as (-> & _ & _ & X3 & _). destruct (good_finite _ _ _ Gy) as (-> & _ & _ & Y3 & _).
    cbn [cond_Zopp]. set (ez := Z.min ex ey). pose proof (shl_align_fst mx ex ez ltac:(lia)) as Ex. pose proof (shl_align_fst my ey ez ltac:(lia)) as Ey.
    destruct (shl_align mx ex ez) as [mx' ?], (shl_align my ey ez) as [my' ?]. cbn [fst] in *.
    change (Zpos mx' + Zpos my') with (Zpos (mx' + my')). unfold binary_normalize.
    destruct (binary_round_spec (mx' + my') ez ltac:(lia)) as [H1 H2]. split; [exact H1|]. rewrite H2. do 2 f_equal.
    rewrite Pos2Z.inj_add, Ex, Ey, Z.mul_add_distr_r, <- !Z.mul_assoc, <- !Z.pow_add_r by lia. do 2 f_equal; f_equal; lia. Qed.

(** ** the order of two non-negative floats is the order of their values *)
Lemma canon_lt m1 e1 m2 e2 : fgood (S754_finite false m1 e1) -> fgood (S754_finite false m2 e2) -> e1 < e2 ->
  Zpos m1 * 2 ^ (e1 - emin) < Zpos m2 * 2 ^ (e2 - emin).
Proof. intros G1 G2 H. destruct (good_finite _ _ _ G1) as (_ & A1 & A2 & A3 & A4). destruct (good_finite _ _ _ G2) as (_ & B1 & B2 & B3 & B4).
  assert (Zpos (digits2_pos m2) = prec) as D by (unfold SpecFloat.fexp in B1; lia).
  destruct (digits_bounds m1) as [_ C1]. destruct (digits_bounds m2) as [C2 _]. rewrite D in C2.
  assert (2 ^ Zpos (digits2_pos m1) <= 2 ^ prec) by (apply Z.pow_le_mono_r; lia).
  assert (2 ^ prec * 2 ^ (e1 - emin) <= 2 ^ (prec - 1) * 2 ^ (e2 - emin)) by (rewrite <- !Z.pow_add_r by lia; apply Z.pow_le_mono_r; lia).
  assert (0 < 2 ^ (e1 - emin)) by (apply Z.pow_pos_nonneg; lia). assert (0 < 2 ^ (e2 - emin)) by (apply Z.pow_pos_nonneg; lia). nia. Qed.
Lemma ltb_spec x y : fgood x -> fgood y -> SFltb x y = ext_ltb (ival x) (ival y).
Proof. intros Gx Gy. destruct x as [sx|sx| |sx mx ex], y as [sy|sy| |sy my ey]; try (exfalso; exact (proj2 Gx)); try (exfalso; exact (proj2 Gy));
    repeat match goal with G : fgood (S754_infinity ?s) |- _ => destruct G as [_ G]; cbn in G; subst s end; try reflexivity.
  - destruct (good_finite _ _ _ Gy) as (-> & _ & _ & Y & _). unfold SFltb; cbn [SFcompare ival ext_ltb]. symmetry. apply Z.ltb_lt. apply Z.mul_pos_pos; [lia|apply Z.pow_pos_nonneg; lia].
  - destruct (good_finite _ _ _ Gx) as (-> & _ & _ & X & _). unfold SFltb; cbn [SFcompare ival ext_ltb]. symmetry. apply Z.ltb_ge. apply Z.mul_nonneg_nonneg; [lia|apply Z.pow_nonneg; lia].
  - destruct (good_finite _ _ _ Gx) as (-> & _ & _ & X & _). destruct (good_finite _ _ _ Gy) as (-> & _ & _ & Y & _).
    unfold SFltb, SFcompare. cbn [ival ext_ltb]. destruct (Z.compare_spec ex ey) as [->|H|H].
    + assert (0 < 2 ^ (ey - emin)) by (apply Z.pow_pos_nonneg; lia).
      change (Pos.compare_cont Eq mx my) with (Pos.compare mx my). destruct (Pos.compare_spec mx my) as [->|C|C]; symmetry; [apply Z.ltb_irrefl|apply Z.ltb_lt; nia|apply Z.ltb_ge; nia].
    + symmetry. apply Z.ltb_lt. apply canon_lt; auto.
    + symmetry. apply Z.ltb_ge. pose proof (canon_lt _ _ _ _ Gy Gx H). lia. Qed.
Lemma eqb_spec x y : fgood x -> fgood y -> SFeqb x y = true -> SFltb y x = false.
Proof. intros Gx Gy. unfold SFeqb, SFltb.
  destruct x as [sx|sx| |sx mx ex], y as [sy|sy| |sy my ey]; try (exfalso; exact (proj2 Gx)); try (exfalso; exact (proj2 Gy));
    repeat match goal with G : fgood (S754_infinity ?s) |- _ => destruct G as [_ G]; cbn in G; subst s end; cbn; try discriminate; try reflexivity.
  - destruct (good_finite _ _ _ Gy) as (-> & _); discriminate.
  - destruct (good_finite _ _ _ Gx) as (-> & _); discriminate.
  - destruct (good_finite _ _ _ Gx) as (-> & _). destruct (good_finite _ _ _ Gy) as (-> & _). rewrite (Z.compare_antisym ex ey). destruct (Z.compare ex ey); cbn; try discriminate.
    change (Pos.compare_cont Eq mx my) with (Pos.compare mx my). change (Pos.compare_cont Eq my mx) with (Pos.compare my mx).
    rewrite (Pos.compare_antisym mx my). destruct (Pos.compare mx my); cbn; intros; first [discriminate|reflexivity]. Qed.

(** the relative error of a rounding is at most 2^-prec *)
Lemma rnd_error n : 0 <= n -> - n <= 2 ^ prec * (rnd n - n) <= n.
Proof. intros Hn. destruct (Z.eq_dec n 0) as [->|H0]; [rewrite rnd_0; lia|]. destruct (Zdigits_bounds n ltac:(lia)) as [[B1 B2] B3].
  unfold rnd. destruct (Z.leb_spec (Zdigits2 n) prec); [lia|]. set (s := Zdigits2 n - prec). assert (0 < s) as Hs by lia.
  assert (0 < 2 ^ (s - 1)) as Hp by (apply Z.pow_pos_nonneg; lia).
  assert (2 ^ s = 2 * 2 ^ (s - 1)) as E2. { rewrite <- Z.pow_succ_r by lia. f_equal. lia. }
  assert (- 2 ^ (s - 1) <= rne n s * 2 ^ s - n <= 2 ^ (s - 1)) as He.
  { pose proof (Z.div_mod n (2 ^ s) ltac:(lia)) as Hdm. pose proof (Z.mod_pos_bound n (2 ^ s) ltac:(lia)) as Hb. unfold rne.
    set (q := n / 2 ^ s) in *. set (r := n mod 2 ^ s) in *.
    repeat match goal with |- context [?a <? ?b] => destruct (Z.ltb_spec a b) end; try destruct (Z.even _); nia. }
  assert (2 ^ prec * 2 ^ (s - 1) <= n). { rewrite <- Z.pow_add_r by lia. replace (prec + (s - 1)) with (Zdigits2 n - 1) by lia. exact B1. }
  assert (0 < 2 ^ prec) by (apply Z.pow_pos_nonneg; lia). nia. Qed.

Definition float_arith : arith spec_float := mkArith (S754_zero false) (S754_infinity false) (SFadd prec emax) SFltb SFeqb.
Lemma ovf_mono n m : n <= m -> ext_ltb (ovf m) (ovf n) = false.
Proof. intros H. unfold ovf. destruct (Z.ltb_spec n (2 ^ (emax - emin))), (Z.ltb_spec m (2 ^ (emax - emin))); cbn; try reflexivity; [apply Z.ltb_ge; lia|lia]. Qed.
Lemma ext_ltb_ge a b : ext_ltb b a = false -> match a, b with Fin x, Fin y => x <= y | _, Inf => True | Inf, Fin _ => False end.
Proof. destruct a, b; cbn; try rewrite Z.ltb_ge; auto; discriminate. Qed.
Theorem float_lawful : lawful float_arith fgood.
Proof. constructor; cbn [a_zero a_add a_ltb a_eqb float_arith].
  - split; [reflexivity|exact Logic.I].
  - intros x w Gx Gw. apply add_spec; auto.
  - intros x y Gx Gy. rewrite !ltb_spec by auto. destruct (ival x), (ival y); cbn; try discriminate; auto. rewrite Z.ltb_lt, Z.ltb_ge. lia.
  - intros x y Gx Gy. apply eqb_spec; auto.
  - intros x y z Gx Gy Gz. rewrite !ltb_spec by auto. destruct (ival x), (ival y), (ival z); cbn; try discriminate; auto. rewrite !Z.ltb_ge. lia.
  - intros x y w Gx Gy Gw. destruct (add_spec x w Gx Gw) as [G1 E1]. destruct (add_spec y w Gy Gw) as [G2 E2].
    rewrite !ltb_spec by auto. rewrite E1, E2. pose proof (ival_rep x Gx) as Rx. pose proof (ival_rep y Gy) as Ry. pose proof (ival_rep w Gw) as Rw.
    intros H. apply ext_ltb_ge in H. destruct (ival x) as [a|], (ival y) as [b|], (ival w) as [c|]; cbn [iadd]; try reflexivity; try (exfalso; exact H).
    apply ovf_mono. apply rnd_mono; lia.
  - intros x w Gx Gw. destruct (add_spec x w Gx Gw) as [G1 E1]. rewrite ltb_spec by auto. rewrite E1.
    pose proof (ival_rep x Gx) as Rx. pose proof (ival_rep w Gw) as Rw. destruct (ival x) as [a|], (ival w) as [c|]; cbn [iadd]; try reflexivity.
    destruct Rx as (R1 & R2 & R3). rewrite <- R3. apply ovf_mono. rewrite <- R2 at 1. apply rnd_mono; lia. Qed.
End Fl.

(** Python's float *)
Definition f64 : arith spec_float := float_arith 53 1024.
Definition f64_good : spec_float -> Prop := fgood 53 1024.
Theorem f64_lawful : lawful f64 f64_good.
Proof. apply float_lawful; lia. Qed.
