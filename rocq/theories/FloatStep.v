(** The arithmetic of one edge in maximum_flow on floats: what v + (c - v) can be, when both operations round.  All
    numbers are whole numbers of the smallest positive float; [rnd 53 n = n] says that n is a float. *)
From Coq Require Import ZArith SpecFloat.
From Verif Require Import Prelude PreludeFacts Float64 FloatExact FloatSigned.
Local Open Scope Z_scope.

Section Step.
Context (prec : Z) (Hprec : 1 < prec).
Notation rnd := (rnd prec).
Implicit Types n m c v z j k : Z.
Definition shift n : Z := Z.max 0 (Zdigits2 n - prec).
Lemma shift_nonneg n : 0 <= shift n. Proof. unfold shift. lia. Qed.
Lemma rnd_nn n : 0 <= n -> 0 <= rnd n.
Proof. intros H. rewrite <- (rnd_0 prec ltac:(lia)). apply (rnd_mono prec ltac:(lia)); lia. Qed.
Lemma div_exact n s : 0 <= s -> (2 ^ s | n) -> n / 2 ^ s * 2 ^ s = n.
Proof. intros Hs [k ->]. rewrite Z.div_mul; [reflexivity|]. apply Z.pow_nonzero; lia. Qed.
Lemma rne_exact n s : 0 <= s -> (2 ^ s | n) -> rne n s * 2 ^ s = n.
Proof. intros Hs [k ->]. assert (0 < 2 ^ s) by (apply Z.pow_pos_nonneg; lia). unfold rne. rewrite Z.div_mul, Z.mod_mul by lia. destruct (Z.ltb_spec (2 * 0) (2 ^ s)); [reflexivity|lia]. Qed.
(** a float is a multiple of 2^shift, and conversely *)
Lemma float_multiple n : 0 < n -> rnd n = n -> (2 ^ shift n | n).
Proof. intros Hn E. unfold Float64.rnd in E. unfold shift. destruct (Z.leb_spec (Zdigits2 n) prec).
  - replace (Z.max 0 (Zdigits2 n - prec)) with 0 by lia. apply Z.divide_1_l.
  - replace (Z.max 0 (Zdigits2 n - prec)) with (Zdigits2 n - prec) by lia. rewrite <- E at 2. apply Z.divide_factor_r. Qed.
Lemma rnd_multiple n : (2 ^ shift n | n) -> rnd n = n.
Proof. intros H. unfold Float64.rnd. unfold shift in H. destruct (Z.leb_spec (Zdigits2 n) prec); [reflexivity|]. replace (Z.max 0 (Zdigits2 n - prec)) with (Zdigits2 n - prec) in H by lia. apply rne_exact; [lia|exact H]. Qed.
Lemma pow_divide a b : 0 <= a <= b -> (2 ^ a | 2 ^ b).
Proof. intros H. exists (2 ^ (b - a)). rewrite <- Z.pow_add_r by lia. f_equal. lia. Qed.
(** rounding keeps multiples of a power of two *)
Lemma rnd_keeps j n : 0 <= j -> 0 <= n -> (2 ^ j | n) -> (2 ^ j | rnd n).
Proof. intros Hj Hn H. destruct (Z.le_gt_cases (shift n) j) as [L|L].
  - rewrite rnd_multiple; [exact H|]. apply Z.divide_trans with (2 ^ j); [apply pow_divide; split; [apply shift_nonneg|exact L]|exact H].
  - unfold Float64.rnd, shift in *. destruct (Z.leb_spec (Zdigits2 n) prec); [lia|]. apply Z.divide_trans with (2 ^ (Zdigits2 n - prec)); [apply pow_divide; lia|apply Z.divide_factor_r]. Qed.
Lemma shift_mono n m : 0 < n -> n <= m -> shift n <= shift m.
Proof. intros Hn Hm. pose proof (Zdigits_mono n m Hn Hm). unfold shift. lia. Qed.
(** the error of one rounding: at most half a step *)
Lemma rnd_half n : 0 < n -> 2 * Z.abs (rnd n - n) <= 2 ^ shift n.
Proof. intros Hn. unfold Float64.rnd, shift. destruct (Z.leb_spec (Zdigits2 n) prec); [rewrite Z.sub_diag, Z.abs_0; apply Z.pow_nonneg; lia|].
  replace (Z.max 0 (Zdigits2 n - prec)) with (Zdigits2 n - prec) by lia. set (s := Zdigits2 n - prec). assert (0 < 2 ^ s) as Hp by (apply Z.pow_pos_nonneg; lia).
  pose proof (Z.div_mod n (2 ^ s) ltac:(lia)) as Hdm. pose proof (Z.mod_pos_bound n (2 ^ s) ltac:(lia)) as Hb. unfold rne.
  set (q := n / 2 ^ s) in *. set (r := n mod 2 ^ s) in *.
  assert (forall q', (q' = q /\ 2 * r <= 2 ^ s) \/ (q' = q + 1 /\ 2 ^ s <= 2 * r) -> 2 * Z.abs (q' * 2 ^ s - n) <= 2 ^ s) as K.
  { intros q' [[-> H1]|[-> H1]]; rewrite Hdm; [replace (q * 2 ^ s - (2 ^ s * q + r)) with (- r) by ring|replace ((q + 1) * 2 ^ s - (2 ^ s * q + r)) with (2 ^ s - r) by ring]; lia. }
  apply K. clear K. repeat match goal with |- context [?a <? ?b] => destruct (Z.ltb_spec a b) end; try destruct (Z.even _); lia. Qed.
(** two floats are at least a step apart *)
Lemma floats_apart c z : 0 < c -> rnd c = c -> rnd z = z -> c < z -> c + 2 ^ shift c <= z.
Proof. intros Hc Ec Ez H. destruct (float_multiple c Hc Ec) as [a Ea].
  assert (2 ^ shift c | z) as [b Eb]. { apply Z.divide_trans with (2 ^ shift z); [apply pow_divide; split; [apply shift_nonneg|apply shift_mono; lia]|apply float_multiple; [lia|exact Ez]]. }
  assert (0 < 2 ^ shift c) by (apply Z.pow_pos_nonneg; [lia|apply shift_nonneg]). set (S0 := 2 ^ shift c) in *. clearbody S0. clear - Ea Eb H H0. subst c z. assert (a < b) by (apply (Z.mul_lt_mono_pos_r S0); assumption). replace (a * S0 + S0) with ((a + 1) * S0) by ring. apply Z.mul_le_mono_nonneg_r; lia. Qed.
(** v + (c - v) rounds to at most the float after c *)
Lemma refill_le v c z : 0 <= v <= c -> rnd c = c -> rnd z = z -> c < z -> rnd (v + rnd (c - v)) <= z.
Proof. intros [Hv Hvc] Ec Ez H. rewrite <- Ez. apply (rnd_mono prec ltac:(lia)).
  - pose proof (rnd_nn (c - v) ltac:(lia)). lia.
  - destruct (Z.eq_dec v c) as [->|N]; [rewrite Z.sub_diag, (rnd_0 prec) by lia; lia|]. pose proof (rnd_half (c - v) ltac:(lia)) as B.
    assert (2 ^ shift (c - v) <= 2 ^ shift c) as L by (apply Z.pow_le_mono_r; [lia|apply shift_mono; lia]). pose proof (floats_apart c z ltac:(lia) Ec Ez H) as F. lia. Qed.
(** (Sterbenz) if v is at least half of c, the difference is a float *)
Lemma sub_exact v c : 0 < v -> v <= c -> c <= 2 * v -> rnd v = v -> rnd c = c -> rnd (c - v) = c - v.
Proof. intros Hv H1 H2 Ev Ec. destruct (Z.eq_dec v c) as [->|N]; [rewrite Z.sub_diag; apply (rnd_0 prec); lia|]. apply rnd_multiple.
  apply Z.divide_trans with (2 ^ shift v); [apply pow_divide; split; [apply shift_nonneg|apply shift_mono; lia]|]. apply Z.divide_sub_r; [|apply float_multiple; assumption].
  apply Z.divide_trans with (2 ^ shift c); [apply pow_divide; split; [apply shift_nonneg|apply shift_mono; lia]|apply float_multiple; [lia|exact Ec]]. Qed.
Lemma refill_exact v c : 0 < v -> v <= c -> c <= 2 * v -> rnd v = v -> rnd c = c -> rnd (v + rnd (c - v)) = c.
Proof. intros. rewrite sub_exact by assumption. replace (v + (c - v)) with c by ring. assumption. Qed.
(** otherwise the sum is at least half of c *)
Lemma refill_half v c : 0 <= v <= c -> c <= 2 * rnd (v + rnd (c - v)).
Proof. intros [Hv Hc]. pose proof (rnd_error prec ltac:(lia) (c - v) ltac:(lia)) as B1. pose proof (rnd_nn (c - v) ltac:(lia)) as B0. pose proof (rnd_error prec ltac:(lia) (v + rnd (c - v)) ltac:(lia)) as B2.
  assert (4 <= 2 ^ prec) as P4 by (change 4 with (2 ^ 2); apply Z.pow_le_mono_r; lia). set (p := 2 ^ prec) in *. clearbody p. set (r := rnd (c - v)) in *. clearbody r. set (t := rnd (v + r)) in *. clearbody t. clear - B0 B1 B2 P4 Hv Hc. nia. Qed.
Lemma rnd_pos n : 0 < n -> 0 < rnd n.
Proof. intros H. pose proof (rnd_error prec ltac:(lia) n ltac:(lia)) as B. assert (2 <= 2 ^ prec) by (change 2 with (2 ^ 1) at 1; apply Z.pow_le_mono_r; lia). nia. Qed.
Lemma rnd_idem n : 0 <= n -> rnd (rnd n) = rnd n.
Proof. intros Hn. destruct (Z.eq_dec n 0) as [->|H0]; [rewrite (rnd_0 prec) by lia; apply (rnd_0 prec); lia|]. pose proof (rnd_bounds prec ltac:(lia) n ltac:(lia)) as [B1 B2]. destruct (Zdigits_bounds n ltac:(lia)) as [_ B3].
  apply rnd_multiple. assert (0 < rnd n) as Hp by (apply rnd_pos; lia).
  destruct (Z.eq_dec (rnd n) (2 ^ Zdigits2 n)) as [E|E].
  - rewrite E. apply pow_divide. split; [apply shift_nonneg|]. unfold shift. rewrite <- (Z.mul_1_l (2 ^ Zdigits2 n)), Zdigits_shift by lia. change (Zdigits2 1) with 1. lia.
  - assert (Zdigits2 (rnd n) = Zdigits2 n) as Ed by (apply digits_unique; lia). unfold shift. rewrite Ed. unfold Float64.rnd in *. destruct (Z.leb_spec (Zdigits2 n) prec); [replace (Z.max 0 (Zdigits2 n - prec)) with 0 by lia; apply Z.divide_1_l|].
    replace (Z.max 0 (Zdigits2 n - prec)) with (Zdigits2 n - prec) by lia. apply Z.divide_factor_r. Qed.
End Step.
