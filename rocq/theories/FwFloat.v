(** Floyd-Warshall with rounded addition: how far its entries can be from the exact distances. *)
From Coq Require Import SpecFloat.
From Verif Require Import Prelude PreludeFacts Base BaseFacts BaseFacts2 BaseFacts3 Spec SpecFacts Loop SpFacts Fw FwFacts GSp GSpec GSpFacts Float64 FloatSpec.
Local Open Scope Z_scope.

Notation P := (2 ^ 53)%Z.
Notation BB := (2 ^ (1024 - SpecFloat.emin 53 1024))%Z.
Notation iv := (ival 53 1024).
Notation iadd := (Float64.iadd 53 1024).
Definition nneg (X : ext) : Prop := match X with Fin x => 0 <= x | Inf => True end.
Definition repd (D : ext) : Prop := match D with Fin d => 0 <= d < BB | Inf => True end.

Lemma pows k : 0 <= k -> 0 < P ^ k /\ 0 <= (P - 1) ^ k /\ P ^ k <= (P + 1) ^ k /\ (P - 1) ^ k <= P ^ k.
Proof. intros Hk. splits; [apply Z.pow_pos_nonneg; lia|apply Z.pow_nonneg; lia|apply Z.pow_le_mono_l; lia|apply Z.pow_le_mono_l; lia]. Qed.
Ltac abs k := set (Q := (2 ^ 53) ^ k) in *; set (Q1 := (2 ^ 53 + 1) ^ k) in *; set (Q2 := (2 ^ 53 - 1) ^ k) in *; set (b := 2 ^ (1024 - SpecFloat.emin 53 1024)) in *; clearbody Q Q1 Q2 b.
Lemma near_weak k X D : 0 <= k -> nneg X -> near_ext k X D -> near_ext (k + 1) X D.
Proof. intros Hk HX H. destruct (pows k Hk) as (P1 & P2 & P3 & P4). unfold near_ext in *. rewrite !(Z.add_1_r k), !Z.pow_succ_r by exact Hk.
  destruct X as [x|]; [|exact H]. cbn [nneg] in HX. abs k. destruct D as [d|].
  - split.
    + apply Z.le_trans with (P * (x * Q2)); [nia|]. nia.
    + apply Z.le_trans with (P * (x * Q1)); [nia|]. nia.
  - apply Z.le_trans with (P * (x * Q1)); [nia|]. nia. Qed.
Lemma near_0 X : near_ext 0 X X.
Proof. destruct X; cbn [near_ext]; [rewrite !Z.pow_0_r; lia|reflexivity]. Qed.
Lemma near_add k X1 D1 X2 D2 : 0 <= k -> nneg X1 -> nneg X2 -> repd D1 -> repd D2 -> near_ext k X1 D1 -> near_ext k X2 D2 ->
  near_ext (k + 1) (ext_add X1 X2) (iadd D1 D2).
Proof. intros Hk H1 H2 R1 R2 N1 N2. destruct (pows k Hk) as (P1 & P2 & P3 & P4).
  destruct X1 as [x1|]; cbn [near_ext] in N1; [|subst D1; reflexivity].
  destruct X2 as [x2|]; cbn [near_ext] in N2; [|subst D2; destruct D1; reflexivity].
  cbn [ext_add nneg] in *.
  assert (forall D, match D with Fin _ => True | Inf => BB * P ^ k <= (x1 + x2) * (P + 1) ^ k end -> D = Inf ->
    near_ext (k + 1) (Fin (x1 + x2)) Inf) as Hinf.
  { intros D HD ->. unfold near_ext. rewrite !(Z.add_1_r k), !Z.pow_succ_r by exact Hk. abs k. apply Z.le_trans with (P * ((x1 + x2) * Q1)); [nia|]. nia. }
  destruct D1 as [d1|]; [destruct D2 as [d2|]|]; cbn [Float64.iadd].
  2:{ apply (Hinf Inf); [|reflexivity]. cbn [near_ext] in N2. assert (0 <= x1 * (P + 1) ^ k) by (apply Z.mul_nonneg_nonneg; lia). lia. }
  2:{ apply (Hinf Inf); [|reflexivity]. cbn [near_ext] in N1. assert (0 <= x2 * (P + 1) ^ k) by (apply Z.mul_nonneg_nonneg; lia). lia. }
  clear Hinf. cbn [near_ext repd] in *. pose proof (rnd_error 53 ltac:(lia) (d1 + d2) ltac:(lia)) as [E1 E2]. set (r := rnd 53 (d1 + d2)) in *. clearbody r.
  assert (r * (P * P ^ k) <= (x1 + x2) * ((P + 1) * (P + 1) ^ k)) as U.
  { clear R1 R2. abs k.
    apply Z.le_trans with ((d1 + d2) * (P + 1) * Q); [nia|]. nia. }
  assert ((x1 + x2) * ((P - 1) * (P - 1) ^ k) <= r * (P * P ^ k)) as Lo.
  { clear R1 R2 U. abs k.
    apply Z.le_trans with ((d1 + d2) * (P - 1) * Q); [nia|]. nia. }
  unfold ovf, near_ext. rewrite !(Z.add_1_r k), !Z.pow_succ_r by exact Hk. destruct (Z.ltb_spec r BB) as [Hlt|Hge]; [auto|].
  apply Z.le_trans with (r * (P * P ^ k)); [|exact U]. apply Z.mul_le_mono_nonneg_r; [apply Z.mul_nonneg_nonneg; lia|exact Hge]. Qed.
Lemma near_min k X1 D1 X2 D2 : 0 <= k -> nneg X1 -> nneg X2 -> repd D1 -> repd D2 -> near_ext k X1 D1 -> near_ext k X2 D2 ->
  near_ext k (ext_min X1 X2) (ext_min D1 D2).
Proof. intros Hk H1 H2 R1 R2 N1 N2. destruct (pows k Hk) as (P1 & P2 & P3 & P4).
  destruct X1 as [x1|], X2 as [x2|], D1 as [d1|], D2 as [d2|]; cbn [near_ext nneg repd] in *; try discriminate N1; try discriminate N2; unfold ext_min; cbn [ext_ltb];
  repeat match goal with |- context [?a <? ?b] => destruct (Z.ltb_spec a b) end; cbn [near_ext]; auto;
  abs k; try split;
  first [exact Logic.I|nia]. Qed.


(** *** a relation between exact values and rounded values which additions and minima keep *)
Record rounding (eOK : ext -> Prop) (R : Z -> ext -> ext -> Prop) : Prop := mkRounding {
  r_base : forall X, eOK X -> R 0 X X;
  r_zero : eOK (Fin 0);
  r_inf : eOK Inf;
  r_isinf : forall k D, R k Inf D -> D = Inf;
  r_weak : forall k X D, 0 <= k -> nneg X -> R k X D -> R (k + 1) X D;
  r_add : forall k X1 D1 X2 D2, 0 <= k -> nneg X1 -> nneg X2 -> repd D1 -> repd D2 -> R k X1 D1 -> R k X2 D2 -> R (k + 1) (ext_add X1 X2) (iadd D1 D2);
  r_min : forall k X1 D1 X2 D2, 0 <= k -> nneg X1 -> nneg X2 -> repd D1 -> repd D2 -> R k X1 D1 -> R k X2 D2 -> R k (ext_min X1 X2) (ext_min D1 D2);
  r_sand : forall k x y D D' l, 0 <= k -> 0 <= x <= y -> repd D -> repd D' -> R k (Fin x) D' -> ext_le D D' -> R k (Fin y) (Fin l) -> ext_le (Fin l) D -> R k (Fin x) D }.
Lemma near_sand k x y D D' l : 0 <= k -> 0 <= x <= y -> repd D -> repd D' -> near_ext k (Fin x) D' -> ext_le D D' -> near_ext k (Fin y) (Fin l) -> ext_le (Fin l) D -> near_ext k (Fin x) D.
Proof. intros Hk Hx R1 R2 N1 Hle N2 Hge. destruct (pows k Hk) as (P1 & P2 & P3 & P4). destruct D as [d|], D' as [d'|]; cbn [near_ext repd ext_le] in *; try tauto; abs k; try split; nia. Qed.
Lemma near_rounding : rounding (fun _ => True) near_ext.
Proof. constructor; auto.
  - intros X _. apply near_0.
  - apply near_weak.
  - apply near_add.
  - apply near_min.
  - apply near_sand. Qed.

(** values that are multiples of 2^j keep exact as long as they do not exceed 2^53 2^j *)
Definition mult (j : Z) (X : ext) : Prop := match X with Fin x => exists m, 0 <= m /\ x = m * 2 ^ j | Inf => True end.
Definition exact_rel (j : Z) (_ : Z) (X D : ext) : Prop :=
  match X with
  | Inf => D = Inf
  | Fin x => mult j (Fin x) /\ (x <= 2 ^ 53 * 2 ^ j -> D = Fin x) /\ (2 ^ 53 * 2 ^ j <= x -> match D with Fin d => 2 ^ 53 * 2 ^ j <= d | Inf => True end)
  end.
Lemma rnd_mult j m : 0 <= j -> 0 <= m <= 2 ^ 53 -> rnd 53 (m * 2 ^ j) = m * 2 ^ j.
Proof. intros Hj Hm. destruct (Z.eq_dec m 0) as [->|H0]; [rewrite Z.mul_0_l; apply rnd_0; lia|]. destruct (Z.eq_dec m (2 ^ 53)) as [->|H1].
  - replace (2 ^ 53 * 2 ^ j) with (2 ^ 52 * 2 ^ (j + 1)); [apply rnd_exact; try lia; vm_compute; discriminate|]. rewrite Z.pow_add_r by lia. ring.
  - apply rnd_exact; try lia. destruct (Zdigits_bounds m ltac:(lia)) as [[B1 _] B3]. destruct (Z.le_gt_cases (Zdigits2 m) 53) as [|C]; [assumption|exfalso].
    assert (2 ^ 53 <= 2 ^ (Zdigits2 m - 1)) by (apply Z.pow_le_mono_r; lia). lia. Qed.
Section Mult.
Context (j : Z) (Hj : 0 <= j < 2045).
Let T := 2 ^ 53 * 2 ^ j.
Lemma T_pos : 0 < 2 ^ j.
Proof. apply Z.pow_pos_nonneg; lia. Qed.
Lemma T_BB : 2 ^ 53 * 2 ^ j < BB.
Proof. rewrite <- Z.pow_add_r by lia. apply Z.pow_lt_mono_r; [lia| |].
  - change (SpecFloat.emin 53 1024) with (-1074). lia.
  - change (SpecFloat.emin 53 1024) with (-1074). lia. Qed.
Lemma exact_add k X1 D1 X2 D2 : 0 <= k -> nneg X1 -> nneg X2 -> repd D1 -> repd D2 -> exact_rel j k X1 D1 -> exact_rel j k X2 D2 -> exact_rel j (k + 1) (ext_add X1 X2) (iadd D1 D2).
Proof. intros Hk N1 N2 R1 R2 H1 H2. pose proof T_pos as TP. pose proof T_BB as TB. fold T in TB.
  destruct X1 as [x1|]; cbn [exact_rel] in H1; [|subst D1; reflexivity].
  destruct X2 as [x2|]; cbn [exact_rel] in H2; [|subst D2; destruct D1; reflexivity].
  destruct H1 as ((m1 & M1 & ->) & A1 & B1), H2 as ((m2 & M2 & ->) & A2 & B2). cbn [ext_add exact_rel nneg] in *. fold T in A1, A2, B1, B2 |- *.
  assert (0 < 2 ^ 53) as P53 by lia.
  split; [exists (m1 + m2); split; [lia|ring]|]. split.
  - intros Hle. rewrite A1, A2 by nia. cbn [Float64.iadd]. replace (m1 * 2 ^ j + m2 * 2 ^ j) with ((m1 + m2) * 2 ^ j) in * by ring.
    rewrite rnd_mult; [|lia|unfold T in Hle; nia]. unfold ovf. destruct (Z.ltb_spec ((m1 + m2) * 2 ^ j) BB) as [|C]; [reflexivity|exfalso]. lia.
  - intros Hge. destruct D1 as [d1|]; [destruct D2 as [d2|]|]; cbn [Float64.iadd]; try exact Logic.I. cbn [repd] in *.
    assert (T <= d1 + d2) as Hd.
    { destruct (Z.le_gt_cases T (m1 * 2 ^ j)) as [C|C]; [specialize (B1 C); lia|]. specialize (A1 ltac:(lia)).
      destruct (Z.le_gt_cases T (m2 * 2 ^ j)) as [C'|C']; [specialize (B2 C'); lia|]. specialize (A2 ltac:(lia)). inv A1. inv A2. lia. }
    unfold ovf. destruct (Z.ltb_spec (rnd 53 (d1 + d2)) BB); [|exact Logic.I].
    unfold T in *. rewrite <- (rnd_mult j (2 ^ 53)) by lia. apply rnd_mono; lia. Qed.
Lemma exact_min k X1 D1 X2 D2 : 0 <= k -> nneg X1 -> nneg X2 -> repd D1 -> repd D2 -> exact_rel j k X1 D1 -> exact_rel j k X2 D2 -> exact_rel j k (ext_min X1 X2) (ext_min D1 D2).
Proof. intros Hk N1 N2 R1 R2 H1 H2. unfold exact_rel in *. fold T in H1, H2 |- *. clearbody T.
  destruct X1 as [x1|], X2 as [x2|]; [| | |subst; reflexivity].
  - destruct H1 as (M1 & A1 & B1), H2 as (M2 & A2 & B2). unfold ext_min at 1. cbn [ext_ltb]. destruct (Z.ltb_spec x2 x1) as [C|C]; (split; [assumption|]).
    + split.
      * intros Hle. rewrite A2 by exact Hle. destruct D1 as [d1|]; [|reflexivity]. unfold ext_min. cbn [ext_ltb]. destruct (Z.ltb_spec x2 d1) as [|C']; [reflexivity|].
        destruct (Z.le_gt_cases x1 T) as [C2|C2]; [specialize (A1 C2); inv A1; lia|]. specialize (B1 ltac:(lia)). f_equal; lia.
      * intros Hge. specialize (B2 Hge). specialize (B1 ltac:(lia)). destruct D1, D2; unfold ext_min; cbn [ext_ltb]; repeat match goal with |- context [?a <? ?b] => destruct (Z.ltb_spec a b) end; auto.
    + split.
      * intros Hle. rewrite A1 by exact Hle. destruct D2 as [d2|]; [|reflexivity]. unfold ext_min. cbn [ext_ltb]. destruct (Z.ltb_spec d2 x1) as [C'|]; [|reflexivity].
        destruct (Z.le_gt_cases x2 T) as [C2|C2]; [specialize (A2 C2); inv A2; lia|]. specialize (B2 ltac:(lia)). f_equal; lia.
      * intros Hge. specialize (B1 Hge). specialize (B2 ltac:(lia)). destruct D1, D2; unfold ext_min; cbn [ext_ltb]; repeat match goal with |- context [?a <? ?b] => destruct (Z.ltb_spec a b) end; auto.
  - subst D2. replace (ext_min D1 Inf) with D1 by (destruct D1; reflexivity). exact H1.
  - subst D1. replace (ext_min Inf D2) with D2 by (destruct D2; reflexivity). exact H2. Qed.
Lemma exact_sand k x y D D' l : 0 <= k -> 0 <= x <= y -> repd D -> repd D' -> exact_rel j k (Fin x) D' -> ext_le D D' -> exact_rel j k (Fin y) (Fin l) -> ext_le (Fin l) D -> exact_rel j k (Fin x) D.
Proof. intros Hk Hx R1 R2 (M1 & A1 & B1) Hle (M2 & A2 & B2) Hl. unfold exact_rel. fold T in A1, A2, B1, B2 |- *. clearbody T. splits; auto.
  - intros Hxt. rewrite (A1 Hxt) in Hle. destruct D as [d|]; [|destruct Hle]. cbn in Hle, Hl. f_equal. destruct (Z.le_gt_cases y T) as [C|C]; [specialize (A2 C); inv A2; lia|]. specialize (B2 ltac:(lia)). lia.
  - intros Hge. specialize (B2 ltac:(lia)). destruct D as [d|]; [cbn in Hl; lia|exact Logic.I]. Qed.
Lemma exact_rounding : rounding (mult j) (exact_rel j).
Proof. constructor.
  - intros [x|] HX; cbn [exact_rel]; [|reflexivity]. splits; auto.
  - exists 0. lia.
  - exact Logic.I.
  - auto.
  - auto.
  - apply exact_add.
  - apply exact_min.
  - apply exact_sand. Qed.
End Mult.

Section F.
Context {A O : Type} {EA : EqDec A} (g : graph A O spec_float) (R : reachable g) (G : good_edges f64_good g).
Context (eOK : ext -> Prop) (RR : Z -> ext -> ext -> Prop) (HR : rounding eOK RR) (HE : forall a b w, edge g a b = Some w -> eOK (ival 53 1024 w)).
Notation fgood := (Float64.fgood 53 1024).
Definition gmat {W} (vs : list A) (f : A -> A -> W) : dict A (dict A W) := map (fun v1 => (v1, map (fun v3 => (v3, f v1 v3)) vs)) vs.
Lemma gmget_gmat {W} (ar : arith W) vs f a b : In a vs -> In b vs -> gmget ar (gmat vs f) a b = f a b.
Proof. intros Ha Hb. unfold gmget, eget, gmat. rewrite (dget_map (fun v1 => map (fun v3 => (v3, f v1 v3)) vs) vs a Ha). rewrite (dget_map (f a) vs b Hb). reflexivity. Qed.
Lemma iv_rep x : fgood x -> repd (iv x).
Proof. intros Gx. pose proof (ival_rep 53 1024 ltac:(lia) ltac:(lia) x Gx) as H. destruct (iv x) as [n|]; [|exact Logic.I]. destruct H as (H1 & _ & H3). split; [exact H1|].
  unfold ovf in H3. destruct (Z.ltb_spec n BB) as [C|C]; [exact C|discriminate]. Qed.

Lemma fw_float_loop vs : forall l (k : Z) (F : A -> A -> ext) (f : A -> A -> spec_float), incl l vs -> 0 <= k ->
  (forall a b, In a vs -> In b vs -> nneg (F a b) /\ fgood (f a b) /\ RR k (F a b) (iv (f a b))) ->
  exists F' f', fold_left (fw_round vs) l (mat vs F) = mat vs F' /\ fold_left (gfw_round f64 vs) l (gmat vs f) = gmat vs f' /\
    forall a b, In a vs -> In b vs -> nneg (F' a b) /\ fgood (f' a b) /\ RR (k + Z.of_nat (length l)) (F' a b) (iv (f' a b)).
Proof. induction l as [|v l IH]; intros k F f Hl Hk H; cbn [fold_left].
  - exists F, f. splits; auto. cbn. rewrite Z.add_0_r. exact H.
  - assert (In v vs) as Hv by (apply Hl; cbn; auto).
    assert (fw_round vs (mat vs F) v = mat vs (fun a b => ext_min (F a b) (ext_add (F a v) (F v b)))) as ->.
    { unfold fw_round. apply map_ext_in. intros a Ha. f_equal. apply map_ext_in. intros b Hb. rewrite !mget_mat by assumption. reflexivity. }
    assert (gfw_round f64 vs (gmat vs f) v = gmat vs (fun a b => if a_ltb f64 (a_add f64 (f a v) (f v b)) (f a b) then a_add f64 (f a v) (f v b) else f a b)) as ->.
    { unfold gfw_round. apply map_ext_in. intros a Ha. f_equal. apply map_ext_in. intros b Hb. rewrite !gmget_gmat by assumption. reflexivity. }
    edestruct (IH (k + 1)) as (F' & f' & E1 & E2 & H'); [intros x Hx; apply Hl; cbn; auto|lia| |].
    2:{ exists F', f'. split; [exact E1|]. split; [exact E2|]. cbn [length]. replace (k + Z.of_nat (S (length l))) with (k + 1 + Z.of_nat (length l)) by lia. exact H'. }
    intros a b Ha Hb. cbv beta. destruct (H a b Ha Hb) as (X1 & G1 & N1). destruct (H a v Ha Hv) as (X2 & G2 & N2). destruct (H v b Hv Hb) as (X3 & G3 & N3).
    change (a_add f64) with (SFadd 53 1024). change (a_ltb f64) with SFltb.
    destruct (add_spec 53 1024 ltac:(lia) ltac:(lia) _ _ G2 G3) as [G4 E4]. set (s := SFadd 53 1024 (f a v) (f v b)) in *. clearbody s.
    assert (iv (if SFltb s (f a b) then s else f a b) = ext_min (iv (f a b)) (iv s)) as E5.
    { rewrite (ltb_spec 53 1024 ltac:(lia) _ _ G4 G1). unfold ext_min. destruct (ext_ltb (iv s) (iv (f a b))); reflexivity. }
    assert (nneg (ext_add (F a v) (F v b))) as X4 by (destruct (F a v), (F v b); cbn in *; auto; lia).
    splits.
    + unfold ext_min. destruct (ext_ltb _ _); assumption.
    + destruct (SFltb s (f a b)); assumption.
    + rewrite E5. apply (r_min _ _ HR); auto; [lia|apply iv_rep, G1|apply iv_rep, G4|apply (r_weak _ _ HR); auto|].
      rewrite E4. apply (r_add _ _ HR); auto; apply iv_rep; assumption. Qed.

Lemma fin_edge_nneg u v z : fin_edge g u v = Some z -> 0 <= z.
Proof. unfold fin_edge. destruct (edge g u v) as [w|] eqn:E; [|discriminate]. intros H. pose proof (iv_rep w (G _ _ _ E)) as Hw. destruct (iv w); inv H. apply Hw. Qed.
Lemma fin_wpath_nneg a p b z : wpath (fin_edge g) a p b z -> 0 <= z.
Proof. intros H. induction H as [|a b p c w d He _ IH]; [lia|]. pose proof (fin_edge_nneg _ _ _ He). lia. Qed.
Lemma fw_float : exists f, gall_pairs_shortest_paths f64 g = gmat (nodes g) f /\ forall a b, In a (nodes g) -> In b (nodes g) ->
  exists X, dist (fin_edge g) a b X /\ fgood (f a b) /\ RR (Z.of_nat (length (nodes g))) X (iv (f a b)).
Proof. pose (F0 := fun a b => if eq_dec a b then Fin 0 else match fin_edge g a b with Some w => Fin w | None => Inf end).
  pose (f0 := fun a b => if eq_dec a b then S754_zero false else match edge g a b with Some w => w | None => S754_infinity false end).
  assert (no_neg_cycle (fin_edge g)) as Hc by (intros a p d Hp; eapply fin_wpath_nneg; eauto).
  destruct (fw_loop (fin_edge g) (nodes g) Hc (nodes g) [] F0) as (F1 & E1 & HI); [intros x Hx; exact Hx| |].
  { intros a b Ha Hb. unfold F0. destruct (eq_dec a b) as [->|Hab].
    - split; [intros z Ez; inv Ez; exists [b]; constructor|]. intros d Hd. destruct (via_wpath _ _ _ _ _ Hd) as (p & Hp). cbn. eapply Hc; eauto.
    - split.
      + intros z. destruct (fin_edge g a b) as [w|] eqn:Ew; [|discriminate]. intros Ez. inv Ez. exists [a; b]. rewrite <- (Z.add_0_r z). econstructor; [exact Ew|constructor].
      + intros d Hd. inversion Hd as [|? ? ? He|? ? ? ? ? ? []]; subst; [congruence|]. rewrite He. apply ext_le_refl. }
  destruct (fw_float_loop (nodes g) (nodes g) 0 F0 f0) as (F2 & f & E2 & E3 & H); [intros x Hx; exact Hx|lia| |].
  { intros a b Ha Hb. unfold F0, f0, fin_edge. destruct (eq_dec a b) as [->|Hab].
    - splits; [cbn; lia|split; [reflexivity|exact Logic.I]|apply (r_base _ _ HR), (r_zero _ _ HR)].
    - destruct (edge g a b) as [w|] eqn:E.
      + pose proof (G _ _ _ E) as Gw. pose proof (iv_rep w Gw) as Rw. pose proof (HE _ _ _ E) as Hw. destruct (iv w) as [z|] eqn:Ez; (splits; [|exact Gw|apply (r_base _ _ HR), Hw]).
        * apply Rw.
        * exact Logic.I.
      + splits; [exact Logic.I|split; reflexivity|apply (r_base _ _ HR), (r_inf _ _ HR)]. }
  exists f. split.
  - unfold gall_pairs_shortest_paths. assert (gadjacency_matrix f64 g = gmat (nodes g) f0) as -> by reflexivity.
    assert (dkeys (gmat (nodes g) f0) = nodes g) as -> by apply dkeys_map. exact E3.
  - intros a b Ha Hb. destruct (H a b Ha Hb) as (X1 & X2 & X3). rewrite Z.add_0_l in X3. exists (F2 a b). split; [|auto].
    assert (F2 a b = F1 a b) as ->. { rewrite <- (mget_mat (nodes g) F2 a b Ha Hb), <- (mget_mat (nodes g) F1 a b Ha Hb). congruence. }
    destruct (HI a b Ha Hb) as [H1 H2]. rewrite app_nil_r in H2.
    assert (forall p d, wpath (fin_edge g) a p b d -> ext_le (F1 a b) (Fin d)) as H3.
    { intros p d Hp. apply H2. eapply wpath_via; [|exact Hp]. intros x y w He. rewrite <- in_rev. unfold fin_edge in He.
      destruct (edge g x y) as [w'|] eqn:Ew; [|discriminate]. apply (edge_nodes g x y w' (reachable_wf _ R) Ew). }
    destruct (F1 a b) as [z|] eqn:Ef.
    + split; [apply H1; reflexivity|]. intros p z' Hp. apply (H3 _ _ Hp).
    + intros p z Hp. apply (H3 _ _ Hp). Qed.
End F.
