(** C96: maximum_flow when the capacities are floats. *)
From Coq Require Import ZArith SpecFloat.
From Verif Require Import Prelude PreludeFacts Base BaseFacts BaseFacts2 BaseFacts3 Spec SpecFacts Loop SearchFacts BaseAlgFacts FlowSpec FlowFacts Flow MaxFlowFacts
  GSp GSpec GSpFacts Float64 FloatExact FloatSigned FloatStep GCpmSpec CpmFloat PropsFloat PropsFlowFloat GFlow GFlowFacts GFlowSpec FlowFloat FlowFloat2 FlowFloat3.
Local Open Scope Z_scope.

(** ** numbers *)
Lemma sub_chain pfs : forall v, f64_good v -> (forall w, In w pfs -> finite_amount w) -> SFeqb (fold_left fsub pfs v) f0 = true ->
  finite_amount v /\ nearly (Z.of_nat (length pfs)) (units v) (sumZ pfs units) (units v).
Proof. assert (forall l x, num x -> (forall w, In w l -> finite_amount w) -> num (fold_left fsub l x) /\ val (fold_left fsub l x) <= val x) as Mono.
  { induction l as [|p l IH]; intros x Nx Hl; cbn [fold_left]; [split; [exact Nx|lia]|]. assert (finite_amount p) as Hp by (apply Hl; cbn; auto). destruct (IH (fsub x p)) as [K1 K2]; [apply fsub_num; auto|intros; apply Hl; cbn; auto|]. split; [exact K1|].
    eapply Z.le_trans; [exact K2|apply fsub_infl; auto]. }
  induction pfs as [|p pfs IH]; intros v Gv Hp E; cbn [fold_left length sumZ] in *.
  - apply eq_zero in E; [|exact Gv]. destruct E as [E1 E2]. split; [exact E1|]. unfold nearly. rewrite E2. cbn; lia.
  - assert (finite_amount p) as Fp by (apply Hp; cbn; auto). assert (forall w, In w pfs -> finite_amount w) as Hp' by (intros; apply Hp; cbn; auto). pose proof (good_num v Gv) as Nv.
    pose proof (fsub_num v p Nv Fp) as N1. destruct (Mono pfs _ N1 Hp') as [N2 M2]. assert (val (fold_left fsub pfs (fsub v p)) = 0) as E0.
    { set (w := fold_left _ _ _) in *. clearbody w. clear - E N2. destruct w as [b|b| |b m k]; cbn in E; try discriminate; [reflexivity| |]; destruct b; discriminate. }
    rewrite E0 in M2. pose proof (num_good _ N1 M2) as G1. destruct (IH _ G1 Hp' E) as [F1 Nr].
    assert (finite_amount v) as Fv.
    { destruct v as [b|b| |b m k]; try (split; [exact Gv|eexists; reflexivity]).
      - exfalso. pose proof (proj2 Gv) as Gs. cbn in Gs. subst b. destruct F1 as [_ (z & Ez)]. clear - Ez Fp. destruct Fp as [_ (y & Ey)]. destruct p as [b|b| |b m k]; try discriminate.
      - exfalso. exact (proj2 Gv). }
    split; [exact Fv|]. destruct (sub_val v p Fv Fp) as [_ Ev]. destruct (fa_facts _ F1) as (_ & _ & P1 & _ & _ & X1). rewrite X1 in Ev. destruct (fa_facts v Fv) as (_ & _ & Pv & Rv & _). destruct (fa_facts p Fp) as (_ & _ & Pp & _).
    pose proof (srnd_error 53 ltac:(lia) (units v - units p)) as B. rewrite <- Ev in B. set (u1 := units (fsub v p)) in *. clearbody u1.
    assert (units p <= units v) as L.
    { destruct (Z.le_gt_cases (units p) (units v)) as [L|L]; [exact L|exfalso]. unfold srnd in Ev. destruct (Z.ltb_spec (units v - units p) 0); [|lia]. pose proof (rnd_pos 53 ltac:(lia) (- (units v - units p)) ltac:(lia)). lia. }
    assert (u1 <= units v) as L1. { rewrite <- Rv. unfold srnd in Ev. destruct (Z.ltb_spec (units v - units p) 0); [lia|]. rewrite Ev. apply (rnd_mono 53 ltac:(lia)); lia. }
    unfold nearly in *. rewrite Nat2Z.inj_succ. set (T := sumZ pfs units) in *. clearbody T. set (k := Z.of_nat (length pfs)) in *. assert (0 <= k) as Hk by lia. clearbody k. set (a := units v) in *. set (q := units p) in *. clearbody a q. clear - B Nr P1 Pv Pp L L1 Hk.
    assert (Z.abs (a - (q + T)) <= Z.abs (u1 - (a - q)) + Z.abs (u1 - T)) as Tr by lia. rewrite (Z.abs_eq (a - q)) in B by lia. assert (0 < 2 ^ 53) as P2 by reflexivity. set (D := 2 ^ 53) in *. clearbody D.
    assert (D * Z.abs (a - (q + T)) <= D * (Z.abs (u1 - (a - q)) + Z.abs (u1 - T))) as T2 by (apply Z.mul_le_mono_nonneg_l; lia). rewrite Z.mul_add_distr_l in T2. assert (k * u1 <= k * a) by (apply Z.mul_le_mono_nonneg_l; lia). lia. Qed.

(** sum() from left to right *)
Definition sum64 (l : list spec_float) : spec_float := fold_left fadd l f0.
(** sums of multiples of 2^j up to 2^(j+53) are exact *)
Definition sums_exactly (sumf : list spec_float -> spec_float) (j : Z) : Prop := forall l, (forall w, In w l -> finite_amount w /\ (2 ^ j | units w)) -> sumZ l units <= 2 ^ (j + 53) ->
  finite_amount (sumf l) /\ units (sumf l) = sumZ l units.
Lemma sum64_good l : forall v, f64_good v -> (forall x, In x l -> f64_good x) -> f64_good (fold_left fadd l v).
Proof. induction l as [|x l IH]; intros v Gv H; cbn [fold_left]; [exact Gv|]. apply IH; [|intros; apply H; cbn; auto]. apply (add_spec 53 1024 ltac:(lia) ltac:(lia)); [exact Gv|apply H; cbn; auto]. Qed.
Lemma sum64_sums : sums sum64.
Proof. intros l H. split; [apply sum64_good; auto; apply zero_fa|]. intros Hz. unfold sum64. apply (eq_zero _ (sum64_good l f0 (proj1 (proj1 zero_fa)) H)).
  assert (forall v, finite_amount v -> units v = 0 -> finite_amount (fold_left fadd l v) /\ units (fold_left fadd l v) = 0) as K; [|apply K; apply zero_fa].
  induction l as [|x l IH]; intros v Fv Ev; cbn [fold_left]; [auto|]. assert (finite_amount x /\ units x = 0) as [Fx Ex] by (apply eq_zero; [apply H|apply Hz]; cbn; auto).
  destruct (add_fa v x Fv Fx) as [K1 K2]; [rewrite Ev, Ex; rewrite rnd_0 by lia; reflexivity|]. apply IH; [intros; apply H; cbn; auto|intros; apply Hz; cbn; auto|exact K1|]. rewrite K2, Ev, Ex. apply rnd_0; lia. Qed.
Lemma sum64_exact j : 0 <= j <= 1974 -> sums_exactly sum64 j.
Proof. intros Hj. intros l Hl HB. unfold sum64. assert (forall v, finite_amount v -> (2 ^ j | units v) -> units v + sumZ l units <= 2 ^ (j + 53) -> finite_amount (fold_left fadd l v) /\ units (fold_left fadd l v) = units v + sumZ l units) as K.
  { clear HB. induction l as [|x l IH]; intros v Fv Dv B; cbn [fold_left sumZ] in *; [rewrite Z.add_0_r; auto|]. destruct (Hl x (or_introl eq_refl)) as [Fx Dx]. destruct (fa_facts v Fv) as (_ & _ & Pv & _). destruct (fa_facts x Fx) as (_ & _ & Px & _).
    assert (0 <= sumZ l units) as Ps by (apply sumZ_nonneg; intros w Hw; apply fa_facts, Hl; cbn; auto).
    assert (rnd64 (units v + units x) = units v + units x) as Er by (apply (rnd_fit j); [lia| |apply Z.divide_add_r; auto]; set (BB := 2 ^ (j + 53)) in *; clearbody BB; lia).
    destruct (add_fa v x Fv Fx) as [K1 K2].
    { rewrite Er. assert (2 ^ (j + 53) <= 2 ^ 2027) as L by (apply Z.pow_le_mono_r; lia). eapply Z.le_lt_trans; [|apply exponents_small]. eapply Z.le_trans; [|exact L]. set (BB := 2 ^ (j + 53)) in *. clearbody BB. clear - B Ps. lia. }
    rewrite Er in K2. destruct (IH (fun w Hw => Hl w (or_intror Hw)) (fadd v x) K1) as [K3 K4]; [rewrite K2; apply Z.divide_add_r; auto|rewrite K2; set (BB := 2 ^ (j + 53)) in *; clearbody BB; lia|]. split; [exact K3|]. rewrite K4, K2. lia. }
  destruct zero_fa as [Z1 Z2]. destruct (K f0 Z1) as [K1 K2]; [rewrite Z2; exists 0; reflexivity|rewrite Z2; exact HB|]. split; [exact K1|]. rewrite K2, Z2. reflexivity. Qed.

Lemma nearly_sum {B} (l : list B) k f h : (forall y, nearly k (f y) (h y) (f y)) -> nearly k (sumZ l f) (sumZ l h) (sumZ l f).
Proof. unfold nearly. intros H. assert (0 < 2 ^ 53) as P2 by reflexivity. set (D := 2 ^ 53) in *. clearbody D. induction l as [|y l IH]; cbn [sumZ]; [cbn; lia|]. specialize (H y).
  assert (Z.abs (f y + sumZ l f - (h y + sumZ l h)) <= Z.abs (f y - h y) + Z.abs (sumZ l f - sumZ l h)) as T by lia.
  assert (D * Z.abs (f y + sumZ l f - (h y + sumZ l h)) <= D * (Z.abs (f y - h y) + Z.abs (sumZ l f - sumZ l h))) as T2 by (apply Z.mul_le_mono_nonneg_l; lia). lia. Qed.
Lemma nearly_tri k a b c : nearly k a c a -> nearly k b c b -> nearly k a b (a + b).
Proof. unfold nearly. intros H1 H2. assert (0 < 2 ^ 53) as P2 by reflexivity. set (D := 2 ^ 53) in *. clearbody D. assert (Z.abs (a - b) <= Z.abs (a - c) + Z.abs (b - c)) as T by lia.
  assert (D * Z.abs (a - b) <= D * (Z.abs (a - c) + Z.abs (b - c))) as T2 by (apply Z.mul_le_mono_nonneg_l; lia). lia. Qed.

Section Main.
Context {A O : Type} {EA : EqDec A}.
Notation graph := (graph A O spec_float).
Implicit Types (g fg : graph) (s e x y : A).
(** the numbers on the edges that leave s / enter e *)
Definition capacities_from g s : list spec_float := map snd (edges_from g s).
Definition capacities_to g e : list spec_float := map snd (edges_to g e).
Lemma caps_dict (d : dict A spec_float) (N : list A) : NoDup N -> NoDup (dkeys d) -> incl (dkeys d) N ->
  sumZ (map snd d) units = sumZ N (fun y => match dget y d with Some c => units c | None => 0 end).
Proof. intros HN Hd Hi. set (d2 := map (fun kv : A * spec_float => (fst kv, units (snd kv))) d). assert (dkeys d2 = dkeys d) as Ek by (unfold d2, dkeys; rewrite map_map; reflexivity).
  transitivity (sumZ d2 snd). { unfold d2. rewrite !sumZ_map. reflexivity. } rewrite <- (sum_dict N d2) by (try rewrite Ek; auto). apply sumZ_ext. intros y _.
  assert (dget y d2 = match dget y d with Some c => Some (units c) | None => None end) as ->; [|destruct (dget y d); reflexivity].
  unfold d2. clear. induction d as [|[k v] d IH]; cbn [map dget fst snd]; [reflexivity|]. destruct (eq_dec y k); [reflexivity|exact IH]. Qed.
Lemma sum_from g s : wf g -> sumZ (capacities_from g s) units = exact_out g g s.
Proof. intros HW. unfold capacities_from, edges_from. rewrite map_map. cbn [snd]. rewrite (caps_dict _ (nodes g)).
  - apply sumZ_ext. intros y _. unfold exact_amount, edge. rewrite eget_inner. reflexivity.
  - apply HW.
  - apply nwf_inner_nd, HW.
  - intros y Hy; apply (In_nodes_from g s y HW) in Hy; destruct Hy as (v & Hv); apply (edge_nodes g s y v HW Hv). Qed.
Lemma sum_to g s : wf g -> sumZ (capacities_to g s) units = exact_in g g s.
Proof. intros HW. unfold capacities_to, edges_to. rewrite map_map. cbn [snd]. rewrite (caps_dict _ (nodes g)).
  - apply sumZ_ext. intros y _. unfold exact_amount, edge. rewrite (wf_mirror g HW), eget_inner. reflexivity.
  - apply HW.
  - apply nwf_inner_nd, HW.
  - intros y Hy; apply (In_nodes_to g y s HW) in Hy; destruct Hy as (v & Hv); apply (edge_nodes g y s v HW Hv). Qed.
(** m is the smaller of the two sums *)
Definition smaller_sum (sumf : list spec_float -> spec_float) g s e (m : spec_float) : Prop :=
  (m = sumf (capacities_from g s) \/ m = sumf (capacities_to g e)) /\ SFltb (sumf (capacities_from g s)) m = false /\ SFltb (sumf (capacities_to g e)) m = false.
Lemma caps_good g s : reachable g -> capacities g -> (forall c, In c (capacities_from g s) -> exists y, edge g s y = Some c /\ finite_amount c) /\ (forall c, In c (capacities_to g s) -> exists y, edge g y s = Some c /\ finite_amount c).
Proof. intros Rg Hcap. pose proof (reachable_wf _ Rg) as HW. split; intros c Hc; apply in_map_iff in Hc; destruct Hc as (ed & <- & Hed).
  - apply (In_edges_from g s _ HW) in Hed. destruct Hed as (y & v & -> & Ev). exists y. split; [exact Ev|apply (Hcap _ _ _ Ev)].
  - apply (In_edges_to g s _ HW) in Hed. destruct Hed as (y & v & -> & Ev). exists y. split; [exact Ev|apply (Hcap _ _ _ Ev)]. Qed.
Lemma first_smaller sumf g s e : sums sumf -> reachable g -> capacities g -> smaller_sum sumf g s e (first_unassigned sumf g s e) /\ f64_good (first_unassigned sumf g s e).
Proof. intros Hsum Rg Hcap. unfold first_unassigned. fold (capacities_from g s) (capacities_to g e). unfold smaller_sum, pmin. change (a_ltb f64) with SFltb.
  destruct (Hsum (capacities_from g s)) as [G1 _]; [intros c Hc; apply (caps_good g s Rg Hcap) in Hc; destruct Hc as (y & _ & K); apply K|]. destruct (Hsum (capacities_to g e)) as [G2 _]; [intros c Hc; apply (caps_good g e Rg Hcap) in Hc; destruct Hc as (y & _ & K); apply K|].
  set (a := sumf (capacities_from g s)) in *. set (b := sumf (capacities_to g e)) in *. clearbody a b. pose proof (good_num _ G1) as N1. pose proof (good_num _ G2) as N2. destruct (SFltb b a) eqn:E; splits; auto; rewrite lt_val in * by auto; rewrite ?Z.ltb_lt, ?Z.ltb_ge in *; lia. Qed.

Theorem C96_float_flow_partial sumf g s e : sums sumf -> reachable g -> capacities g -> In s (nodes g) -> In e (nodes g) -> s <> e ->
  exists total fg k, returns (fun n => gmaximum_flow f64 fsub finv sumf n g s e) (Ok (total, fg)) /\ reachable fg /\ finite_amount total /\ 0 <= k <= 2 * Z.of_nat (length (edges g)) /\
    (forall x y v, edge fg x y = Some v -> exists c, edge g x y = Some c /\ finite_amount v /\ 0 < units v /\ (forall z, finite_amount z -> units c < units z -> units v <= units z)) /\
    (forall x, x <> s -> x <> e -> nearly k (exact_out g fg x) (exact_in g fg x) (exact_out g fg x + exact_in g fg x)) /\
    nearly k (units total) (exact_out g fg s) (units total + exact_out g fg s) /\ exact_in g fg s = 0 /\
    nearly k (units total) (exact_in g fg e) (units total + exact_in g fg e) /\ exact_out g fg e = 0 /\
    ((exists m, smaller_sum sumf g s e m /\ finite_amount m /\ nearly k (units total) (units m) (units total + units m)) \/ ~ reach (room g fg) s e).
Proof. intros Hsum Rg Hcap Hs He Hse. destruct (maximum_flow_floats sumf Hsum g s e Rg Hcap) as (r & Hr & u & t & fg & F & X & pfs & -> & Rf & EF & HB & Hstop); auto; try (apply contains_In; assumption).
  destruct HB as (HS & Eu & Et & Hw & Hpfs & Ht & Bt & Nt & NX & PX & ZX & Cons & C1 & C2 & C3 & C4 & _).
  set (k := Z.of_nat (length pfs)) in *. assert (forall x y, exact_amount fg x y = fu F x y) as Ea by (intros x y; unfold exact_amount, fu; rewrite EF; reflexivity).
  assert (forall x, nearly k (exact_out g fg x) (sumZ (nodes g) (fun y => X x y)) (exact_out g fg x)) as No.
  { intros x. unfold exact_out. rewrite (sumZ_ext _ _ (fun y => fu F x y)) by (intros; apply Ea). apply nearly_sum. intros y. apply NX. }
  assert (forall x, nearly k (exact_in g fg x) (sumZ (nodes g) (fun y => X y x)) (exact_in g fg x)) as Ni.
  { intros x. unfold exact_in. rewrite (sumZ_ext _ _ (fun y => fu F y x)) by (intros; apply Ea). apply nearly_sum. intros y. apply NX. }
  assert (forall x (f : A -> Z), (forall y, 0 <= f y) -> sumZ (nodes g) f = 0 -> In x (nodes g) -> f x = 0) as Hz.
  { intros x f Hf. clear - Hf. induction (nodes g) as [|z l IH]; [intros _ []|]. cbn [sumZ]. intros E0 [->|Hi]; pose proof (sumZ_nonneg l f (fun w _ => Hf w)) as Ps; pose proof (Hf x); [lia|]. apply IH; [|exact Hi]. specialize (Hf z). lia. }
  exists t, fg, k. splits; auto; try lia.
  - intros x y v Ev. rewrite EF in Ev. destruct (HS _ _ _ Ev) as (c & Ec & Pc & Fv & Pv & _ & Nv). exists c. splits; auto. intros z Fz Lz. apply Nv; [apply fa_facts, Fz|exact Lz].
  - intros x N1 N2. apply (nearly_tri _ _ _ (sumZ (nodes g) (fun y => X x y))); [apply No|rewrite Cons by assumption; apply Ni].
  - apply (nearly_tri _ _ _ (sumZ pfs units)); [exact Nt|]. rewrite <- C1. apply No.
  - unfold exact_in. apply sumZ_0. intros y Hy. rewrite Ea. unfold fu. rewrite (ZX y s); [reflexivity|]. apply (Hz y (fun y => X y s)); auto.
  - apply (nearly_tri _ _ _ (sumZ pfs units)); [exact Nt|]. rewrite <- C4. apply Ni.
  - unfold exact_out. apply sumZ_0. intros y Hy. rewrite Ea. unfold fu. rewrite (ZX e y); [reflexivity|]. apply (Hz y (fun y => X e y)); auto.
  - destruct Hstop as [Hu|Hn].
    + left. destruct (first_smaller sumf g s e Hsum Rg Hcap) as [K1 K2]. rewrite Eu in Hu. destruct (sub_chain pfs _ K2 Hpfs Hu) as [K3 K4]. eexists. splits; [exact K1|exact K3|]. apply (nearly_tri _ _ _ (sumZ pfs units)); [exact Nt|exact K4].
    + right. intros C. apply Hn. eapply reach_mono; [|exact C]. intros x y Hxy. unfold room in Hxy. rewrite Ea in Hxy. exact Hxy. Qed.

(** every capacity is a multiple of 2^j units and at most 2^53 of them, so is the sum of those that leave s, and of those that enter e *)
Definition on_grid g s e (j : Z) : Prop := 0 <= j /\ (forall x y c, edge g x y = Some c -> (2 ^ j | units c) /\ units c <= 2 ^ (j + 53)) /\
  exact_out g g s <= 2 ^ (j + 53) /\ exact_in g g e <= 2 ^ (j + 53).
Theorem C96_grid_flow sumf g s e j : sums sumf -> sums_exactly sumf j -> reachable g -> capacities g -> In s (nodes g) -> In e (nodes g) -> s <> e -> on_grid g s e j ->
  exists total fg, returns (fun n => gmaximum_flow f64 fsub finv sumf n g s e) (Ok (total, fg)) /\ reachable fg /\ finite_amount total /\
    (forall x y v, edge fg x y = Some v -> exists c, edge g x y = Some c /\ finite_amount v /\ 0 < units v <= units c) /\
    (forall x, x <> s -> x <> e -> exact_out g fg x = exact_in g fg x) /\
    units total = exact_out g fg s /\ exact_in g fg s = 0 /\ units total = exact_in g fg e /\ exact_out g fg e = 0 /\
    (units total = Z.min (exact_out g g s) (exact_in g g e) \/ ~ reach (room g fg) s e).
Proof. intros Hsum Hex Rg Hcap Hs He Hse (Hj & Hg & Go & Gi). destruct (maximum_flow_floats sumf Hsum g s e Rg Hcap) as (r & Hr & u & t & fg & F & X & pfs & -> & Rf & EF & HB & Hstop); auto; try (apply contains_In; assumption).
  destruct HB as (HS & Eu & Et & Hw & Hpfs & Ht & Bt & Nt & NX & PX & ZX & Cons & C1 & C2 & C3 & C4 & HE). pose proof (reachable_wf _ Rg) as HW.
  assert (caps_fit g j) as HC. { intros x y. unfold exact_amount. destruct (edge g x y) as [c|] eqn:Ec; [apply (Hg _ _ _ Ec)|]. split; [exists 0; reflexivity|apply Z.pow_nonneg; lia]. }
  destruct (HE j Hj HC) as (X1 & X2 & X3 & X4). assert (forall x y, exact_amount fg x y = fu F x y) as Ea by (intros x y; unfold exact_amount, fu; rewrite EF; reflexivity).
  assert (forall x y, exact_amount fg x y = X x y) as Ex by (intros x y; rewrite Ea; symmetry; apply X1).
  assert (forall x, exact_out g fg x = sumZ (nodes g) (fun y => X x y)) as No by (intros x; apply sumZ_ext; intros; apply Ex).
  assert (forall x, exact_in g fg x = sumZ (nodes g) (fun y => X y x)) as Ni by (intros x; apply sumZ_ext; intros; apply Ex).
  destruct (Hex (capacities_from g s)) as [F1 U1]; [intros c Hc; destruct (proj1 (caps_good g s Rg Hcap) c Hc) as (y & Ey & Fc); split; [exact Fc|apply (Hg _ _ _ Ey)]|rewrite sum_from by exact HW; exact Go|]. rewrite sum_from in U1 by exact HW.
  destruct (Hex (capacities_to g e)) as [F2 U2]; [intros c Hc; destruct (proj2 (caps_good g e Rg Hcap) c Hc) as (y & Ey & Fc); split; [exact Fc|apply (Hg _ _ _ Ey)]|rewrite sum_to by exact HW; exact Gi|]. rewrite sum_to in U2 by exact HW.
  assert (finite_amount (first_unassigned sumf g s e) /\ units (first_unassigned sumf g s e) = Z.min (exact_out g g s) (exact_in g g e)) as [FU UU].
  { unfold first_unassigned. fold (capacities_from g s) (capacities_to g e). unfold pmin. change (a_ltb f64) with SFltb. rewrite lt_fa by assumption. rewrite U1, U2. clear - F1 U1 F2 U2. destruct (Z.ltb_spec (exact_in g g e) (exact_out g g s)); split; auto; lia. }
  assert (sumZ pfs units <= exact_out g g s) as L1. { rewrite <- C1. apply sumZ_le. intros y _. rewrite <- Ex, Ea. apply X1. }
  assert (sumZ pfs units <= exact_in g g e) as L2. { rewrite <- C4. apply sumZ_le. intros y _. rewrite <- Ex, Ea. apply X1. }
  assert (units t = sumZ pfs units) as Ut by (apply X3; eapply Z.le_trans; eauto).
  exists t, fg. splits; auto.
  - intros x y v Ev. rewrite EF in Ev. destruct (HS _ _ _ Ev) as (c & Ec & Pc & Fv & Pv & _). exists c. destruct (X1 x y) as (_ & L & _). unfold fu, exact_amount in L. rewrite Ev, Ec in L. splits; auto.
  - intros x N1 N2. rewrite No, Ni. apply Cons; assumption.
  - rewrite No, C1. exact Ut.
  - rewrite Ni. exact C2.
  - rewrite Ni, C4. exact Ut.
  - rewrite No. exact C3.
  - destruct Hstop as [Hu|Hn].
    + left. destruct X4 as [F3 E3]; auto.
      * rewrite UU. destruct (Z.min_dec (exact_out g g s) (exact_in g g e)) as [->| ->].
        -- rewrite <- sum_from by exact HW. assert (forall l, (forall c, In c l -> (2 ^ j | units c)) -> (2 ^ j | sumZ l units)) as K by (induction l as [|c l IH]; intros H; cbn [sumZ]; [exists 0; reflexivity|apply Z.divide_add_r; [apply H; cbn; auto|apply IH; intros; apply H; cbn; auto]]).
           apply K. intros c Hc. destruct (proj1 (caps_good g s Rg Hcap) c Hc) as (y & Ey & _). apply (Hg _ _ _ Ey).
        -- rewrite <- sum_to by exact HW. assert (forall l, (forall c, In c l -> (2 ^ j | units c)) -> (2 ^ j | sumZ l units)) as K by (induction l as [|c l IH]; intros H; cbn [sumZ]; [exists 0; reflexivity|apply Z.divide_add_r; [apply H; cbn; auto|apply IH; intros; apply H; cbn; auto]]).
           apply K. intros c Hc. destruct (proj2 (caps_good g e Rg Hcap) c Hc) as (y & Ey & _). apply (Hg _ _ _ Ey).
      * rewrite UU. eapply Z.le_trans; [apply Z.le_min_l|exact Go].
      * rewrite UU. apply Z.min_glb; assumption.
      * apply eq_zero in Hu; [|apply F3]. destruct Hu as [_ Hu]. rewrite E3, UU in Hu. rewrite Ut. lia.
    + right. intros C. apply Hn. eapply reach_mono; [|exact C]. intros x y Hxy. unfold room in Hxy. rewrite Ea in Hxy. exact Hxy. Qed.
Theorem C96_bad_nodes sumf g s e n : ~ In s (nodes g) \/ ~ In e (nodes g) -> gmaximum_flow f64 fsub finv sumf n g s e = Err ValueError.
Proof. intros H. unfold gmaximum_flow. destruct (contains g s) eqn:Es; [|reflexivity]. destruct (contains g e) eqn:Ee; [|reflexivity]. apply contains_In in Es, Ee. tauto. Qed.
End Main.

(** ** a graph on which the English property fails *)
Definition f07 : spec_float := S754_finite false 6305039478318694 (-53).
Definition f09 : spec_float := S754_finite false 8106479329266893 (-53).
Definition f09' : spec_float := S754_finite false 8106479329266894 (-53).      (* 0.9000000000000001 *)
(** two ways from 0 to 1, and one edge of capacity 0.9 from 1 to 4 *)
Definition ops_pipe : list (op nat Z spec_float) := [OpAddEdge 0 1 f03 false; OpAddEdge 0 2 f07 false; OpAddEdge 2 3 f07 false; OpAddEdge 3 1 f07 false; OpAddEdge 1 4 f09 false]%nat.
Definition g_pipe : graph nat Z spec_float := ok_or empty_graph (run ops_pipe).
Lemma pipe_reachable : reachable g_pipe.
Proof. exists ops_pipe. vm_compute. reflexivity. Qed.
Lemma edges_caps {A O} {EA : EqDec A} (g : graph A O spec_float) : reachable g -> (forall ed, In ed (edges g) -> capacity (snd ed)) -> capacities g.
Proof. intros R H x y c E. apply (H (x, y, c)). apply (In_edges g x y c (reachable_wf _ R)), E. Qed.
Lemma f_capacity m k : (52 <=? Z.log2 (Zpos m)) && (Z.log2 (Zpos m) <? 53) && (-500 <=? k) && (k <=? 500) = true -> capacity (S754_finite false m k).
Proof. intros H. rewrite !andb_true_iff, !Z.leb_le, Z.ltb_lt in H. destruct H as [[[H1 H2] H3] H4]. destruct (Z.log2_spec (Zpos m) eq_refl) as [L1 L2].
  assert (2 ^ 52 <= Zpos m) as B1 by (eapply Z.le_trans; [|exact L1]; apply Z.pow_le_mono_r; lia). assert (Zpos m < 2 ^ 53) as B2 by (eapply Z.lt_le_trans; [exact L2|]; apply Z.pow_le_mono_r; lia).
  assert (Zdigits2 (Zpos m) = 53) as D. { destruct (Zdigits_bounds (Zpos m) eq_refl) as [[D1 D2] D3]. assert (52 < Zdigits2 (Zpos m)) by (apply (Z.pow_lt_mono_r_iff 2); lia). assert (Zdigits2 (Zpos m) - 1 < 53) by (apply (Z.pow_lt_mono_r_iff 2); lia). lia. }
  assert (sval 53 1024 (S754_finite false m k) = Some (Zpos m * 2 ^ (k + 1074))) as Es. { cbn [sval cond_Zopp]. change (SpecFloat.emin 53 1024) with (-1074). replace (k - -1074) with (k + 1074) by lia. reflexivity. }
  split.
  - split; [|eexists; exact Es]. split; [|reflexivity]. cbn [valid_binary]. unfold bounded, canonical_mantissa. apply andb_true_iff. split; [|apply Z.leb_le; lia]. apply Zeq_is_eq_bool. unfold fexp. change (SpecFloat.emin 53 1024) with (-1074). unfold Zdigits2 in D. rewrite D. lia.
  - right. unfold units. rewrite Es. split.
    + apply Z.le_trans with (2 ^ 52 * 2 ^ (k + 1074)); [rewrite <- Z.pow_add_r by lia; apply Z.pow_le_mono_r; lia|apply Z.mul_le_mono_nonneg_r; [apply Z.pow_nonneg; lia|lia]].
    + apply Z.le_trans with (2 ^ 53 * 2 ^ (k + 1074)); [apply Z.mul_le_mono_nonneg_r; [apply Z.pow_nonneg; lia|lia]|rewrite <- Z.pow_add_r by lia; apply Z.pow_le_mono_r; lia]. Qed.
Lemma pipe_capacities : capacities g_pipe.
Proof. apply (edges_caps _ pipe_reachable). assert (map snd (edges g_pipe) = [f03; f07; f07; f07; f09]) as E by (vm_compute; reflexivity). intros ed Hed. apply (in_map snd) in Hed. rewrite E in Hed. clear E.
  destruct Hed as [<-|[<-|[<-|[<-|[<-|[]]]]]]; apply f_capacity; vm_compute; reflexivity. Qed.
Example ex_float_flow : sums sum64 /\ reachable g_pipe /\ capacities g_pipe /\ In 0%nat (nodes g_pipe) /\ In 4%nat (nodes g_pipe) /\ 0%nat <> 4%nat.
Proof. splits; [apply sum64_sums|apply pipe_reachable|apply pipe_capacities| | |discriminate]; apply (proj1 (contains_In g_pipe _)); vm_compute; reflexivity. Qed.
(** The answer is 0.9000000000000001 through one edge of capacity 0.9, and what enters node 1 is not what leaves it. *)
Theorem C96_over_capacity_refuted : exists fg, returns (fun n => gmaximum_flow f64 fsub finv sum64 n g_pipe 0%nat 4%nat) (Ok (f09', fg)) /\
  edge g_pipe 1%nat 4%nat = Some f09 /\ edge fg 1%nat 4%nat = Some f09' /\ units f09 < units f09' /\ exact_in g_pipe g_pipe 4%nat = units f09 /\ exact_in g_pipe fg 1%nat <> exact_out g_pipe fg 1%nat.
Proof. destruct ex_float_flow as (X1 & X2 & X3 & X4 & X5 & X6). destruct (C96_float_flow_partial sum64 g_pipe 0%nat 4%nat X1 X2 X3 X4 X5 X6) as (t & fg & k & Hr & _). clear X1 X2 X3 X4 X5 X6.
  assert (exists fg', gmaximum_flow f64 fsub finv sum64 30 g_pipe 0%nat 4%nat = Ok (f09', fg') /\ edge g_pipe 1%nat 4%nat = Some f09 /\ edge fg' 1%nat 4%nat = Some f09' /\ units f09 < units f09' /\ exact_in g_pipe g_pipe 4%nat = units f09 /\ Z.eqb (exact_in g_pipe fg' 1%nat) (exact_out g_pipe fg' 1%nat) = false) as (fg' & E & K1 & K2 & K3 & K4 & K5).
  { eexists. splits; [vm_compute; reflexivity|vm_compute; reflexivity..]. }
  destruct (proj2 (proj2 Hr) 30%nat) as [C|C]; rewrite E in C; [discriminate C|]. inv C. exists fg. splits; auto. apply Z.eqb_neq, K5. Qed.

(** with capacities 1.5, 0.25 and so on the same graph is on a grid *)
Definition f15' : spec_float := S754_finite false 6755399441055744 (-52).
Definition f025' : spec_float := S754_finite false 4503599627370496 (-54).
Definition ops_grid : list (op nat Z spec_float) := [OpAddEdge 0 1 f025' false; OpAddEdge 0 2 f15' false; OpAddEdge 2 1 f15' false; OpAddEdge 1 4 f1 false]%nat.
Definition g_grid : graph nat Z spec_float := ok_or empty_graph (run ops_grid).
Example ex_grid : sums_exactly sum64 1070 /\ reachable g_grid /\ capacities g_grid /\ In 0%nat (nodes g_grid) /\ In 4%nat (nodes g_grid) /\ on_grid g_grid 0%nat 4%nat 1070.
Proof. assert (reachable g_grid) as R by (exists ops_grid; vm_compute; reflexivity).
  assert (map snd (edges g_grid) = [f025'; f15'; f15'; f1]) as E by (vm_compute; reflexivity).
  splits; [apply sum64_exact; lia|exact R| |apply (proj1 (contains_In g_grid _)); vm_compute; reflexivity..|].
  - apply (edges_caps _ R). intros ed Hed. apply (in_map snd) in Hed. rewrite E in Hed. clear E. destruct Hed as [<-|[<-|[<-|[<-|[]]]]]; apply f_capacity; vm_compute; reflexivity.
  - hnf. splits; [lia| |apply Z.leb_le; vm_compute; reflexivity|apply Z.leb_le; vm_compute; reflexivity].
    intros x y c Ec. apply (proj2 (In_edges g_grid x y c (reachable_wf _ R))) in Ec. apply (in_map snd) in Ec. rewrite E in Ec. clear E. cbn [snd] in Ec.
    assert (forall c, Z.eqb (units c mod 2 ^ 1070) 0 && (units c <=? 2 ^ (1070 + 53)) = true -> (2 ^ 1070 | units c) /\ units c <= 2 ^ (1070 + 53)) as K.
    { intros w Hw. apply andb_true_iff in Hw. destruct Hw as [H1 H2]. split; [|apply Z.leb_le, H2]. apply Z.mod_divide; [apply Z.pow_nonzero; lia|]. apply Z.eqb_eq, H1. }
    destruct Ec as [<-|[<-|[<-|[<-|[]]]]]; apply K; vm_compute; reflexivity. Qed.
