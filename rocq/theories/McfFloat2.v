(** minimum_cost_flow on floats: one augmentation. *)
From Coq Require Import ZArith SpecFloat Sorted.
From Verif Require Import Prelude PreludeFacts Base BaseFacts BaseFacts2 BaseFacts3 Spec SpecFacts Loop SearchFacts
  BaseAlgFacts Sp SpFacts Fw FwFacts PropsFw FlowSpec Flow FlowFacts MaxFlowFacts FlowFacts2 HashFacts AssignFacts McfSpec Mcf McfFacts
  GSp Float64 FloatExact FloatSigned FloatStep GCpmSpec CpmFloat PropsFloat GFlow GFlowSpec FlowFloat FlowFloat2 GMcf GMcfSpec McfFloat.
Local Open Scope Z_scope.

Lemma zip_next_NoDup {A} (p : list A) : NoDup p -> NoDup (zip_next p).
Proof. induction p as [|a p IH]; intros H; [constructor|]. destruct p as [|b p]; [constructor|]. change (zip_next (a :: b :: p)) with ((a, b) :: zip_next (b :: p)).
  apply NoDup_cons_iff in H. destruct H as [H1 H2]. constructor; [|apply IH, H2]. intros C. apply zip_next_In in C. tauto. Qed.

Lemma sub_range l c t : 0 <= l <= c -> c <= t -> 0 <= c - l <= t. Proof. lia. Qed.

Section L.
Context {A O : Type} {EA : EqDec A}.
Notation graph := (graph A O Z).
Notation amounts := (Base.graph A O spec_float).
Context (costs : graph) (capg : amounts) (stock : A -> spec_float).
Hypothesis HR : reachable costs.
Hypothesis Hnn : nonneg costs.
Hypothesis Hlinks : forall x y, has_edge capg x y <-> has_edge costs x y.
Hypothesis Hcap0 : forall x y c, edge capg x y = Some c -> f64_good c.
Hypothesis Hstock : forall x, a_stock (stock x).
Hypothesis Hin : forall x, units (stock x) <> 0 -> In x (nodes costs).
Implicit Types (F C : A -> A -> option spec_float) (X : A -> A -> Z) (lv : A -> spec_float).
Notation st x := (units (stock x)).
Notation cnt := (cnt capg).
Definition gridc (j : Z) : Prop := (forall x, (2 ^ j | st x) /\ Z.abs (st x) <= 2 ^ (j + 53)) /\
  (forall x y c, edge capg x y = Some c -> finite_amount c -> (2 ^ j | units c) /\ units c <= 2 ^ (j + 53)).
Definition num_inv (k : Z) lv F C X : Prop :=
  0 <= k /\
  (forall x, finite_number (lv x) /\ (0 <= units (lv x) <= st x \/ st x <= units (lv x) <= 0)) /\
  (forall x, nearly k (st x - units (lv x)) (net costs X x) (Z.abs (st x))) /\
  (forall x y, 0 <= X x y /\ (X x y <> 0 -> has_edge costs x y)) /\
  (forall x y, finite_amount (fval F x y) /\ units (fval F x y) <= 2 ^ 2027 /\ nearly k (units (fval F x y)) (X x y) (units (fval F x y)) /\ (F x y <> None -> has_edge costs x y)) /\
  (forall x y, f64_good (cnt C x y)) /\
  (forall x y c, edge capg x y = Some c -> (c = S754_infinity false -> cnt C x y = c) /\ (finite_amount c -> finite_amount (cnt C x y) /\ units (cnt C x y) <= units c /\ nearly k (units c - units (cnt C x y)) (X x y) (units c))) /\
  forall j, 0 <= j -> gridc j -> (forall x, st x - units (lv x) = net costs X x /\ (2 ^ j | units (lv x))) /\
    (forall x y c, edge capg x y = Some c -> finite_amount c -> units c - units (cnt C x y) = X x y /\ (2 ^ j | units (cnt C x y))) /\
    (forall x y, (2 ^ j | X x y) /\ (X x y <= 2 ^ (j + 53) -> units (fval F x y) = X x y)).
Lemma num_init : num_inv 0 stock (fun _ _ => None) (fun _ _ => None) (fun _ _ => 0).
Proof. assert (forall x, net costs (fun _ _ => 0) x = 0) as N0 by (intros x; unfold net, outflow, inflow; rewrite !sumZ_0 by auto; reflexivity).
  hnf. destruct zero_fa as [Z1 Z2]. unfold McfFloat.cnt, fval. splits; auto; try lia.
  - intros x. split; [apply Hstock|lia].
  - intros x. rewrite N0. unfold nearly. rewrite Z.sub_diag. cbn. lia.
  - intros x y. rewrite Z2. splits; auto; [apply Z.pow_nonneg; lia|unfold nearly; cbn; lia|congruence].
  - intros x y. destruct (edge capg x y) as [c|] eqn:E; [eapply Hcap0, E|apply Z1].
  - intros x y c ->. split; [auto|]. intros Fc. split; [exact Fc|]. split; [apply Z.le_refl|]. unfold nearly. rewrite Z.sub_diag. cbn. lia.
  - intros j Hj [G1 G2]. splits.
    + intros x. rewrite N0. split; [lia|apply G1].
    + intros x y c E Fc. rewrite E. split; [lia|apply (G2 _ _ _ E Fc)].
    + intros x y. split; [exists 0; reflexivity|]. intros _. exact Z2. Qed.
Lemma net_more X p L s e R : incl p (nodes costs) -> simple_path R s p e -> s <> e ->
  forall x, net costs (fun a b => X a b + L * steps_of p a b) x = net costs X x + L * (ind1 s x - ind1 e x).
Proof. intros Hi Hp Hse. destruct (simple_balance (nodes costs) p R s e (wf_nodes costs (reachable_wf _ HR)) Hi Hp Hse) as (B1 & B2 & B3 & B4 & B5). intros x.
  assert (outflow costs (fun a b => X a b + L * steps_of p a b) x = outflow costs X x + L * sumZ (nodes costs) (fun y => steps_of p x y)) as EO.
  { unfold outflow. rewrite <- sumZ_scale, <- sumZ_plus. reflexivity. }
  assert (inflow costs (fun a b => X a b + L * steps_of p a b) x = inflow costs X x + L * sumZ (nodes costs) (fun y => steps_of p y x)) as EI.
  { unfold inflow. rewrite <- sumZ_scale, <- sumZ_plus. reflexivity. }
  unfold net. rewrite EO, EI. unfold ind1. destruct (eq_dec s x) as [<-|h]; [destruct (eq_dec e s); [congruence|]; lia|]. destruct (eq_dec e x) as [<-|k]; [lia|].
  rewrite B5 by congruence. lia. Qed.

(** what is left at the two ends *)
Definition nextE (E L : spec_float) : spec_float := if SFltb f0 (fsub E L) then fsub E L else f0.
Definition nextD (D L : spec_float) : spec_float := if SFltb (fadd D L) f0 then fadd D L else f0.
Lemma nextE_spec E L : finite_amount E -> finite_amount L -> units L <= units E -> finite_amount (nextE E L) /\ units (nextE E L) = rnd64 (units E - units L) /\ 0 <= units (nextE E L) <= units E /\ SFltb f0 (fsub E L) = (units L <? units E).
Proof. intros HE HL H. destruct (sub_fa E L HE HL H) as [K1 K2]. destruct zero_fa as [Z1 Z2]. pose proof (sub_sign E L HE HL) as S. destruct (fa_facts E HE) as (_ & _ & PE & RE & _). destruct (fa_facts L HL) as (_ & _ & PL & _).
  assert (0 <= rnd64 (units E - units L) <= units E) as B. { split; [apply rnd_nn; lia|]. rewrite <- RE at 2. apply (rnd_mono 53 ltac:(lia)); lia. }
  unfold nextE. rewrite S. destruct (Z.ltb_spec (units L) (units E)); [rewrite K2; splits; auto; apply B|]. replace (units E - units L) with 0 in * by lia. rewrite rnd_0 in * by lia. rewrite Z2. splits; auto; lia. Qed.
Lemma nextD_spec D L : finite_number D -> finite_amount L -> units L <= - units D -> finite_number (nextD D L) /\ units (nextD D L) = - rnd64 (- units D - units L) /\ units D <= units (nextD D L) <= 0 /\ SFltb (fadd D L) f0 = (units L <? - units D).
Proof. intros HD HL H. destruct (neg_add D L HD HL H) as [K1 K2]. destruct zero_fa as [Z1 Z2]. destruct (fa_facts L HL) as (_ & _ & PL & _). destruct (fin_abs D HD ltac:(lia)) as [FA UA]. destruct (fa_facts _ FA) as (_ & _ & PA & RA & _). rewrite UA in RA.
  assert (0 <= rnd64 (- units D - units L) <= - units D) as B. { split; [apply rnd_nn; lia|]. rewrite <- RA at 2. apply (rnd_mono 53 ltac:(lia)); lia. }
  assert (SFltb (fadd D L) f0 = (units L <? - units D)) as S.
  { rewrite fin_lt by (auto using fa_fin). rewrite K2, Z2. pose proof (rnd_pos_iff (- units D - units L) ltac:(lia)) as PI. destruct (Z.ltb_spec (units L) (- units D)); [apply Z.ltb_lt|apply Z.ltb_ge]; lia. }
  unfold nextD. rewrite S. destruct (Z.ltb_spec (units L) (- units D)); [rewrite K2; splits; auto; lia|]. replace (- units D - units L) with 0 in * by lia. rewrite rnd_0 in * by lia. rewrite Z2. splits; auto using fa_fin; lia. Qed.

Section Next.
Context (k : Z) lv F C X (HI : num_inv k lv F C X) (En Dn : A) (p : list A) (L : spec_float) (R : A -> A -> Prop).
Context (Hp : simple_path R En p Dn) (Hpi : incl p (nodes costs)) (Hne : En <> Dn).
Context (Hz : forall a b, In (a, b) (zip_next p) -> has_edge capg a b).
Context (HE : 0 < units (lv En)) (HD : units (lv Dn) < 0).
Context (HL : finite_amount L) (L1 : units L <= units (lv En)) (L2 : units L <= - units (lv Dn)) (L3 : forall a b, In (a, b) (zip_next p) -> cle L (cnt C a b)).
Context (L4 : L = lv En \/ L = SFabs (lv Dn) \/ exists a b, In (a, b) (zip_next p) /\ L = cnt C a b).
Definition lv' x : spec_float := if eq_dec x En then nextE (lv En) L else if eq_dec x Dn then nextD (lv Dn) L else lv x.
Definition X' x y : Z := X x y + units L * steps_of p x y.
Notation ps := (zip_next p).
Lemma num_next : num_inv (k + 1) lv' (moreF F L ps) (lessC capg C L ps) X'.
Proof. destruct HI as (Hk & I1 & I2 & I3 & I4 & I5 & I6 & I7). destruct (fa_facts L HL) as (GL & _ & PL & RL & _).
  destruct (I1 En) as [FE BE]. destruct (I1 Dn) as [FD BD]. assert (finite_amount (lv En)) as AE by (apply fin_fa; [exact FE|lia]).
  destruct (nextE_spec (lv En) L AE HL L1) as (E1 & E2 & E3 & _). destruct (nextD_spec (lv Dn) L FD HL L2) as (D1 & D2 & D3 & _).
  pose proof (net_more X p (units L) En Dn R Hpi Hp Hne) as Hnet. fold X' in Hnet.
  assert (units L <= 2 ^ 1974) as BL. { destruct (Hstock En) as [_ B]. change (2 ^ (1074 + 900)) with (2 ^ 1974) in B. set (BB := 2 ^ 1974) in *. clearbody BB. lia. }
  assert (forall x y, (steps_of p x y = 0 /\ mem (x, y) ps = false) \/ (steps_of p x y = 1 /\ mem (x, y) ps = true /\ In (x, y) ps)) as H01.
  { intros x y. pose proof (steps_of_nonneg p x y). pose proof (steps_of_le1 p x y (proj2 Hp)). pose proof (zip_next_steps p x y) as Zs. destruct (mem_spec (x, y) ps) as [h|h]; [right; apply Zs in h as h'; splits; auto; lia|left]. split; [|reflexivity].
    destruct (Z.eq_dec (steps_of p x y) 0) as [E|E]; [exact E|]. exfalso. apply h, Zs. lia. }
  assert (forall x y, In (x, y) ps -> forall c, edge capg x y = Some c -> finite_amount c -> finite_amount (cnt C x y) /\ units L <= units (cnt C x y) /\ finite_amount (fsub (cnt C x y) L) /\ units (fsub (cnt C x y) L) = rnd64 (units (cnt C x y) - units L)) as Hc.
  { intros x y Hxy c Ec Fc. destruct (proj2 (I6 x y c Ec) Fc) as (F1 & _). assert (units L <= units (cnt C x y)) as Lc by (apply cle_fin; auto). destruct (sub_fa _ _ F1 HL Lc). auto. }
  assert (forall x y, In (x, y) ps -> finite_amount (fadd L (fval F x y)) /\ units (fadd L (fval F x y)) = rnd64 (units (fval F x y) + units L) /\ units (fval F x y) <= rnd64 (units (fval F x y) + units L) /\ rnd64 (units (fval F x y) + units L) <= 2 ^ 2027) as Hf.
  { intros x y Hxy. destruct (I4 x y) as (F1 & B1 & _). destruct (fa_facts _ F1) as (_ & _ & P1 & R1 & _). assert (rnd64 (units (fval F x y) + units L) <= 2 ^ 2027) as Bt.
    { assert (0 <= units (fval F x y) + units L) as P0 by lia. pose proof (rnd_mono 53 ltac:(lia) (units (fval F x y) + units L) (2 ^ 2027 + 2 ^ 1974) P0 (Z.add_le_mono _ _ _ _ B1 BL)) as M. assert (rnd64 (2 ^ 2027 + 2 ^ 1974) = 2 ^ 2027) as Er by (vm_compute; reflexivity). rewrite Er in M. exact M. }
    destruct (add_fa L (fval F x y) HL F1) as [K1 K2]; [rewrite Z.add_comm; eapply Z.le_lt_trans; [exact Bt|apply exponents_small]|]. rewrite Z.add_comm in K2. splits; auto. rewrite <- R1 at 1. apply (rnd_mono 53 ltac:(lia)); lia. }
  hnf. splits; [lia| | | | | | |].
  - intros x. unfold lv'. destruct (eq_dec x En) as [->|h1]; [split; [apply fa_fin, E1|lia]|]. destruct (eq_dec x Dn) as [->|h2]; [split; [exact D1|lia]|apply I1].
  - intros x. rewrite Hnet. unfold ind1, lv'. destruct (eq_dec x En) as [->|h1]; [|destruct (eq_dec x Dn) as [->|h2]].
    + destruct (eq_dec En En); [|congruence]. destruct (eq_dec Dn En); [congruence|]. replace (units L * (1 - 0)) with (units L) by lia. apply (near_step k (st En - units (lv En))); [lia|apply I2|]. rewrite E2.
      pose proof (rnd_near (units (lv En) - units L) (Z.abs (st En)) ltac:(lia)) as B. replace (st En - rnd64 (units (lv En) - units L) - (st En - units (lv En)) - units L) with (- (rnd64 (units (lv En) - units L) - (units (lv En) - units L))) by lia. rewrite Z.abs_opp. exact B.
    + destruct (eq_dec Dn Dn); [|congruence]. destruct (eq_dec En Dn); [congruence|]. replace (units L * (0 - 1)) with (- units L) by lia. apply (near_step k (st Dn - units (lv Dn))); [lia|apply I2|]. rewrite D2.
      pose proof (rnd_near (- units (lv Dn) - units L) (Z.abs (st Dn)) ltac:(lia)) as B. replace (st Dn - - rnd64 (- units (lv Dn) - units L) - (st Dn - units (lv Dn)) - - units L) with (rnd64 (- units (lv Dn) - units L) - (- units (lv Dn) - units L)) by lia. exact B.
    + destruct (eq_dec En x); [congruence|]. destruct (eq_dec Dn x); [congruence|]. rewrite Z.mul_0_r, Z.add_0_r. apply near_more; [lia|apply I2].
  - intros x y. unfold X'. destruct (I3 x y) as [P1 P2]. destruct (H01 x y) as [[-> _]|(-> & _ & Hxy)]; [rewrite Z.mul_0_r, Z.add_0_r; auto|]. split; [lia|]. intros _. apply Hlinks, Hz, Hxy.
  - intros x y. unfold X'. destruct (I4 x y) as (F1 & B1 & N1 & J1). destruct (fa_facts _ F1) as (_ & _ & P1 & _). assert (fval (moreF F L ps) x y = if mem (x, y) ps then fadd L (fval F x y) else fval F x y) as -> by (unfold fval, moreF; destruct (mem (x, y) ps); reflexivity).
    destruct (H01 x y) as [[-> Em]|(-> & Em & Hxy)]; unfold moreF; rewrite Em.
    + rewrite Z.mul_0_r, Z.add_0_r. splits; auto. apply near_more; auto.
    + rewrite Z.mul_1_r. destruct (Hf x y Hxy) as (K1 & K2 & K3 & K4). rewrite K2. splits; auto; [|intros _; apply Hlinks, Hz, Hxy]. apply (near_step k (units (fval F x y))); [lia|apply (near_wider k _ _ (units (fval F x y))); auto|].
      pose proof (rnd_error2 53 ltac:(lia) (units (fval F x y) + units L) ltac:(lia)) as B. replace (rnd64 (units (fval F x y) + units L) - units (fval F x y) - units L) with (rnd64 (units (fval F x y) + units L) - (units (fval F x y) + units L)) by lia. exact B.
  - intros x y. unfold McfFloat.cnt, lessC. destruct (H01 x y) as [[_ Em]|(_ & Em & Hxy)]; rewrite Em; [apply I5|]. destruct (Hz x y Hxy) as (c & Ec). destruct (good_cases c (Hcap0 _ _ _ Ec)) as [Fc| ->].
    + apply (Hc x y Hxy c Ec Fc).
    + rewrite (proj1 (I6 x y _ Ec) eq_refl), inf_sub by exact HL. split; reflexivity.
  - intros x y c Ec. assert (McfFloat.cnt capg (lessC capg C L ps) x y = if mem (x, y) ps then fsub (cnt C x y) L else cnt C x y) as -> by (unfold McfFloat.cnt at 1, lessC; destruct (mem (x, y) ps); reflexivity).
    unfold X'. destruct (I6 x y c Ec) as [J1 J2]. destruct (H01 x y) as [[-> Em]|(-> & Em & Hxy)]; rewrite Em.
    + rewrite Z.mul_0_r, Z.add_0_r. split; [exact J1|]. intros Fc. destruct (J2 Fc) as (K1 & K2 & K3). splits; auto. apply near_more; [apply fa_facts, Fc|exact K3].
    + rewrite Z.mul_1_r. split; [intros ->; rewrite J1 by reflexivity; apply inf_sub, HL|]. intros Fc. destruct (J2 Fc) as (K1 & K2 & K3). destruct (Hc x y Hxy c Ec Fc) as (M1 & M2 & M3 & M4). destruct (fa_facts _ K1) as (_ & _ & PK & RK & _). destruct (fa_facts _ Fc) as (_ & _ & Pc & _).
      assert (rnd64 (units (cnt C x y) - units L) <= units (cnt C x y)) as Le by (rewrite <- RK at 2; apply (rnd_mono 53 ltac:(lia)); lia). splits; [exact M3|rewrite M4; lia|]. rewrite M4. apply (near_step k (units c - units (cnt C x y))); auto.
      pose proof (rnd_near (units (cnt C x y) - units L) (units c) (sub_range _ _ _ (conj PL M2) K2)) as B. replace (units c - rnd64 (units (cnt C x y) - units L) - (units c - units (cnt C x y)) - units L) with (- (rnd64 (units (cnt C x y) - units L) - (units (cnt C x y) - units L))) by (clear; lia). rewrite Z.abs_opp. exact B.
  - intros j Hj HG. destruct (I7 j Hj HG) as (J1 & J2 & J3). destruct HG as [G1 G2]. assert (2 ^ j | units L) as DL.
    { destruct L4 as [->|[->|(a & b & Hab & ->)]]; [apply J1|rewrite (proj2 (fin_abs _ FD ltac:(lia))); apply Z.divide_opp_r, J1|]. destruct (Hz a b Hab) as (c & Ec). destruct (good_cases c (Hcap0 _ _ _ Ec)) as [Fc| ->]; [apply (J2 a b c Ec Fc)|].
      exfalso. rewrite (proj1 (I6 a b _ Ec) eq_refl) in HL. destruct HL as [_ (z & C0)]. discriminate. }
    splits.
    + intros x. rewrite Hnet. destruct (J1 x) as [K1 K2]. unfold ind1, lv'. destruct (eq_dec x En) as [->|h1]; [|destruct (eq_dec x Dn) as [->|h2]].
      * destruct (eq_dec En En); [|congruence]. destruct (eq_dec Dn En); [congruence|]. assert (units (nextE (lv En) L) = units (lv En) - units L) as EE.
        { rewrite E2. apply (rnd_fit j); [exact Hj| |apply Z.divide_sub_r; auto]. pose proof (proj2 (G1 En)) as B. set (BB := 2 ^ (j + 53)) in *. clearbody BB. lia. }
        rewrite EE. split; [lia|apply Z.divide_sub_r; auto].
      * destruct (eq_dec Dn Dn); [|congruence]. destruct (eq_dec En Dn); [congruence|]. assert (units (nextD (lv Dn) L) = units (lv Dn) + units L) as EE.
        { rewrite D2. rewrite (rnd_fit j); [lia|exact Hj| |apply Z.divide_sub_r; auto; apply Z.divide_opp_r; auto]. pose proof (proj2 (G1 Dn)) as B. set (BB := 2 ^ (j + 53)) in *. clearbody BB. lia. }
        rewrite EE. split; [lia|apply Z.divide_add_r; auto].
      * destruct (eq_dec En x); [congruence|]. destruct (eq_dec Dn x); [congruence|]. rewrite Z.mul_0_r, Z.add_0_r. auto.
    + intros x y c Ec Fc. assert (McfFloat.cnt capg (lessC capg C L ps) x y = if mem (x, y) ps then fsub (cnt C x y) L else cnt C x y) as -> by (unfold McfFloat.cnt at 1, lessC; destruct (mem (x, y) ps); reflexivity).
      unfold X'. destruct (J2 x y c Ec Fc) as [K1 K2]. destruct (H01 x y) as [[-> Em]|(-> & Em & Hxy)]; rewrite Em; [rewrite Z.mul_0_r, Z.add_0_r; auto|]. rewrite Z.mul_1_r. destruct (Hc x y Hxy c Ec Fc) as (M1 & M2 & M3 & M4).
      assert (units (fsub (cnt C x y) L) = units (cnt C x y) - units L) as EE. { rewrite M4. apply (rnd_fit j); [exact Hj| |apply Z.divide_sub_r; auto]. pose proof (proj2 (G2 _ _ _ Ec Fc)) as B. pose proof (proj1 (proj2 (proj2 (I6 x y c Ec) Fc))) as B2. set (BB := 2 ^ (j + 53)) in *. clearbody BB. lia. }
      rewrite EE. split; [lia|apply Z.divide_sub_r; auto].
    + intros x y. destruct (J3 x y) as [K1 K2]. assert (fval (moreF F L ps) x y = if mem (x, y) ps then fadd L (fval F x y) else fval F x y) as -> by (unfold fval, moreF; destruct (mem (x, y) ps); reflexivity).
      unfold X'. destruct (H01 x y) as [[-> Em]|(-> & Em & Hxy)]; rewrite Em; [rewrite Z.mul_0_r, Z.add_0_r; auto|]. rewrite Z.mul_1_r. split; [apply Z.divide_add_r; auto|]. intros B. destruct (I3 x y) as [P1 _].
      destruct (Hf x y Hxy) as (M1 & M2 & _). rewrite M2, K2 by (set (BB := 2 ^ (j + 53)) in *; clearbody BB; lia). apply (rnd_fit j); [exact Hj| |apply Z.divide_add_r; auto]. set (BB := 2 ^ (j + 53)) in *. clearbody BB. lia. Qed.
End Next.
End L.
