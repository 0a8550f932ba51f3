(** maximum_flow on floats: the result. *)
From Coq Require Import ZArith SpecFloat.
From Verif Require Import Prelude PreludeFacts Base BaseFacts BaseFacts2 BaseFacts3 Spec SpecFacts Loop SearchFacts BaseAlgFacts FlowSpec FlowFacts Flow MaxFlowFacts
  GSp GSpec GSpFacts Float64 FloatExact FloatSigned FloatStep GCpmSpec CpmFloat PropsFloat PropsFlowFloat GFlow GFlowFacts GFlowSpec FlowFloat FlowFloat2.
Local Open Scope Z_scope.

Section L.
Context {A O : Type} {EA : EqDec A}.
Notation graph := (graph A O spec_float).
Implicit Types (F : A -> A -> option spec_float) (x y a b : A) (p : list A).
Context (g : graph) (Rg : reachable g) (Hcap : capacities g) (s e : A) (Hs : In s (nodes g)) (He : In e (nodes g)) (Hse : s <> e) (U : spec_float).
Notation cu := (exact_amount g).
Notation grep := (grep f64 fsub finv g).
Notation N := (nodes g).
(** every capacity is a multiple of 2^j, and at most 2^53 of them *)
Definition caps_fit (j : Z) : Prop := forall x y, (2 ^ j | cu x y) /\ cu x y <= 2 ^ (j + 53).
Definition books F (X : A -> A -> Z) (pfs : list spec_float) (u t : spec_float) : Prop :=
  sane g F /\ u = fold_left fsub pfs U /\ t = fold_left fadd pfs f0 /\ (length pfs + work g F <= 2 * length (edges g))%nat /\
  (forall w, In w pfs -> finite_amount w) /\ finite_amount t /\ units t <= 2 ^ 2027 /\
  nearly (Z.of_nat (length pfs)) (units t) (sumZ pfs units) (units t) /\
  (forall x y, nearly (Z.of_nat (length pfs)) (fu F x y) (X x y) (fu F x y)) /\ (forall x y, 0 <= X x y) /\ (forall x y, X x y = 0 -> F x y = None) /\
  (forall x, x <> s -> x <> e -> sumZ N (fun y => X x y) = sumZ N (fun y => X y x)) /\
  sumZ N (fun y => X s y) = sumZ pfs units /\ sumZ N (fun y => X y s) = 0 /\ sumZ N (fun y => X e y) = 0 /\ sumZ N (fun y => X y e) = sumZ pfs units /\
  forall j, 0 <= j -> caps_fit j -> (forall x y, X x y = fu F x y /\ fu F x y <= cu x y /\ (2 ^ j | fu F x y)) /\ (2 ^ j | sumZ pfs units) /\
    (sumZ pfs units <= 2 ^ (j + 53) -> units t = sumZ pfs units) /\
    (finite_amount U -> (2 ^ j | units U) -> units U <= 2 ^ (j + 53) -> sumZ pfs units <= units U -> finite_amount u /\ units u = units U - sumZ pfs units).
Definition fl_inv (st : spec_float * spec_float * (graph * graph * graph)) : Prop :=
  let '(u, t, gs) := st in exists F X pfs, grep [s; e] F gs /\ books F X pfs u t.
Definition fl_post (r : res (spec_float * graph)) : Prop := exists u t fg F X pfs, r = Ok (t, fg) /\ reachable fg /\ (forall x y, edge fg x y = F x y) /\ books F X pfs u t /\
  (SFeqb u f0 = true \/ ~ reach (fun x y => fu F x y < cu x y) s e).
Lemma sum_pfs_nonneg pfs : (forall w, In w pfs -> finite_amount w) -> 0 <= sumZ pfs units.
Proof. intros H. apply sumZ_nonneg. intros w Hw. apply (fa_facts w (H w Hw)). Qed.
Lemma books_init : books (fun _ _ => None) (fun _ _ => 0) [] U f0.
Proof. destruct zero_fa as [Z1 Z2]. hnf. cbn [fold_left length sumZ Nat.add]. splits; auto.
  - intros x y v C. discriminate.
  - apply work_init.
  - intros w [].
  - rewrite Z2. apply Z.pow_nonneg. lia.
  - unfold nearly. rewrite Z2. cbn. lia.
  - intros x y. unfold nearly, fu. cbn. lia.
  - lia.
  - rewrite sumZ_0; auto.
  - rewrite sumZ_0; auto.
  - rewrite sumZ_0; auto.
  - rewrite sumZ_0; auto.
  - intros j Hj HC. splits; auto.
    + intros x y. unfold fu. splits; auto; [apply cu_nonneg; auto|exists 0; reflexivity].
    + exists 0; reflexivity.
    + rewrite Z.sub_0_r. auto. Qed.
Lemma books_next F X pfs u t p pf a b : books F X pfs u t -> simple_path (fun x y => fu F x y < cu x y) s p e -> finite_amount pf -> (2 ^ 122 | units pf) -> 0 < units pf ->
  (forall x y, 0 < steps_of p x y -> units pf <= rnd64 (cu x y - fu F x y)) -> 0 < steps_of p a b -> units pf = rnd64 (cu a b - fu F a b) ->
  books (gaddP f64 F p pf) (fun x y => X x y + units pf * steps_of p x y) (pfs ++ [pf]) (fsub u pf) (fadd t pf) /\ (work g (gaddP f64 F p pf) < work g F)%nat.
Proof. intros (HS & Eu & Et & Hw & Hpfs & Ht & Bt & Nt & NX & PX & ZX & Cons & C1 & C2 & C3 & C4 & Hex) [Hpath Hnd] Hpf Dpf Ppf Lpf Hab Eab.
  assert (forall x y, 0 < steps_of p x y -> fu F x y < cu x y) as Ho by (intros x y Hxy; exact (steps_of_pos _ _ _ _ _ _ Hpath Hxy)).
  assert (path (has_edge g) s p e) as Hpg.
  { eapply path_mono; [|exact Hpath]. intros x y _ _ Hxy. destruct (open_edge g Hcap F x y HS Hxy) as (c & Ec & _). exists c. exact Ec. }
  pose proof (reachable_wf _ Rg) as HW.
  assert (incl p N) as Hpi by (intros x Hx; apply (path_nodes (fun z => In z N) (has_edge g) s p e Hs); auto; intros a' b' Hab'; apply (has_edge_nodes g a' b' HW Hab')).
  destruct (simple_balance N p (has_edge g) s e (wf_nodes g HW) Hpi (conj Hpg Hnd) Hse) as (B1 & B2 & B3 & B4 & B5).
  pose proof (next_work g Rg Hcap F p pf HS Hnd Ho Hpf Dpf Ppf Lpf a b Hab Eab) as Wlt. split; [|exact Wlt].
  assert (forall x, sumZ N (fun y => X x y + units pf * steps_of p x y) = sumZ N (fun y => X x y) + units pf * sumZ N (fun y => steps_of p x y)) as EO by (intros x; rewrite <- sumZ_scale, <- sumZ_plus; reflexivity).
  assert (forall x, sumZ N (fun y => X y x + units pf * steps_of p y x) = sumZ N (fun y => X y x) + units pf * sumZ N (fun y => steps_of p y x)) as EI by (intros x; rewrite <- sumZ_scale, <- sumZ_plus; reflexivity).
  assert (sumZ (pfs ++ [pf]) units = sumZ pfs units + units pf) as ET by (rewrite sumZ_app; cbn [sumZ]; lia).
  pose proof (sum_pfs_nonneg pfs Hpfs) as PT.
  destruct (fa_facts t Ht) as (_ & _ & Pt & Rt & _).
  assert (units pf <= 2 ^ 1974) as Bpf.
  { rewrite Eab. pose proof (Ho _ _ Hab) as L. destruct (fu_facts g Hcap F a b HS) as (P & _). destruct (open_edge g Hcap F a b HS L) as (c & Ec & Ecu). destruct (cap_facts g Hcap _ _ _ Ec) as (_ & [_ Bc] & Rc & _). rewrite Ecu in *. apply Z.le_trans with (cu a b); [|exact Bc]. rewrite <- Rc at 2. apply (rnd_mono 53 ltac:(lia)); lia. }
  assert (0 <= units t + units pf) as P0 by lia.
  assert (rnd64 (units t + units pf) <= 2 ^ 2027) as Bt'.
  { pose proof (rnd_mono 53 ltac:(lia) (units t + units pf) (2 ^ 2027 + 2 ^ 1974) P0 (Z.add_le_mono _ _ _ _ Bt Bpf)) as M. assert (rnd64 (2 ^ 2027 + 2 ^ 1974) = 2 ^ 2027) as Er by (vm_compute; reflexivity). rewrite Er in M. exact M. }
  destruct (add_fa t pf Ht Hpf) as [Ft' Ut']; [eapply Z.le_lt_trans; [exact Bt'|apply exponents_small]|].
  hnf. splits.
  - exact (next_sane g Hcap F p pf HS Hnd Ho Hpf Dpf Ppf Lpf).
  - rewrite fold_left_app, <- Eu. reflexivity.
  - rewrite fold_left_app, <- Et. reflexivity.
  - rewrite app_length. cbn [length]. lia.
  - intros w Hw'. apply in_app_iff in Hw'. destruct Hw' as [Hw'|[<-|[]]]; auto.
  - exact Ft'.
  - rewrite Ut'. exact Bt'.
  - rewrite Ut', ET, app_length. cbn [length]. rewrite Nat2Z.inj_add. change (Z.of_nat 1) with 1. unfold nearly in *. pose proof (rnd_error2 53 ltac:(lia) _ P0) as B.
    assert (units t <= rnd64 (units t + units pf)) as M by (rewrite <- Rt at 1; apply (rnd_mono 53 ltac:(lia)); lia).
    set (v := rnd64 (units t + units pf)) in *. clearbody v. set (T := sumZ pfs units) in *. clearbody T. set (ut := units t) in *. clearbody ut. set (k := Z.of_nat (length pfs)) in *. assert (0 <= k) as Hk by lia. clearbody k. set (q := units pf) in *. clearbody q. clear - B M Nt Pt Hk.
    assert (Z.abs (v - (T + q)) <= Z.abs (v - (ut + q)) + Z.abs (ut - T)) as Tr by lia. assert (0 < 2 ^ 53) as P2 by reflexivity. set (D := 2 ^ 53) in *. clearbody D.
    assert (D * Z.abs (v - (T + q)) <= D * (Z.abs (v - (ut + q)) + Z.abs (ut - T))) as T2 by (apply Z.mul_le_mono_nonneg_l; lia). rewrite Z.mul_add_distr_l in T2. assert (k * ut <= k * v) by (apply Z.mul_le_mono_nonneg_l; lia). lia.
  - intros x y. rewrite app_length. cbn [length]. rewrite Nat2Z.inj_add. apply (next_nearly g Hcap F p pf HS Hnd Ho Hpf Dpf Ppf Lpf _ X x y); [lia|apply NX].
  - intros x y. pose proof (steps_of_nonneg p x y). specialize (PX x y). nia.
  - intros x y E0. pose proof (steps_of_nonneg p x y) as S0. specialize (PX x y). assert (steps_of p x y = 0 /\ X x y = 0) as [S1 X1] by nia. rewrite gaddP_at by exact Hnd. rewrite S1. cbn [Z.eqb]. apply ZX, X1.
  - intros x Hx1 Hx2. rewrite EO, EI, Cons, B5 by assumption. reflexivity.
  - rewrite EO, C1, ET, B1. lia.
  - rewrite EI, C2, B2. lia.
  - rewrite EO, C3, B3. lia.
  - rewrite EI, C4, ET, B4. lia.
  - intros j Hj HC. destruct (Hex j Hj HC) as (X1 & X2 & X3 & X4). destruct (next_exact g Hcap F p pf HS Hnd Ho Hpf Dpf Ppf Lpf j X a b Hj HC X1 Hab Eab) as [Y1 Y2]. rewrite ET. splits.
    + exact Y2.
    + apply Z.divide_add_r; auto.
    + intros L. rewrite Ut', X3 by (set (B := 2 ^ (j + 53)) in *; clearbody B; lia). apply (rnd_fit j); auto; [set (B := 2 ^ (j + 53)) in *; clearbody B; lia|apply Z.divide_add_r; auto].
    + intros FU DU LU LT. destruct X4 as [F4 E4]; auto; [lia|]. destruct (sub_fa u pf F4 Hpf) as [F5 E5]; [lia|]. split; [exact F5|]. rewrite E5, E4.
      replace (units U - sumZ pfs units - units pf) with (units U - (sumZ pfs units + units pf)) by lia. apply (rnd_fit j); auto; [set (B := 2 ^ (j + 53)) in *; clearbody B; lia|]. apply Z.divide_sub_r; auto. apply Z.divide_add_r; auto. Qed.
Lemma fl_loop gs0 : fl_inv (U, f0, gs0) ->
  exists r, returns2 (fun n m => loop n (gmf_step f64 fsub finv m g s e) (U, f0, gs0)) r /\ fl_post r.
Proof. intros Hinit. pose proof (reachable_wf _ Rg) as HW.
  apply (loop_returns2 (fun m => gmf_step f64 fsub finv m g s e) fl_inv (fun st' st => forall F F', (forall x y, edge (fst (fst (snd st))) x y = F x y) -> (forall x y, edge (fst (fst (snd st'))) x y = F' x y) -> (work g F' < work g F)%nat) fl_post); [| |exact Hinit].
  - intros st. assert (Hwf : forall n st, (work g (fun x y => edge (fst (fst (snd st))) x y) < n)%nat -> Acc (fun st' st : spec_float * spec_float * (graph * graph * graph) => forall F F', (forall x y, edge (fst (fst (snd st))) x y = F x y) -> (forall x y, edge (fst (fst (snd st'))) x y = F' x y) -> (work g F' < work g F)%nat) st).
    { induction n as [|n IH]; intros st0 Hn; [lia|]. constructor. intros st1 H1. apply IH. specialize (H1 (fun x y => edge (fst (fst (snd st0))) x y) (fun x y => edge (fst (fst (snd st1))) x y) (fun x y => eq_refl) (fun x y => eq_refl)). eapply Nat.lt_le_trans; [exact H1|lia]. }
    apply (Hwf (S (work g (fun x y => edge (fst (fst (snd st))) x y)))). lia.
  - intros [[u t] [[flow cap] ig]] (F & X & pfs & HG & HB). pose proof HG as (R1 & R2 & R3 & R4 & E1 & E2 & E3). pose proof HB as (HS & _).
    assert (SFeqb u f0 = true \/ ~ reach (fun x y => fu F x y < cu x y) s e -> fl_post (Ok (t, flow))) as Hdone.
    { intros Hd. exists u, t, flow, F, X, pfs. splits; auto. }
    destruct (SFeqb u f0) eqn:Eu.
    + exists (inr (Ok (t, flow))). split; [|apply Hdone; auto]. apply (settles_ext (fun _ => inr (Ok (t, flow)))); [|apply settles_const; discriminate]. intros n. unfold gmf_step. change (a_eqb f64 u (a_zero f64)) with (SFeqb u f0). rewrite Eu. reflexivity.
    + destruct (search_finds_paths ig s e R3) as (o & Hret & Hop).
      { intros x y w Ew. exact (proj2 (ig_edge g Hcap _ F flow cap ig x y HS HG) w Ew). }
      { apply contains_In, R4. cbn; auto. }
      { apply contains_In, R4. cbn; auto. }
      destruct o as [p|].
      * assert (simple_path (fun x y => fu F x y < cu x y) s p e) as Hsp. { destruct Hop as [Hp Hn]. split; [|exact Hn]. eapply path_mono; [|exact Hp]. intros x y _ _ Hxy. apply (ig_edge g Hcap _ F flow cap ig x y HS HG), Hxy. }
        assert (path (has_edge g) s p e) as Hpg. { eapply path_mono; [|apply Hsp]. intros x y _ _ Hxy. destruct (open_edge g Hcap F x y HS Hxy) as (c & Ec & _). exists c. exact Ec. }
        destruct (gmf_iteration f64 fsub finv 0 g s e p u t flow cap ig F [s; e] HW Hse HG Hpg (proj2 Hsp)) as (es & pf & gs' & H1 & H2 & H3 & H4 & H5 & _).
        assert (forall x y, 0 < steps_of p x y -> fu F x y < cu x y) as Ho by (intros x y Hxy; exact (steps_of_pos _ _ _ _ _ _ (proj1 Hsp) Hxy)).
        destruct (path_flow g Hcap _ F flow cap ig p es pf HS HG H2 H3 Ho) as (K1 & K2 & K3 & K4 & a & b & K5 & K6).
        destruct (books_next F X pfs u t p pf a b HB Hsp K1 K2 K3 K4 K5 K6) as [HB' Hlt].
        assert (forall m, gmf_search f64 m ig s e = Ok (Some p) -> gmf_step f64 fsub finv m g s e (u, t, (flow, cap, ig)) = inl (fsub u pf, fadd t pf, gs')) as Hstep.
        { intros m Em. unfold gmf_step. change (a_eqb f64 u (a_zero f64)) with (SFeqb u f0). rewrite Eu. cbn [snd fst]. rewrite Em. cbn [bind]. rewrite H1. cbn [bind]. rewrite H3. cbn [bind]. rewrite H4. reflexivity. }
        exists (inl (fsub u pf, fadd t pf, gs')). split.
        -- destruct Hret as (_ & [K HK] & Ho2). hnf; splits; [discriminate| |].
           ++ exists K. intros n Hn. apply Hstep, HK, Hn.
           ++ intros n. destruct (Ho2 n) as [E|E]; [left|right; apply Hstep, E]. unfold gmf_step. change (a_eqb f64 u (a_zero f64)) with (SFeqb u f0). rewrite Eu. cbn [snd fst]. rewrite E. reflexivity.
        -- split; [exists (gaddP f64 F p pf), (fun x y => X x y + units pf * steps_of p x y), (pfs ++ [pf]); split; [exact H5|exact HB']|].
           cbn [snd fst]. destruct gs' as [[flow' cap'] ig']. destruct H5 as (_ & _ & _ & _ & E1' & _). cbn [fst]. intros F0 F1 E0 E1''.
           assert (forall G G' : A -> A -> option spec_float, (forall x y, G x y = G' x y) -> work g G = work g G') as We. { intros G G' EG. unfold work. f_equal. apply map_ext. intros ed. unfold score, fu. rewrite EG. reflexivity. }
           rewrite (We F0 F), (We F1 (gaddP f64 F p pf)); auto; intros x y; [rewrite <- E1'', E1'|rewrite <- E0, E1]; reflexivity.
      * exists (inr (Ok (t, flow))). split.
        -- assert (forall m, gmf_search f64 m ig s e = Ok None -> gmf_step f64 fsub finv m g s e (u, t, (flow, cap, ig)) = inr (Ok (t, flow))) as Hstep.
           { intros m Em. unfold gmf_step. change (a_eqb f64 u (a_zero f64)) with (SFeqb u f0). rewrite Eu. cbn [snd fst]. rewrite Em. reflexivity. }
           destruct Hret as (_ & [K HK] & Ho2). hnf; splits; [discriminate| |].
           ++ exists K. intros n Hn. apply Hstep, HK, Hn.
           ++ intros n. destruct (Ho2 n) as [E|E]; [left|right; apply Hstep, E]. unfold gmf_step. change (a_eqb f64 u (a_zero f64)) with (SFeqb u f0). rewrite Eu. cbn [snd fst]. rewrite E. reflexivity.
        -- apply Hdone. right. intros C. apply Hop. eapply reach_mono; [|exact C]. intros x y Hxy. apply (ig_edge g Hcap _ F flow cap ig x y HS HG), Hxy. Qed.
End L.

Section Top.
Context {A O : Type} {EA : EqDec A} (sumf : list spec_float -> spec_float) (Hsum : sums sumf).
Notation graph := (graph A O spec_float).
Implicit Types (g : graph) (s e : A).
Definition first_unassigned g s e : spec_float := pmin f64 (sumf (map snd (edges_from g s))) (sumf (map snd (edges_to g e))).
Lemma zero_sum g l : (forall x, In x l -> f64_good x) -> SFeqb (sumf l) f0 = false -> exists x, In x l /\ SFeqb x f0 = false.
Proof. intros HG E. destruct (Hsum l HG) as [_ Hz]. induction l as [|x l IH]; [rewrite Hz in E; [discriminate|intros ? []]|]. clear IH.
  assert (forall m, (exists x, In x m /\ SFeqb x f0 = false) \/ (forall x, In x m -> SFeqb x f0 = true)) as D.
  { induction m as [|z m IH]; [right; intros ? []|]. destruct (SFeqb z f0) eqn:Ez; [|left; exists z; cbn; auto]. destruct IH as [(w & Hw & K)|K]; [left; exists w; cbn; auto|right]. intros w [<-|Hw]; auto. }
  destruct (D (x :: l)) as [K|K]; [exact K|]. rewrite Hz in E by exact K. discriminate. Qed.
Lemma maximum_flow_floats g s e : reachable g -> capacities g -> contains g s = true -> contains g e = true -> s <> e ->
  exists r, returns (fun n => gmaximum_flow f64 fsub finv sumf n g s e) r /\ fl_post g s e (first_unassigned g s e) r.
Proof. intros Rg Hcap Hs He Hse. unfold gmaximum_flow. rewrite Hs, He. cbn [negb]. fold (first_unassigned g s e). set (U := first_unassigned g s e). pose proof (reachable_wf _ Rg) as HW. apply contains_In in Hs, He.
  assert (forall x y c, edge g x y = Some c -> f64_good c) as HG by (intros x y c E; apply (Hcap _ _ _ E)).
  assert (forall x y c, edge g x y = Some c -> SFeqb c f0 = false -> a_ltb f64 (a_zero f64) c = true) as Hlt.
  { intros x y c E Ez. destruct (Hcap _ _ _ E) as [Hc _]. change (a_ltb f64 (a_zero f64) c) with (SFltb f0 c). destruct zero_fa as [Z1 Z2]. rewrite lt_fa by auto. rewrite Z2. apply Z.ltb_lt. destruct (fa_facts c Hc) as (Gc & _ & P & _).
    destruct (Z.eq_dec (units c) 0) as [E0|]; [|lia]. assert (SFeqb c f0 = true) by (apply eq_zero; auto). congruence. }
  set (l1 := map snd (edges_from g s)). set (l2 := map snd (edges_to g e)).
  assert (forall c, In c l1 -> exists y, edge g s y = Some c) as H1. { intros c Hc. apply in_map_iff in Hc. destruct Hc as (ed & <- & Hed). apply (In_edges_from g s _ HW) in Hed. destruct Hed as (y & v & -> & Ev). exists y. exact Ev. }
  assert (forall c, In c l2 -> exists y, edge g y e = Some c) as H2. { intros c Hc. apply in_map_iff in Hc. destruct Hc as (ed & <- & Hed). apply (In_edges_to g e _ HW) in Hed. destruct Hed as (y & v & -> & Ev). exists y. exact Ev. }
  assert (forall c, In c l1 -> f64_good c) as G1 by (intros c Hc; destruct (H1 c Hc) as (y & Ey); eapply HG; eauto). assert (forall c, In c l2 -> f64_good c) as G2 by (intros c Hc; destruct (H2 c Hc) as (y & Ey); eapply HG; eauto).
  destruct (SFeqb U f0) eqn:EU.
  - destruct (gmf_init f64 fsub finv g [] Rg ltac:(intros ? [])) as (ig & -> & HGr). cbn [bind]. exists (Ok (f0, empty_graph)). split.
    + hnf. splits; [discriminate| |].
      * exists 1%nat. intros n Hn. destruct n; [lia|]. cbn [loop]. unfold gmf_step at 1. change (a_eqb f64 U (a_zero f64)) with (SFeqb U f0). rewrite EU. reflexivity.
      * intros n. destruct n; [left; reflexivity|right]. cbn [loop]. unfold gmf_step at 1. change (a_eqb f64 U (a_zero f64)) with (SFeqb U f0). rewrite EU. reflexivity.
    + exists U, f0, empty_graph, (fun _ _ => None), (fun _ _ => 0), []. splits; auto using reachable_empty, books_init.
  - assert (SFeqb (sumf l1) f0 = false /\ SFeqb (sumf l2) f0 = false) as [N1 N2].
    { destruct (Hsum l1 G1) as [K1 _]. destruct (Hsum l2 G2) as [K2 _]. unfold U, first_unassigned, pmin in EU. fold l1 l2 in EU. change (a_ltb f64) with SFltb in EU. rewrite (ltb_spec 53 1024) in EU by (auto; lia).
      assert (forall w, f64_good w -> SFeqb w f0 = true <-> ival 53 1024 w = Fin 0) as Ez. { intros w Gw. rewrite (eq_zero w Gw). split; [intros [K E]; destruct (fa_facts w K) as (_ & -> & _); rewrite E; reflexivity|intros E; apply good_of; auto]. }
      assert (forall w, f64_good w -> match ival 53 1024 w with Fin z => 0 <= z | Inf => True end) as Ep. { intros w Gw. pose proof (ival_rep 53 1024 ltac:(lia) ltac:(lia) w Gw) as R. destruct (ival 53 1024 w); [apply R|exact Logic.I]. }
      pose proof (Ep _ K1) as P1. pose proof (Ep _ K2) as P2. split.
      - destruct (SFeqb (sumf l1) f0) eqn:E; [exfalso|reflexivity]. apply Ez in E; [|exact K1]. rewrite E in EU. destruct (ival 53 1024 (sumf l2)) as [z|]; cbn [ext_ltb] in EU; [destruct (Z.ltb_spec z 0); [lia|]|]; apply Ez in E; auto; congruence.
      - destruct (SFeqb (sumf l2) f0) eqn:E; [exfalso|reflexivity]. pose proof E as E'. apply Ez in E; [|exact K2]. rewrite E in EU. destruct (ival 53 1024 (sumf l1)) as [z|] eqn:E1; cbn [ext_ltb] in EU; [destruct (Z.ltb_spec 0 z); [congruence|]|congruence]. assert (z = 0) as -> by lia. apply Ez in E1; auto. congruence. }
    apply (zero_sum g) in N1; [|exact G1]. apply (zero_sum g) in N2; [|exact G2]. destruct N1 as (c1 & I1 & N1). destruct N2 as (c2 & I2 & N2). destruct (H1 _ I1) as (y1 & Y1). destruct (H2 _ I2) as (y2 & Y2).
    destruct (gmf_init f64 fsub finv g [s; e] Rg) as (ig & -> & HGr).
    { intros z [<-|[<-|[]]]; [exists y1, c1|exists y2, c2]; (split; [eapply Hlt; eauto|auto]). }
    cbn [bind]. destruct (fl_loop g Rg Hcap s e Hs Hse U (empty_graph, empty_graph, ig)) as (r & Hr & Hpost).
    { exists (fun _ _ => None), (fun _ _ => 0), []. split; [exact HGr|apply books_init; auto]. }
    exists r. split; [|exact Hpost]. apply returns2_diag in Hr. exact Hr. Qed.
End Top.
