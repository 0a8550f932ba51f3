(** minimum_cost_flow on floats: the loop. *)
From Coq Require Import ZArith SpecFloat Sorted.
From Verif Require Import Prelude PreludeFacts Base BaseFacts BaseFacts2 BaseFacts3 Spec SpecFacts Loop SearchFacts
  BaseAlgFacts Sp SpFacts Fw FwFacts PropsFw FlowSpec Flow FlowFacts MaxFlowFacts FlowFacts2 HashFacts AssignFacts McfSpec Mcf McfFacts
  GSp Float64 FloatExact FloatSigned FloatStep GCpmSpec CpmFloat PropsFloat GFlow GFlowSpec FlowFloat FlowFloat2 GMcf GMcfSpec McfFloat McfFloat2.
Local Open Scope Z_scope.

Section L.
Context {A O : Type} {EA : EqDec A}.
Notation graph := (graph A O Z).
Notation amounts := (Base.graph A O spec_float).
Context (srt : list (spec_float * A) -> list (spec_float * A)) (near : list (ext * (spec_float * A)) -> ext * (spec_float * A)).
Hypothesis Hsrt : sorts_by_float srt.
Hypothesis Hnear : picks_least near.
Context (costs : graph) (capg : amounts) (stock : A -> spec_float).
Hypothesis HR : reachable costs.
Hypothesis Hnn : nonneg costs.
Hypothesis Hlinks : forall x y, has_edge capg x y <-> has_edge costs x y.
Hypothesis Hcap0 : forall x y c, edge capg x y = Some c -> f64_good c.
Hypothesis Hstock : forall x, a_stock (stock x).
Hypothesis Hin : forall x, units (stock x) <> 0 -> In x (nodes costs).
Implicit Types (F C : A -> A -> option spec_float) (X : A -> A -> Z) (lv : A -> spec_float).
Notation st x := (units (stock x)).
Notation cnt := (cnt capg).
Notation gpedge := (gpedge costs).
Notation gmrep := (gmrep costs).
Notation num_inv := (num_inv costs capg stock).
Notation step := (gmcf_step f64 fsub SFabs srt near).
Notation srtd := (StronglySorted (fun x y : spec_float * A => SFltb (fst y) (fst x) = false)).
Definition fbal lv (bal : list (spec_float * A)) : Prop := srtd bal /\ NoDup bal /\ forall v x, In (v, x) bal <-> units v <> 0 /\ v = lv x.
Lemma srtd_remove x l : srtd l -> srtd (lremove x l).
Proof. induction l as [|y l IH]; intros H; [constructor|]. apply StronglySorted_inv in H. destruct H as [H1 H2]. cbn [lremove]. destruct (eq_dec x y); [exact H1|].
  constructor; [apply IH, H1|]. rewrite Forall_forall in *. intros z Hz. apply H2. eapply lremove_In, Hz. Qed.
Definition flive C (xy : A * A) : bool := match gpedge C (fst xy) (snd xy) with Some _ => true | None => false end.
Notation pairs := (list_prod (nodes costs) (nodes costs)).
Definition fedges (h : graph) : nat := length (filter (fun xy : A * A => match edge h (fst xy) (snd xy) with Some _ => true | None => false end) pairs).
Definition fmu (s : list (spec_float * A) * gmcf_graphs (A := A) (O := O) (W := spec_float)) : nat := (fedges (snd (fst (snd s))) + length (fst s))%nat.
Lemma fedges_live C h : (forall x y, edge h x y = gpedge C x y) -> fedges h = length (filter (flive C) pairs).
Proof. intros E. unfold fedges. f_equal. apply filter_ext. intros [x y]. unfold flive. cbn. rewrite E. reflexivity. Qed.
Context (mu0 : nat).
Definition finv_st (s : list (spec_float * A) * gmcf_graphs (A := A) (O := O) (W := spec_float)) : Prop :=
  exists k lv F C X, gmrep F C (snd s) /\ num_inv (Z.of_nat k) lv F C X /\ fbal lv (fst s) /\ (k + fmu s <= mu0)%nat.
Definition fpost (r : res amounts) : Prop := exists k lv F C X, num_inv (Z.of_nat k) lv F C X /\ (k <= mu0)%nat /\
  match r with
  | Ok flows => reachable flows /\ (forall x y, edge flows x y = F x y) /\ ((forall x, st x < 0 -> units (lv x) = 0) \/ (forall x, 0 < st x -> units (lv x) = 0))
  | Err e => e = BadLogic /\ exists t, units (lv t) < 0 /\ (exists s, 0 < units (lv s)) /\ forall s, 0 < units (lv s) -> ~ reach (fun x y => gpedge C x y <> None) s t
  | OutOfFuel => False
  end.
Lemma floop bal gs : finv_st (bal, gs) -> exists r, returns2 (fun n m => loop n (step m capg) (bal, gs)) r /\ fpost r.
Proof. intros Hinit. pose proof (reachable_wf _ HR) as HW.
  apply (loop_returns2 (fun m => step m capg) finv_st (fun a b => (fmu a < fmu b)%nat) fpost); [apply (wf_of lt fmu), lt_wf| |exact Hinit].
  clear Hinit bal gs. intros [bal gs] (k & lv & F & C & X & HM & HI & HB & Hmu). cbn [fst snd] in *. destruct HB as (Bs & Bn & Bi). pose proof HM as HM0.
  destruct gs as [[[flows caps] paths] distances]. destruct HM as (R1 & R2 & R3 & N3 & E1 & E2 & E3 & ->). pose proof HI as (_ & I1 & I2 & I3 & I4 & I5 & I6 & _).
  destruct zero_fa as [Z1 Z2]. assert (forall w, finite_number w -> SFltb f0 w = (0 <? units w)) as P0 by (intros w Hw; rewrite fin_lt by (auto using fa_fin); rewrite Z2; reflexivity).
  assert (forall w, finite_number w -> SFltb w f0 = (units w <? 0)) as M0 by (intros w Hw; rewrite fin_lt by (auto using fa_fin); rewrite Z2; reflexivity).
  assert ((forall x, st x < 0 -> units (lv x) = 0) \/ (forall x, 0 < st x -> units (lv x) = 0) -> fpost (Ok flows)) as Hdone.
  { intros HD. exists k, lv, F, C, X. splits; auto. lia. }
  destruct bal as [|[D Dn] bal].
  { exists (inr (Ok flows)). split; [refine (settles_ext _ _ _ _ (settles_const _ _)); [reflexivity|discriminate]|]. apply Hdone. left. intros x Hx. destruct (Z.eq_dec (units (lv x)) 0) as [h|h]; [exact h|].
    exfalso. assert (In (lv x, x) []) as [] by (apply Bi; auto). }
  destruct (proj1 (Bi D Dn) (or_introl eq_refl)) as [hD0 HDn]. assert (finite_number D) as FD by (rewrite HDn; apply I1).
  cbn [gmcf_step]. change (a_ltb f64 (a_zero f64) D) with (SFltb f0 D). rewrite (P0 D FD). destruct (Z.ltb_spec 0 (units D)) as [hD|hD].
  { exists (inr (Ok flows)). split; [refine (settles_ext _ _ _ _ (settles_const _ _)); [reflexivity|discriminate]|]. apply Hdone. left. intros x Hx. destruct (I1 x) as [Fx Bx]. destruct (Z.eq_dec (units (lv x)) 0) as [h|h]; [exact h|].
    exfalso. assert (In (lv x, x) ((D, Dn) :: bal)) as [K|K] by (apply Bi; auto).
    - inv K. lia.
    - apply StronglySorted_inv in Bs. destruct Bs as [_ Bs]. rewrite Forall_forall in Bs. specialize (Bs _ K). cbn [fst] in Bs. rewrite fin_lt in Bs by assumption. apply Z.ltb_ge in Bs. lia. }
  assert (units (lv Dn) < 0) as HDneg by (rewrite <- HDn; lia).
  assert (forall x, units (lv x) <> 0 -> In x (nodes costs)) as Hst0 by (intros x Hx; apply Hin; destruct (I1 x); lia).
  assert (In Dn (nodes costs)) as HDN by (apply Hst0; lia).
  assert (nonneg paths) as Hnp by (intros x y w Hxy; rewrite E3 in Hxy; apply gpedge_costs in Hxy; apply (Hnn _ _ _ Hxy)).
  pose proof (reachable_wf _ R3) as W3.
  destruct (C29_all_pairs_exact paths R3 (nonneg_no_neg_cycle paths Hnp)) as (Hap & _ & _).
  assert (forall x, In x (nodes costs) -> exists d, eget (all_pairs_shortest_paths paths) x Dn = Some d /\ dist (gpedge C) x Dn d) as Hdist.
  { intros x Hx. destruct (Hap x Dn) as (d & Hd1 & Hd2); [apply contains_In; rewrite N3; auto|apply contains_In; rewrite N3; auto|]. exists d. split; [exact Hd1|]. apply (dist_ext (edge paths)); auto. }
  apply NoDup_cons_iff in Bn. destruct Bn as [Bn1 Bn2].
  assert (forall x, 0 < units (lv x) -> In (lv x, x) bal) as Hinb.
  { intros x Hx. assert (In (lv x, x) ((D, Dn) :: bal)) as [K|K] by (apply Bi; split; [lia|reflexivity]); [inv K; lia|exact K]. }
  destruct (gsites_spec (all_pairs_shortest_paths paths) Dn bal) as (sites & Es & Hs).
  { intros E En Hi HE. destruct (proj1 (Bi E En) (or_intror Hi)) as [K1 K2]. destruct (Hdist En) as (d & Hd & _); [|eauto]. apply Hst0. congruence. }
  rewrite Es. cbn [bind]. destruct sites as [|site0 sites0].
  { exists (inr (Ok flows)). split; [refine (settles_ext _ _ _ _ (settles_const _ _)); [reflexivity|discriminate]|]. apply Hdone. right. intros x Hx. destruct (I1 x) as [Fx Bx]. destruct (Z.eq_dec (units (lv x)) 0) as [h|h]; [exact h|].
    exfalso. assert (0 < units (lv x)) as h' by lia. destruct (Hdist x) as (d & Hd & _); [apply Hst0; lia|].
    assert (In (d, (lv x, x)) []) as [] by (apply Hs; splits; auto; rewrite P0 by exact Fx; apply Z.ltb_lt, h'). }
  set (sites := site0 :: sites0) in *. destruct (Hnear sites) as [Hn1 Hn2]; [discriminate|]. destruct (near sites) as [dist0 [E En]] eqn:En0. cbn [fst] in Hn2.
  apply Hs in Hn1. destruct Hn1 as (HiE & HE & HdE). destruct (proj1 (Bi E En) (or_intror HiE)) as [_ HEn]. assert (finite_number E) as FE by (rewrite HEn; apply I1). rewrite (P0 E FE) in HE. apply Z.ltb_lt in HE.
  assert (In En (nodes costs)) as HEN by (apply Hst0; rewrite <- HEn; lia).
  assert (dist (gpedge C) En Dn dist0) as Hd0 by (destruct (Hdist En HEN) as (d & Hd1 & Hd2); congruence).
  assert (forall x, 0 < units (lv x) -> exists dx, dist (gpedge C) x Dn dx /\ ext_le dist0 dx) as Hnearest.
  { intros x Hx. destruct (Hdist x) as (d & Hd1 & Hd2); [apply Hst0; lia|]. exists d. split; [exact Hd2|]. apply (Hn2 (d, (lv x, x))). apply Hs. splits; auto. rewrite P0 by apply I1. apply Z.ltb_lt, Hx. }
  change (a_ltb f64 E (a_zero f64)) with (SFltb E f0). rewrite (M0 E FE). destruct (Z.ltb_spec (units E) 0) as [hE|_]; [lia|]. cbn match.
  destruct dist0 as [d|].
  2:{ exists (inr (Err BadLogic)). split; [refine (settles_ext _ _ _ _ (settles_const _ _)); [reflexivity|discriminate]|]. exists k, lv, F, C, X. splits; [exact HI|lia|reflexivity|]. exists Dn. splits.
      - exact HDneg.
      - exists En. congruence.
      - intros s H1 (q & Hq). destruct (Hnearest s H1) as (dx & Hdx & Hle). destruct dx as [z|]; [contradiction|].
        assert (path (erel (gpedge C)) s q Dn) as Hq' by (eapply path_mono; [|exact Hq]; intros x y _ _ Hxy; unfold erel; destruct (gpedge C x y) as [w|] eqn:Ew; [eauto|congruence]).
        apply path_wpath in Hq'. destruct Hq' as (z & Hz). apply (Hdx q z Hz). }
  cbn [ext_eqb].
  assert (En <> Dn) as Hne by (intros ->; congruence || (rewrite <- HEn in HDneg; lia)).
  destruct (shortest_path_dist paths En Dn W3 Hnp) as (d1 & p & Hr & Hd1 & Hp); [rewrite N3; auto|rewrite N3; auto|].
  assert (d1 = Fin d) as -> by (eapply dist_fun; [|exact Hd0]; apply (dist_ext (edge paths)); auto).
  assert (NoDup p) as Hnd by (destruct Hr as (_ & [K HK] & _); eapply shortest_path_simple; apply (HK K (le_n K))).
  assert (wpath (gpedge C) En p Dn d) as Hp' by (eapply wpath_mono; [|exact Hp]; intros x y w _ _; rewrite E3; auto).
  assert (simple_path (erel (gpedge C)) En p Dn) as Hsp by (split; [apply (wpath_path _ _ _ _ _ Hp')|exact Hnd]).
  assert (incl p (nodes costs)) as Hpi by (intros x Hx; rewrite <- N3; eapply wpath_in_nodes; [exact W3| |exact Hp|exact Hx]; rewrite N3; exact HEN).
  assert (forall a b, In (a, b) (zip_next p) -> has_edge capg a b /\ gpedge C a b = edge costs a b /\ gpedge C a b <> None) as Hz.
  { intros a b Hab. apply zip_next_steps in Hab. apply (steps_of_pos _ _ _ _ _ _ (proj1 Hsp)) in Hab. destruct Hab as (w & Hw). pose proof (gpedge_costs costs _ _ _ _ Hw) as Hc.
    splits; [apply Hlinks; exists w; exact Hc|congruence|congruence]. }
  assert (forall a b, In (a, b) (zip_next p) -> has_edge capg a b) as Hzc by (intros a b Hab; apply (Hz a b Hab)).
  assert (zip_next p <> []) as Hzn.
  { destruct (path_head _ _ _ _ (proj1 Hsp)) as (q & ->). destruct q as [|b q]; [|discriminate]. exfalso. apply Hne. destruct Hsp as [Hsp _]. apply path_inv1 in Hsp. destruct Hsp. congruence. }
  destruct (glimit_spec costs capg F C (flows, caps, paths, all_pairs_shortest_paths paths) (zip_next p) HM0 I5 Hzn Hzc) as (limit & El & Gl & (la & lb & Hlab & Hl1) & Hl2).
  cbn [fst snd] in El. set (L := gmcf_amount f64 SFabs E D limit).
  assert (finite_amount E) as AE by (apply fin_fa; [exact FE|lia]). destruct (fin_abs D FD hD) as [AD UD].
  assert (finite_amount L /\ units L <= units E /\ units L <= - units D /\ cle L limit /\ (L = E \/ L = SFabs D \/ L = limit)) as (HL & L1 & L2 & L3 & L5).
  { unfold L, gmcf_amount. destruct (pmin_spec E (SFabs D) (proj1 AE) (proj1 AD)) as (Gm & Cm & M1 & M2). set (m := pmin f64 E (SFabs D)) in *. assert (finite_amount m) as Fm by (apply (cle_finite m E); auto).
    destruct (pmin_spec m limit Gm Gl) as (Gq & Cq & Q1 & Q2). set (q := pmin f64 m limit) in *. assert (finite_amount q) as Fq by (apply (cle_finite q m); auto).
    apply cle_fin in M1; auto. apply cle_fin in M2; auto. pose proof (proj1 (cle_fin q m Fq Fm) Q1) as Q1'. splits; auto; try lia. destruct Cq as [->| ->]; [destruct Cm as [->| ->]|]; auto. }
  destruct (gupdates costs capg L (zip_next p) F C (flows, caps, paths, all_pairs_shortest_paths paths) HM0 (zip_next_NoDup p Hnd)) as (gs' & Egs & HM'); [intros a b Hab; destruct (Hz a b Hab) as (K1 & K2 & _); auto|].
  assert (num_inv (Z.of_nat k + 1) (lv' lv En Dn L) (moreF F L (zip_next p)) (lessC capg C L (zip_next p)) (X' X p L)) as HI'.
  { apply (num_next costs capg stock HR Hlinks Hcap0 Hstock (Z.of_nat k) lv F C X HI En Dn p L (erel (gpedge C))); auto; try congruence.
    - intros a b Hab. apply (cle_trans L limit); auto; apply HL.
    - destruct L5 as [h|[h|h]]; [left; congruence|right; left; congruence|right; right; exists la, lb; split; [exact Hlab|congruence]]. }
  set (bal1 := lremove (E, En) bal). set (bal2 := if SFltb f0 (fsub E L) then srt ((fsub E L, En) :: bal1) else bal1). set (bal3 := if SFltb (fadd D L) f0 then srt ((fadd D L, Dn) :: bal2) else bal2).
  exists (inl (bal3, gs')). split.
  { destruct Hr as (_ & [K HK] & Hr2). hnf; splits; [discriminate| |].
    - exists K. intros n Hn. rewrite (HK n Hn). cbn [bind snd]. rewrite El. cbn [bind]. fold L. rewrite Egs. reflexivity.
    - intros n. destruct (Hr2 n) as [-> | ->]; [left; reflexivity|right]. cbn [bind snd]. rewrite El. cbn [bind]. fold L. rewrite Egs. reflexivity. }
  destruct (nextE_spec E L AE HL L1) as (V1 & V2 & V3 & V4). destruct (nextD_spec D L FD HL L2) as (W1 & W2 & W3' & W4).
  assert (lv' lv En Dn L En = nextE E L) as LE by (unfold lv'; destruct (eq_dec En En); congruence).
  assert (lv' lv En Dn L Dn = nextD D L) as LD by (unfold lv'; destruct (eq_dec Dn En); [congruence|]; destruct (eq_dec Dn Dn); congruence).
  assert (forall x, x <> En -> x <> Dn -> lv' lv En Dn L x = lv x) as LO by (intros x H1 H2; unfold lv'; destruct (eq_dec x En); [congruence|]; destruct (eq_dec x Dn); [congruence|reflexivity]).
  set (lv1 := lv' lv En Dn L) in *. clearbody lv1.
  assert (Hbal1 : forall v x, In (v, x) bal1 <-> units v <> 0 /\ v = lv x /\ x <> En /\ x <> Dn).
  { intros v x. unfold bal1. rewrite In_lremove_NoDup by exact Bn2. split.
    - intros [H1 H2]. destruct (proj1 (Bi v x) (or_intror H1)) as [K1 K2]. splits; auto; intros ->; [apply H2; congruence|apply Bn1; congruence].
    - intros (K1 & K2 & K3 & K4). assert (In (v, x) ((D, Dn) :: bal)) as [K|K] by (apply Bi; auto); [congruence|]. split; [exact K|congruence]. }
  assert (Nbal1 : NoDup bal1) by (apply NoDup_lremove, Bn2).
  assert (Sbal1 : srtd bal1) by (apply srtd_remove; apply StronglySorted_inv in Bs; apply Bs).
  assert (forall z, In z bal1 -> finite_number (fst z)) as Fbal1 by (intros [v x] Hv; apply Hbal1 in Hv; destruct Hv as (_ & -> & _); apply I1).
  destruct zero_fa as [_ Zu].
  assert (Hbal2 : srtd bal2 /\ NoDup bal2 /\ (forall v x, In (v, x) bal2 <-> units v <> 0 /\ v = lv1 x /\ x <> Dn) /\ forall z, In z bal2 -> finite_number (fst z)).
  { unfold bal2. unfold nextE in LE, V2, V1. rewrite V4 in *. destruct (Z.ltb_spec (units L) (units E)) as [h|h].
    - destruct (Hsrt ((fsub E L, En) :: bal1)) as [Q1 Q2]; [intros z [<-|Hz']; [apply fa_fin, V1|apply Fbal1, Hz']|]. splits; [exact Q2| | |].
      + apply (Permutation_NoDup (Permutation_sym Q1)). constructor; [|exact Nbal1]. intros K. apply Hbal1 in K. tauto.
      + intros v x. transitivity (In (v, x) ((fsub E L, En) :: bal1)); [split; apply Permutation_in; [exact Q1|symmetry; exact Q1]|]. cbn [In]. rewrite Hbal1. split.
        * intros [K|(K1 & K2 & K3 & K4)]; [inv K; splits; auto; rewrite V2; apply Z.neq_sym, Z.lt_neq, rnd_pos; lia|splits; auto; rewrite (LO x K3 K4); exact K2].
        * intros (K1 & K2 & K3). destruct (eq_dec x En) as [->|h1]; [left; congruence|right]. splits; auto. rewrite <- (LO x h1 K3). exact K2.
      + intros z Hz'. apply (Permutation_in _ Q1) in Hz'. destruct Hz' as [<-|Hz']; [apply fa_fin, V1|apply Fbal1, Hz'].
    - splits; auto. intros v x. rewrite Hbal1. split.
      * intros (K1 & K2 & K3 & K4). splits; auto. rewrite (LO x K3 K4). exact K2.
      * intros (K1 & K2 & K3). destruct (eq_dec x En) as [->|h1]; [exfalso; rewrite K2, LE, Zu in K1; lia|]. splits; auto. rewrite <- (LO x h1 K3). exact K2. }
  destruct Hbal2 as (Sbal2 & Nbal2 & Hbal2 & Fbal2).
  assert (HB' : fbal lv1 bal3).
  { unfold fbal, bal3. unfold nextD in LD, W2, W1. rewrite W4 in *. destruct (Z.ltb_spec (units L) (- units D)) as [h|h].
    - destruct (Hsrt ((fadd D L, Dn) :: bal2)) as [Q1 Q2]; [intros z [<-|Hz']; [exact W1|apply Fbal2, Hz']|]. splits; [exact Q2| |].
      + apply (Permutation_NoDup (Permutation_sym Q1)). constructor; [|exact Nbal2]. intros K. apply Hbal2 in K. tauto.
      + intros v x. transitivity (In (v, x) ((fadd D L, Dn) :: bal2)); [split; apply Permutation_in; [exact Q1|symmetry; exact Q1]|]. cbn [In]. rewrite Hbal2. split.
        * intros [K|(K1 & K2 & K3)]; [assert (v = fadd D L /\ x = Dn) as [-> ->] by (split; congruence); split; [|congruence]; rewrite W2; pose proof (rnd_pos 53 ltac:(lia) (- units D - units L) ltac:(lia)); lia|auto].
        * intros (K1 & K2). destruct (eq_dec x Dn) as [->|h1]; [left; congruence|right; auto].
    - splits; auto. intros v x. rewrite Hbal2. split; [tauto|]. intros (K1 & K2). destruct (eq_dec x Dn) as [->|h1]; [exfalso; rewrite K2, LD, Zu in K1; lia|auto]. }
  assert (fmu (bal3, gs') < fmu ((D, Dn) :: bal, (flows, caps, paths, all_pairs_shortest_paths paths)))%nat as Hlt.
  { unfold fmu. cbn [fst snd]. destruct gs' as [[[flows' caps'] paths'] distances']. cbn [fst snd]. pose proof HM' as (_ & _ & _ & _ & _ & _ & E3' & _).
    set (C' := lessC capg C L (zip_next p)) in *. rewrite (fedges_live C paths E3), (fedges_live C' paths' E3').
    assert (forall xy, flive C' xy = true -> flive C xy = true) as Hlive.
    { intros [x y]. unfold flive. cbn [fst snd]. destruct (mem_spec (x, y) (zip_next p)) as [h|h].
      - destruct (Hz x y h) as (_ & _ & K). destruct (gpedge C x y); [auto|congruence].
      - assert (gpedge C' x y = gpedge C x y) as ->; [|auto]. unfold McfFloat.gpedge, C', lessC. destruct (mem_spec (x, y) (zip_next p)); [contradiction|reflexivity]. }
    pose proof (filter_le (flive C) (flive C') pairs (fun xy _ => Hlive xy)) as Hle.
    assert (length bal1 = length bal - 1)%nat as Lb1.
    { assert (length bal = Datatypes.S (length bal1)) as K by (apply (Permutation_length (lremove_perm (E, En) bal HiE))). lia. }
    assert (1 <= length bal)%nat as Lb0 by (destruct bal; [destruct HiE|cbn; lia]).
    assert (length bal2 <= Datatypes.S (length bal1) /\ (SFltb f0 (fsub E L) = false -> length bal2 = length bal1))%nat as [Lb2 Lb2'].
    { unfold bal2. destruct (SFltb f0 (fsub E L)) eqn:S1; [|auto]. split; [|discriminate]. rewrite (Permutation_length (proj1 (Hsrt ((fsub E L, En) :: bal1) ltac:(intros z [<-|Hz']; [apply fa_fin; unfold nextE in V1; rewrite S1 in V1; exact V1|apply Fbal1, Hz'])))). cbn. lia. }
    assert (length bal3 <= Datatypes.S (length bal2) /\ (SFltb (fadd D L) f0 = false -> length bal3 = length bal2))%nat as [Lb3 Lb3'].
    { unfold bal3. destruct (SFltb (fadd D L) f0) eqn:S1; [|auto]. split; [|discriminate]. rewrite (Permutation_length (proj1 (Hsrt ((fadd D L, Dn) :: bal2) ltac:(intros z [<-|Hz']; [unfold nextD in W1; rewrite S1 in W1; exact W1|apply Fbal2, Hz'])))). cbn. lia. }
    cbn [length]. destruct L5 as [L5|[L5|L5]].
    - assert (SFltb f0 (fsub E L) = false) as S1 by (rewrite V4, L5; apply Z.ltb_irrefl). specialize (Lb2' S1). clear - Lb1 Lb0 Lb2' Lb3 Hle. lia.
    - assert (SFltb (fadd D L) f0 = false) as S1 by (rewrite W4; apply Z.ltb_ge; rewrite L5, UD; apply Z.le_refl). specialize (Lb3' S1). clear - Lb1 Lb0 Lb2 Lb3' Hle. lia.
    - assert (length (filter (flive C') pairs) < length (filter (flive C) pairs))%nat; [|lia].
      apply (filter_lt _ _ _ (la, lb)); [intros xy _; apply Hlive|apply in_prod; apply Hpi, (zip_next_In p la lb Hlab)| |].
      + unfold flive. cbn [fst snd]. destruct (Hz la lb Hlab) as (_ & _ & K). destruct (gpedge C la lb); [reflexivity|congruence].
      + unfold flive, McfFloat.gpedge, C', lessC. cbn [fst snd]. destruct (mem_spec (la, lb) (zip_next p)); [|contradiction]. rewrite <- Hl1, <- L5.
        destruct (sub_fa L L HL HL (Z.le_refl _)) as [K1 K2]. rewrite Z.sub_diag, rnd_0 in K2 by lia. assert (SFeqb (fsub L L) f0 = true) as -> by (apply eq_zero; [apply K1|auto]). reflexivity. }
  split; [|exact Hlt]. exists (Datatypes.S k), lv1, (moreF F L (zip_next p)), (lessC capg C L (zip_next p)), (X' X p L). rewrite Nat2Z.inj_succ. unfold Z.succ. splits; auto.
  refine (Nat.le_trans _ _ _ _ Hmu). rewrite Nat.add_succ_comm. apply Nat.add_le_mono_l. exact Hlt. Qed.
End L.
