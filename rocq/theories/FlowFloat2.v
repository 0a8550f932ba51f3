(** maximum_flow on floats: the loop. *)
From Coq Require Import ZArith SpecFloat.
From Verif Require Import Prelude PreludeFacts Base BaseFacts BaseFacts2 BaseFacts3 Spec SpecFacts Loop SearchFacts BaseAlgFacts FlowSpec FlowFacts Flow MaxFlowFacts
  GSp GSpec GSpFacts Float64 FloatExact FloatSigned FloatStep GCpmSpec CpmFloat PropsFloat PropsFlowFloat GFlow GFlowFacts GFlowSpec FlowFloat.
Local Open Scope Z_scope.

Section Num.
Lemma rnd_fit j n : 0 <= j -> 0 <= n <= 2 ^ (j + 53) -> (2 ^ j | n) -> rnd64 n = n.
Proof. intros Hj [H0 H1] [m Em]. assert (0 < 2 ^ j) as P by (apply Z.pow_pos_nonneg; lia). rewrite Z.pow_add_r in H1 by lia. destruct (Z.eq_dec n 0) as [->|N]; [apply rnd_0; lia|].
  assert (0 < m <= 2 ^ 53) as Hm. { rewrite Em in *. rewrite (Z.mul_comm (2 ^ j)) in H1. split; [apply (Z.mul_pos_cancel_r m (2 ^ j)); lia|apply Z.mul_le_mono_pos_r in H1; lia]. }
  rewrite Em. destruct (Z.eq_dec m (2 ^ 53)) as [->|Nm].
  - rewrite <- Z.pow_add_r by lia. rewrite <- (Z.mul_1_l (2 ^ (53 + j))). apply rnd_exact; try lia. change (Zdigits2 1) with 1. lia.
  - apply rnd_exact; try lia. pose proof (Zdigits_mono m (2 ^ 53 - 1) ltac:(lia) ltac:(lia)) as D. change (Zdigits2 (2 ^ 53 - 1)) with 53 in D. exact D. Qed.
Lemma rnd_double n : 0 < n -> rnd64 n = n -> rnd64 (2 * n) = 2 * n.
Proof. intros Hn E. apply (rnd_multiple 53). replace (2 * n) with (n * 2 ^ 1) by (change (2 ^ 1) with 2; lia). unfold shift. rewrite Zdigits_shift by lia.
  apply Z.divide_trans with (2 ^ (shift 53 n + 1)).
  - apply pow_divide. unfold shift. lia.
  - rewrite Z.pow_add_r by (try apply shift_nonneg; lia). apply Z.mul_divide_mono_r. apply float_multiple; auto. Qed.
Lemma cap_multiple n : 2 ^ 174 <= n -> rnd64 n = n -> (2 ^ 122 | n).
Proof. intros H E. assert (0 < n) as P by (eapply Z.lt_le_trans; [|exact H]; reflexivity). apply Z.divide_trans with (2 ^ shift 53 n); [|apply float_multiple; auto]. apply pow_divide. split; [lia|].
  pose proof (Zdigits_mono (2 ^ 174) n ltac:(reflexivity) H) as D. assert (Zdigits2 (2 ^ 174) = 175) as E2 by (vm_compute; reflexivity). rewrite E2 in D. unfold shift. lia. Qed.
Lemma multiple_ge n : 0 < n -> (2 ^ 122 | n) -> 2 ^ 122 <= n.
Proof. intros H D. apply Z.divide_pos_le; assumption. Qed.
Lemma exponents_small : 2 ^ 1975 < BIG /\ 2 ^ 2027 < BIG.
Proof. split; apply Z.pow_lt_mono_r; unfold SpecFloat.emin; lia. Qed.
Lemma pow_1975 n : n <= 2 ^ (1074 + 900) -> 2 * n <= 2 ^ 1975.
Proof. intros H. replace (2 ^ 1975) with (2 * 2 ^ (1074 + 900)); [lia|]. rewrite <- Z.pow_succ_r by lia. reflexivity. Qed.
End Num.

Section L.
Context {A O : Type} {EA : EqDec A}.
Notation graph := (graph A O spec_float).
Implicit Types (F : A -> A -> option spec_float) (s e x y a b : A) (p : list A).
Context (g : graph) (Rg : reachable g) (Hcap : capacities g).
Notation cu := (exact_amount g).
Notation grep := (grep f64 fsub finv g).
Notation left_of := (left_of fsub g).
Notation bump := (bump f64).
Definition fu F x y : Z := match F x y with Some v => units v | None => 0 end.
(** the flow of an edge is at most the float after its capacity *)
Definition sane F : Prop := forall x y v, F x y = Some v -> exists c, edge g x y = Some c /\ 0 < units c /\ finite_amount v /\ 0 < units v /\ (2 ^ 122 | units v) /\
  forall z, rnd64 z = z -> units c < z -> units v <= z.
Lemma cap_facts x y c : edge g x y = Some c -> finite_amount c /\ 0 <= units c <= 2 ^ (1074 + 900) /\ rnd64 (units c) = units c /\ (2 ^ 122 | units c) /\ cu x y = units c.
Proof. intros E. destruct (Hcap _ _ _ E) as [Hc Hr]. destruct (fa_facts c Hc) as (_ & _ & P & R & _). splits; auto.
  - destruct Hr as [->|Hr]; [apply Z.pow_nonneg; lia|apply Hr].
  - destruct Hr as [->|Hr]; [exists 0; reflexivity|apply cap_multiple; [apply Hr|exact R]].
  - unfold exact_amount. rewrite E. reflexivity. Qed.
Lemma cu_nonneg x y : 0 <= cu x y.
Proof. unfold exact_amount. destruct (edge g x y) eqn:E; [apply (cap_facts _ _ _ E)|lia]. Qed.
Lemma fu_facts F x y : sane F -> 0 <= fu F x y /\ (F x y = None <-> fu F x y = 0) /\ rnd64 (fu F x y) = fu F x y /\ (2 ^ 122 | fu F x y) /\ fu F x y <= 2 * cu x y.
Proof. intros HS. unfold fu. destruct (F x y) as [v|] eqn:E.
  - destruct (HS _ _ _ E) as (c & Ec & Pc & Hv & Pv & Dv & Nv). destruct (fa_facts v Hv) as (_ & _ & _ & R & _). destruct (cap_facts _ _ _ Ec) as (_ & _ & Rc & _ & ->). splits; auto; [lia|split; [discriminate|lia]|]. apply Nv; [apply rnd_double; auto|lia].
  - pose proof (cu_nonneg x y). splits; try lia; [tauto|apply rnd_0; lia|exists 0; reflexivity]. Qed.
Lemma open_edge F x y : sane F -> fu F x y < cu x y -> exists c, edge g x y = Some c /\ units c = cu x y.
Proof. intros HS H. destruct (fu_facts F x y HS) as (P & _). unfold exact_amount in *. destruct (edge g x y) as [c|]; [eauto|lia]. Qed.
Lemma left_spec F x y c : sane F -> edge g x y = Some c -> exists r, left_of F x y = Some r /\ SFltb f0 r = (fu F x y <? cu x y) /\
  (fu F x y <= cu x y -> finite_amount r /\ units r = rnd64 (cu x y - fu F x y) /\ (2 ^ 122 | units r) /\ units r <= cu x y).
Proof. intros HS E. destruct (cap_facts _ _ _ E) as (Hc & Bc & Rc & Dc & Ecu). unfold GFlowFacts.left_of, fu. rewrite E, Ecu. destruct (F x y) as [v|] eqn:EF.
  - destruct (HS _ _ _ EF) as (c' & Ec & Pc & Hv & Pv & Dv & Nv). eexists. split; [reflexivity|]. split; [apply sub_sign; auto|]. intros L. destruct (sub_fa c v Hc Hv L) as [K1 K2]. splits; auto.
    + rewrite K2. apply rnd_keeps; try lia. apply Z.divide_sub_r; auto.
    + rewrite K2. rewrite <- Rc at 2. apply (rnd_mono 53 ltac:(lia)); lia.
  - exists c. split; [reflexivity|]. destruct zero_fa as [Z1 Z2]. split; [rewrite lt_fa by auto; rewrite Z2; reflexivity|]. intros _. rewrite Z.sub_0_r, Rc. splits; auto. lia. Qed.
Lemma ig_edge N0 F flow cap ig x y : sane F -> grep N0 F (flow, cap, ig) -> (has_edge ig x y <-> fu F x y < cu x y) /\ (forall w, edge ig x y = Some w -> weight w).
Proof. intros HS (_ & _ & _ & _ & _ & _ & E3). unfold has_edge. rewrite E3. destruct (edge g x y) as [c|] eqn:E.
  - destruct (left_spec F x y c HS E) as (r & -> & L & K). change (a_ltb f64 (a_zero f64) r) with (SFltb f0 r). rewrite L. destruct (Z.ltb_spec (fu F x y) (cu x y)) as [h|h].
    + split; [split; [auto|eauto]|]. intros w Ew. inv Ew. destruct (K ltac:(lia)) as (H1 & H2 & H3 & H4). apply inv_weight; [exact H1|]. destruct (cap_facts _ _ _ E) as (_ & B & _ & _ & Ecu).
      split; [apply multiple_ge; [|exact H3]; rewrite H2; apply rnd_pos; lia|]. rewrite Ecu in H4. pose proof (pow_1975 _ (proj2 B)) as PB. set (T := 2 ^ 1975) in *. clearbody T. clear - PB H4 B. lia.
    + split; [split; [intros (v & C); discriminate|lia]|discriminate].
  - unfold GFlowFacts.left_of. rewrite E. split; [|discriminate]. split; [intros (v & C); discriminate|]. intros C. destruct (open_edge F x y HS C) as (c & Ec & _). congruence. Qed.
(** min(d, what is left) *)
Lemma left_val N0 F flow cap ig x y c : sane F -> grep N0 F (flow, cap, ig) -> edge g x y = Some c -> fu F x y < cu x y ->
  finite_amount (gmf_left f64 cap (x, y, c)) /\ units (gmf_left f64 cap (x, y, c)) = rnd64 (cu x y - fu F x y) /\ (2 ^ 122 | units (gmf_left f64 cap (x, y, c))).
Proof. intros HS (_ & _ & _ & _ & _ & E2 & _) E L. destruct (left_spec F x y c HS E) as (r & El & _ & K). destruct (K ltac:(lia)) as (H1 & H2 & H3 & H4). destruct (cap_facts _ _ _ E) as (Hc & _ & Rc & Dc & Ecu).
  unfold gmf_left. rewrite E2, El. destruct (F x y) as [v|] eqn:EF; unfold pmin; change (a_ltb f64) with SFltb.
  - rewrite lt_fa by auto. destruct (Z.ltb_spec (units r) (units c)); [auto|]. assert (units c = units r) as -> by lia. splits; auto.
  - change (a_inf f64) with (S754_infinity false). rewrite lt_inf by exact Hc. splits; auto. unfold fu. rewrite EF, Z.sub_0_r, Ecu, Rc. reflexivity. Qed.
Lemma fold_pmin_le {B} (f : B -> spec_float) l : (forall z, In z l -> finite_amount (f z)) -> forall m, finite_amount m ->
  let r := fold_left (fun m z => pmin f64 m (f z)) l m in finite_amount r /\ units r <= units m /\ forall z, In z l -> units r <= units (f z).
Proof. intros Hl. induction l as [|z l IH]; intros m Hm; cbn [fold_left]; [splits; auto; [lia|intros ? []]|].
  assert (finite_amount (f z)) as Hz by (apply Hl; cbn; auto). assert (finite_amount (pmin f64 m (f z)) /\ units (pmin f64 m (f z)) <= units m /\ units (pmin f64 m (f z)) <= units (f z)) as (Q1 & Q2 & Q3).
  { unfold pmin. change (a_ltb f64) with SFltb. rewrite lt_fa by auto. destruct (Z.ltb_spec (units (f z)) (units m)); splits; auto; lia. }
  destruct (IH ltac:(intros; apply Hl; cbn; auto) _ Q1) as (K1 & K2 & K3). cbv zeta in *. splits; auto; [lia|]. intros z' [<-|Hz']; [lia|apply K3, Hz']. Qed.
Lemma path_flow N0 F flow cap ig p es pf : sane F -> grep N0 F (flow, cap, ig) -> edges_along g p = Ok es -> gmf_path_flow f64 cap es = Ok pf -> (forall x y, 0 < steps_of p x y -> fu F x y < cu x y) ->
  finite_amount pf /\ (2 ^ 122 | units pf) /\ 0 < units pf /\ (forall x y, 0 < steps_of p x y -> units pf <= rnd64 (cu x y - fu F x y)) /\ exists a b, 0 < steps_of p a b /\ units pf = rnd64 (cu a b - fu F a b).
Proof. intros HS HG Ees Epf Ho. destruct (gedges_along_steps g p es Ees) as [S1 S2].
  assert (forall ed, In ed es -> exists a b, 0 < steps_of p a b /\ finite_amount (gmf_left f64 cap ed) /\ units (gmf_left f64 cap ed) = rnd64 (cu a b - fu F a b) /\ (2 ^ 122 | units (gmf_left f64 cap ed)) /\ fu F a b < cu a b) as HL.
  { intros [[a b] c] Hi. destruct (S1 _ _ _ Hi) as [H1 H2]. exists a, b. destruct (left_val N0 F flow cap ig a b c HS HG H2 (Ho _ _ H1)) as (K1 & K2 & K3). splits; auto. }
  destruct es as [|x0 es]; [discriminate|]. cbn [gmf_path_flow] in Epf. inv Epf.
  destruct (HL x0 ltac:(cbn; auto)) as (a0 & b0 & Q1 & Q2 & Q3 & Q4 & Q5).
  destruct (fold_pmin_le (gmf_left f64 cap) es ltac:(intros z Hz; destruct (HL z ltac:(cbn; auto)) as (a & b & _ & H & _); exact H) _ Q2) as (K1 & K2 & K3). cbv zeta in *.
  set (pf := fold_left (fun m z => pmin f64 m (gmf_left f64 cap z)) es (gmf_left f64 cap x0)) in *.
  assert (exists ed, In ed (x0 :: es) /\ pf = gmf_left f64 cap ed) as (ed & Hed & Eed). { destruct (fold_pmin_In f64 (gmf_left f64 cap) es (gmf_left f64 cap x0)) as [E|(z & Hz & E)]; fold pf in E; [exists x0|exists z]; (split; [cbn; auto|exact E]). }
  destruct (HL ed Hed) as (a & b & P1 & P2 & P3 & P4 & P5). splits; auto.
  - rewrite Eed. exact P4.
  - rewrite Eed, P3. apply rnd_pos; lia.
  - intros x y Hxy. destruct (S2 _ _ Hxy) as (c & Hc). destruct (S1 _ _ _ Hc) as [_ Ec]. destruct (left_val N0 F flow cap ig x y c HS HG Ec (Ho _ _ Hxy)) as (_ & <- & _). destruct Hc as [<-|Hc]; [exact K2|apply K3, Hc].
  - exists a, b. split; [exact P1|]. rewrite Eed. exact P3. Qed.
(** one more path on one edge *)
Lemma bump_spec F x y pf : sane F -> fu F x y < cu x y -> finite_amount pf -> (2 ^ 122 | units pf) -> 0 < units pf -> units pf <= rnd64 (cu x y - fu F x y) ->
  finite_amount (bump (F x y) pf) /\ units (bump (F x y) pf) = rnd64 (fu F x y + units pf) /\ (2 ^ 122 | units (bump (F x y) pf)) /\ fu F x y <= units (bump (F x y) pf) /\ 0 < units (bump (F x y) pf) /\
  (forall z, rnd64 z = z -> cu x y < z -> units (bump (F x y) pf) <= z).
Proof. intros HS Ho Hpf Dpf Ppf Lpf. destruct (fu_facts F x y HS) as (P & _ & R & D & _). destruct (open_edge F x y HS Ho) as (c & Ec & Ecu). destruct (cap_facts _ _ _ Ec) as (Hc & Bc & Rc & _ & _). rewrite Ecu in *. destruct (fa_facts pf Hpf) as (_ & _ & _ & Rpf & _).
  assert (forall z, rnd64 z = z -> cu x y < z -> rnd64 (fu F x y + units pf) <= z) as N.
  { intros z Ez Hz. eapply Z.le_trans; [|apply (refill_le 53 ltac:(lia) (fu F x y) (cu x y) z); auto; lia]. apply (rnd_mono 53 ltac:(lia)); lia. }
  assert (finite_amount (bump (F x y) pf) /\ units (bump (F x y) pf) = rnd64 (fu F x y + units pf)) as [K1 K2].
  { unfold GFlowFacts.bump. revert N. unfold fu. destruct (F x y) as [v|] eqn:EF; intros N; [|rewrite Z.add_0_l, Rpf; auto]. destruct (HS _ _ _ EF) as (_ & _ & _ & Hv & _).
    change (a_add f64) with fadd. apply add_fa; auto. eapply Z.le_lt_trans; [apply (N (2 * cu x y))|].
    - apply rnd_double; [lia|exact Rc].
    - lia.
    - eapply Z.le_lt_trans; [apply pow_1975, Bc|apply exponents_small]. }
  rewrite K2. splits; auto.
  - apply rnd_keeps; try lia. apply Z.divide_add_r; auto.
  - rewrite <- R at 1. apply (rnd_mono 53 ltac:(lia)); lia.
  - apply rnd_pos; lia. Qed.
(** what is still to do for an edge: two refills, one, or none *)
Definition score F x y : nat := if cu x y <=? fu F x y then 0%nat else if cu x y <=? 2 * fu F x y then 1%nat else 2%nat.
Definition work F : nat := list_sum (map (fun ed : A * A * spec_float => score F (fst (fst ed)) (snd (fst ed))) (edges g)).
Lemma score_mono F F' x y : fu F x y <= fu F' x y -> (score F' x y <= score F x y)%nat.
Proof. intros H. unfold score. repeat match goal with |- context [?a <=? ?b] => destruct (Z.leb_spec a b) end; lia. Qed.
Lemma list_sum_lt {B} (f f' : B -> nat) l z : (forall u, In u l -> (f' u <= f u)%nat) -> In z l -> (f' z < f z)%nat -> (list_sum (map f' l) < list_sum (map f l))%nat.
Proof. intros H Hz Hlt. induction l as [|u l IH]; [destruct Hz|]. cbn [map list_sum fold_right]. fold (list_sum (map f' l)). fold (list_sum (map f l)).
  assert (f' u <= f u)%nat by (apply H; cbn; auto). destruct Hz as [->|Hz].
  - assert (list_sum (map f' l) <= list_sum (map f l))%nat; [|lia]. clear - H. induction l as [|w l IH]; [apply le_n|]. cbn [map list_sum fold_right]. fold (list_sum (map f' l)). fold (list_sum (map f l)). assert (f' w <= f w)%nat by (apply H; cbn; auto). assert (list_sum (map f' l) <= list_sum (map f l))%nat by (apply IH; intros u' [<-|Hu]; apply H; cbn; auto). lia.
  - assert (list_sum (map f' l) < list_sum (map f l))%nat by (apply IH; auto; intros; apply H; cbn; auto). lia. Qed.
Lemma work_init : (work (fun _ _ => None) <= 2 * length (edges g))%nat.
Proof. unfold work. induction (edges g) as [|ed l IH]; [apply le_n|]. cbn [map list_sum fold_right length]. fold (list_sum (map (fun ed : A * A * spec_float => score (fun _ _ => None) (fst (fst ed)) (snd (fst ed))) l)).
  assert (score (fun _ _ => None) (fst (fst ed)) (snd (fst ed)) <= 2)%nat by (unfold score; repeat destruct (_ <=? _); lia). lia. Qed.

(** all invariants of the flow after one more path *)
Section OnePath.
Context (F : A -> A -> option spec_float) (p : list A) (pf : spec_float) (HS : sane F) (Hnd : NoDup p) (Ho : forall x y, 0 < steps_of p x y -> fu F x y < cu x y)
  (Hpf : finite_amount pf) (Dpf : (2 ^ 122 | units pf)) (Ppf : 0 < units pf) (Lpf : forall x y, 0 < steps_of p x y -> units pf <= rnd64 (cu x y - fu F x y)).
Notation F' := (gaddP f64 F p pf).
Lemma steps_cases x y : steps_of p x y = 0 \/ (steps_of p x y = 1 /\ 0 < steps_of p x y).
Proof. pose proof (steps_of_nonneg p x y). pose proof (steps_of_le1 p x y Hnd). lia. Qed.
Lemma next_fu x y : fu F' x y = if steps_of p x y =? 0 then fu F x y else rnd64 (fu F x y + units pf).
Proof. unfold fu at 1. rewrite gaddP_at by exact Hnd. destruct (steps_cases x y) as [->|[E H]]; [reflexivity|]. rewrite E. cbn [Z.eqb]. apply bump_spec; auto. Qed.
Lemma next_sane : sane F'.
Proof. intros x y v. rewrite gaddP_at by exact Hnd. destruct (steps_cases x y) as [->|[E H]]; [apply HS|]. rewrite E. cbn [Z.eqb]. intros Ev. inv Ev.
  destruct (bump_spec F x y pf) as (K1 & K2 & K3 & K4 & K5 & K6); auto. destruct (open_edge F x y HS (Ho _ _ H)) as (c & Ec & Ecu). exists c. destruct (fu_facts F x y HS) as (P & _). pose proof (Ho _ _ H). rewrite Ecu in *. splits; auto. lia. Qed.
Lemma next_mono x y : fu F x y <= fu F' x y.
Proof. rewrite next_fu. destruct (steps_cases x y) as [->|[E H]]; [cbn; lia|]. rewrite E. cbn [Z.eqb]. destruct (bump_spec F x y pf) as (K1 & K2 & K3 & K4 & _); auto. rewrite <- K2. exact K4. Qed.
Lemma next_nearly k X x y : 0 <= k -> nearly k (fu F x y) (X x y) (fu F x y) -> nearly (k + 1) (fu F' x y) (X x y + units pf * steps_of p x y) (fu F' x y).
Proof. intros Hk. unfold nearly. pose proof (next_mono x y) as M. destruct (fu_facts F x y HS) as (P & _). revert M. rewrite next_fu. destruct (steps_cases x y) as [->|[E H]]; cbn [Z.eqb].
  - rewrite Z.mul_0_r, Z.add_0_r. intros _ HN. set (B := 2 ^ 53) in *. clearbody B. clear - HN P Hk. set (q := B * _) in *. clearbody q. nia.
  - rewrite E. cbn [Z.eqb]. rewrite Z.mul_1_r. intros M HN. pose proof (rnd_error2 53 ltac:(lia) (fu F x y + units pf) ltac:(lia)) as B. set (v := rnd64 (fu F x y + units pf)) in *. clearbody v. set (f := fu F x y) in *. clearbody f. set (w := X x y) in *. clearbody w. set (u := units pf) in *. clearbody u. clear - Hk P M HN B.
    assert (Z.abs (v - (w + u)) <= Z.abs (v - (f + u)) + Z.abs (f - w)) as T by lia. assert (0 < 2 ^ 53) as P2 by reflexivity. set (D := 2 ^ 53) in *. clearbody D.
    assert (D * Z.abs (v - (w + u)) <= D * (Z.abs (v - (f + u)) + Z.abs (f - w))) as T2 by (apply Z.mul_le_mono_nonneg_l; lia). rewrite Z.mul_add_distr_l in T2. assert (k * f <= k * v) by (apply Z.mul_le_mono_nonneg_l; lia). lia. Qed.
Lemma next_work a b : 0 < steps_of p a b -> units pf = rnd64 (cu a b - fu F a b) -> (work F' < work F)%nat.
Proof. intros Hab E. pose proof (Ho _ _ Hab) as L. destruct (open_edge F a b HS L) as (c & Ec & Ecu). destruct (cap_facts _ _ _ Ec) as (_ & _ & Rc & _ & _). rewrite Ecu in Rc. destruct (fu_facts F a b HS) as (P & _ & R & _). pose proof (reachable_wf _ Rg) as HW.
  apply (list_sum_lt _ _ (edges g) (a, b, c)); [intros [[x y] w] _; cbn [fst snd]; apply score_mono, next_mono|apply (In_edges g a b c HW), Ec|]. cbn [fst snd].
  unfold score. rewrite !next_fu. destruct (steps_cases a b) as [C|[E1 _]]; [lia|]. rewrite E1. cbn [Z.eqb]. rewrite E. pose proof (refill_half 53 ltac:(lia) (fu F a b) (cu a b) (conj P (Z.lt_le_incl _ _ L))) as Hh.
  pose proof (refill_exact 53 ltac:(lia) (fu F a b) (cu a b)) as Hx. set (v := rnd64 (fu F a b + rnd64 (cu a b - fu F a b))) in *. clearbody v. set (f := fu F a b) in *. set (q := cu a b) in *. clearbody f q.
  destruct (Z.leb_spec q f); [lia|]. destruct (Z.leb_spec q (2 * f)).
  - rewrite Hx by (auto; lia). rewrite Z.leb_refl. lia.
  - destruct (Z.leb_spec q v); [lia|]. destruct (Z.leb_spec q (2 * v)); lia. Qed.
(** the case in which nothing is rounded *)
Lemma next_exact j X a b : 0 <= j -> (forall x y, (2 ^ j | cu x y) /\ cu x y <= 2 ^ (j + 53)) -> (forall x y, X x y = fu F x y /\ fu F x y <= cu x y /\ (2 ^ j | fu F x y)) -> 0 < steps_of p a b -> units pf = rnd64 (cu a b - fu F a b) ->
  (2 ^ j | units pf) /\ forall x y, X x y + units pf * steps_of p x y = fu F' x y /\ fu F' x y <= cu x y /\ (2 ^ j | fu F' x y).
Proof. intros Hj HC HX Hab E.
  assert (forall x y, rnd64 (cu x y - fu F x y) = cu x y - fu F x y) as Ex. { intros x y. destruct (HC x y) as [C1 C2]. destruct (HX x y) as (_ & X2 & X3). destruct (fu_facts F x y HS) as (P & _). apply (rnd_fit j); auto; [|apply Z.divide_sub_r; auto]. set (B := 2 ^ (j + 53)) in *. clearbody B. lia. }
  assert (2 ^ j | units pf) as Dj by (rewrite E, Ex; apply Z.divide_sub_r; [apply HC|apply HX]). split; [exact Dj|].
  intros x y. rewrite next_fu. destruct (HC x y) as [C1 C2]. destruct (HX x y) as (X1 & X2 & X3). destruct (steps_cases x y) as [->|[E1 H]]; cbn [Z.eqb].
  - rewrite Z.mul_0_r, Z.add_0_r. auto.
  - rewrite E1. cbn [Z.eqb]. rewrite Z.mul_1_r. pose proof (Lpf _ _ H) as L. rewrite Ex in L. destruct (fu_facts F x y HS) as (P & _).
    assert (rnd64 (fu F x y + units pf) = fu F x y + units pf) as ->. { apply (rnd_fit j); auto; [|apply Z.divide_add_r; auto]. set (B := 2 ^ (j + 53)) in *. clearbody B. lia. }
    splits; [lia|lia|apply Z.divide_add_r; auto]. Qed.
End OnePath.
End L.
