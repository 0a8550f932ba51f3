(** minimum_cost_flow on floats: numbers and graphs. *)
From Coq Require Import ZArith SpecFloat Sorted.
From Verif Require Import Prelude PreludeFacts Base BaseFacts BaseFacts2 BaseFacts3 Spec SpecFacts Loop SearchFacts
  BaseAlgFacts Sp SpFacts Fw FwFacts PropsFw FlowSpec Flow FlowFacts MaxFlowFacts FlowFacts2 HashFacts AssignFacts McfSpec Mcf McfFacts
  GSp Float64 FloatExact FloatSigned FloatStep GCpmSpec CpmFloat PropsFloat GFlow GFlowSpec FlowFloat FlowFloat2 GMcf GMcfSpec.
Local Open Scope Z_scope.

Notation fadd := (SFadd 53 1024).
#[export] Instance EqDec_float : EqDec spec_float.
Proof. intros x y. decide equality; try apply Z.eq_dec; try apply Pos.eq_dec; apply bool_dec. Defined.

(** ** numbers *)
Lemma fin_num w : finite_number w -> num w /\ sval 53 1024 w = Some (units w) /\ val w = units w /\ Z.abs (units w) < BIG.
Proof. intros [V (z & E)]. unfold units. rewrite E. splits; auto; [split; [exact V|intros ->; discriminate]|apply sval_xv, E|eapply sval_lt; eauto; lia]. Qed.
Lemma fa_fin w : finite_amount w -> finite_number w.
Proof. intros [[V _] H]. split; auto. Qed.
Lemma fin_fa w : finite_number w -> 0 <= units w -> finite_amount w.
Proof. intros H P. destruct (fin_num w H) as (N & E & V & _). split; [apply num_good; [exact N|rewrite V; exact P]|eauto]. Qed.
Lemma fin_lt v w : finite_number v -> finite_number w -> SFltb v w = (units v <? units w).
Proof. intros Hv Hw. destruct (fin_num v Hv) as (N1 & _ & V1 & _). destruct (fin_num w Hw) as (N2 & _ & V2 & _). rewrite lt_val, V1, V2 by assumption. reflexivity. Qed.
Lemma fin_abs w : finite_number w -> units w <= 0 -> finite_amount (SFabs w) /\ units (SFabs w) = - units w.
Proof. intros H Hn. assert (finite_number (SFabs w) /\ units (SFabs w) = - units w) as [K1 K2].
  { destruct H as [V (z & E)]. destruct w as [b|b| |b m k]; cbn [sval] in E; try discriminate; cbn [SFabs].
    - split; [split; [reflexivity|eexists; reflexivity]|reflexivity].
    - assert (b = true) as ->. { destruct b; [reflexivity|exfalso]. unfold units in Hn. cbn [sval cond_Zopp] in Hn. assert (0 < 2 ^ (k - SpecFloat.emin 53 1024)) as P. { apply Z.pow_pos_nonneg; [lia|]. unfold valid_binary, bounded, canonical_mantissa in V. apply andb_true_iff in V. destruct V as [V _]. apply Zeq_bool_eq in V. unfold fexp in V. lia. } nia. }
      split; [split; [exact V|eexists; reflexivity]|]. unfold units. cbn [sval cond_Zopp]. ring. }
  split; [|exact K2]. apply fin_fa; [exact K1|lia]. Qed.
Lemma neg_add D L : finite_number D -> finite_amount L -> units L <= - units D -> finite_number (fadd D L) /\ units (fadd D L) = - rnd64 (- units D - units L).
Proof. intros HD HL H. destruct (fin_num D HD) as (N1 & E1 & V1 & B1). destruct (fin_num L (fa_fin L HL)) as (N2 & E2 & V2 & B2). destruct (fa_facts L HL) as (_ & _ & PL & _).
  destruct (add_finite 53 1024 ltac:(lia) ltac:(lia) D L _ _ (proj1 N1) (proj1 N2) E1 E2) as [N E].
  assert (srnd 53 (units D + units L) = - rnd64 (- units D - units L)) as Er. { unfold srnd. destruct (Z.ltb_spec (units D + units L) 0) as [h|h]; [do 2 f_equal; lia|]. replace (units D + units L) with 0 by lia. replace (- units D - units L) with 0 by lia. rewrite rnd_0 by lia. reflexivity. }
  rewrite Er in E. pose proof (srnd_xv 53 1024 ltac:(lia) ltac:(lia) D _ (proj1 N1) E1) as RD. unfold srnd in RD. assert (rnd64 (- units D) = - units D) as RD'. { destruct (Z.ltb_spec (units D) 0); [lia|]. replace (units D) with 0 by lia. apply rnd_0. lia. }
  pose proof (rnd_nn 53 ltac:(lia) (- units D - units L) ltac:(lia)) as P. assert (rnd64 (- units D - units L) <= - units D) as M. { rewrite <- RD' at 2. apply (rnd_mono 53 ltac:(lia)); lia. }
  assert (Z.abs (- rnd64 (- units D - units L)) < BIG) as BB. { clear - P M B1. set (B := BIG) in *. clearbody B. lia. }
  rewrite clamp_id in E by (apply Z.lt_le_incl; exact BB). clear Er RD.
  assert (sval 53 1024 (fadd D L) = Some (- rnd64 (- units D - units L))) as ES.
  { destruct (num_cases _ N) as [(a & Ea & Va & _)|[_ [Va|Va]]]; [congruence| |]; exfalso; rewrite E in Va; rewrite Va in BB; revert BB; pose proof (BIG_pos 53 1024 ltac:(lia) ltac:(lia)) as BP; set (B := BIG) in *; clearbody B; clear - BP; lia. }
  split; [split; [apply N|eauto]|]. unfold units at 1. rewrite ES. reflexivity. Qed.
Lemma rnd_pos_iff n : 0 <= n -> (0 < rnd64 n <-> 0 < n).
Proof. intros H. split; intros K; [|apply rnd_pos; lia]. destruct (Z.eq_dec n 0) as [->|]; [rewrite rnd_0 in K by lia; lia|lia]. Qed.
Lemma near_step k a b t a' d : 0 <= t -> nearly k a b t -> 2 ^ 53 * Z.abs (a' - a - d) <= t -> nearly (k + 1) a' (b + d) t.
Proof. unfold nearly. intros Pt H1 H2. assert (0 < 2 ^ 53) as P2 by reflexivity. set (D := 2 ^ 53) in *. clearbody D. assert (Z.abs (a' - (b + d)) <= Z.abs (a' - a - d) + Z.abs (a - b)) as T by lia.
  assert (D * Z.abs (a' - (b + d)) <= D * (Z.abs (a' - a - d) + Z.abs (a - b))) as T2 by (apply Z.mul_le_mono_nonneg_l; lia). lia. Qed.
Lemma near_more k a b t : 0 <= t -> nearly k a b t -> nearly (k + 1) a b t.
Proof. unfold nearly. intros. lia. Qed.
Lemma near_wider k a b t t' : 0 <= k -> t <= t' -> nearly k a b t -> nearly k a b t'.
Proof. unfold nearly. intros. assert (k * t <= k * t') by (apply Z.mul_le_mono_nonneg_l; lia). lia. Qed.
Lemma rnd_near n t : 0 <= n <= t -> 2 ^ 53 * Z.abs (rnd64 n - n) <= t.
Proof. intros [H1 H2]. pose proof (srnd_error 53 ltac:(lia) n) as B. unfold srnd in B. destruct (Z.ltb_spec n 0); [lia|]. rewrite (Z.abs_eq n) in B by lia. eapply Z.le_trans; eauto. Qed.
(** the capacity left, or +inf *)
Lemma inf_sub L : finite_amount L -> fsub (S754_infinity false) L = S754_infinity false.
Proof. intros [_ (z & E)]. destruct L; try discriminate; reflexivity. Qed.
Lemma good_cases c : f64_good c -> finite_amount c \/ c = S754_infinity false.
Proof. intros G. destruct c as [b|b| |b m k]; try (left; split; [exact G|eexists; reflexivity]); [right|destruct (proj2 G)]. pose proof (proj2 G) as K. cbn in K. subst b. reflexivity. Qed.
(** a <= b for capacities *)
Definition cle (a b : spec_float) : Prop := SFltb b a = false.
Lemma cle_fin a b : finite_amount a -> finite_amount b -> cle a b <-> units a <= units b.
Proof. intros Ha Hb. unfold cle. rewrite lt_fa by assumption. rewrite Z.ltb_ge. reflexivity. Qed.
Lemma cle_trans a b c : f64_good a -> f64_good b -> f64_good c -> cle a b -> cle b c -> cle a c.
Proof. intros Ha Hb Hc. unfold cle. rewrite !lt_val by (apply good_num; assumption). rewrite !Z.ltb_ge. lia. Qed.
Lemma cle_refl a : f64_good a -> cle a a.
Proof. intros H. unfold cle. rewrite lt_val by (apply good_num; assumption). rewrite Z.ltb_ge. lia. Qed.
Lemma pmin_spec a b : f64_good a -> f64_good b -> let m := pmin f64 a b in f64_good m /\ (m = a \/ m = b) /\ cle m a /\ cle m b.
Proof. intros Ha Hb. cbn zeta. unfold pmin, cle. change (a_ltb f64) with SFltb. pose proof (good_num _ Ha) as Na. pose proof (good_num _ Hb) as Nb. destruct (SFltb b a) eqn:E; splits; auto; rewrite lt_val in * by auto; rewrite ?Z.ltb_lt, ?Z.ltb_ge in *; lia. Qed.
Lemma cle_inf a : f64_good a -> cle a (S754_infinity false).
Proof. intros H. destruct (good_cases a H) as [F| ->]; [apply lt_inf, F|reflexivity]. Qed.
Lemma cle_finite a b : f64_good a -> finite_amount b -> cle a b -> finite_amount a.
Proof. intros Ha Hb H. destruct (good_cases a Ha) as [F| ->]; [exact F|exfalso]. unfold cle in H. destruct Hb as [[V G] (z & E)]. destruct b as [s|s| |s m k]; discriminate. Qed.

(** ** graphs *)
Lemma mem_app {X} {EX : EqDec X} (x : X) l m : mem x (l ++ m) = mem x l || mem x m.
Proof. destruct (mem_spec x (l ++ m)) as [h|h]; rewrite in_app_iff in h; destruct (mem_spec x l), (mem_spec x m); tauto || reflexivity. Qed.
Section M.
Context {A O : Type} {EA : EqDec A}.
Notation graph := (graph A O Z).
Notation amounts := (Base.graph A O spec_float).
Context (costs : graph) (capg : amounts).
Hypothesis HR : reachable costs.
Hypothesis Hlinks : forall x y, has_edge capg x y <-> has_edge costs x y.
Hypothesis Hcap0 : forall x y c, edge capg x y = Some c -> f64_good c.
Implicit Types (F C : A -> A -> option spec_float).
Notation gupdate := (gmcf_update f64 fsub capg).
(** the counter of a link *)
Definition cnt C x y : spec_float := match C x y with Some c => c | None => match edge capg x y with Some c => c | None => f0 end end.
(** the links that are still considered *)
Definition gpedge C (x y : A) : option Z := match C x y with Some c => if SFeqb c f0 then None else edge costs x y | None => edge costs x y end.
Definition gmrep F C (gs : gmcf_graphs (A := A) (O := O) (W := spec_float)) : Prop :=
  let '(flows, caps, paths, distances) := gs in
  reachable flows /\ reachable caps /\ reachable paths /\ (forall x, In x (nodes paths) <-> In x (nodes costs)) /\
  (forall x y, edge flows x y = F x y) /\ (forall x y, edge caps x y = C x y) /\ (forall x y, edge paths x y = gpedge C x y) /\
  distances = all_pairs_shortest_paths paths.
Definition fval F x y : spec_float := match F x y with Some v => v | None => f0 end.
(** all links of ps get L more *)
Definition moreF F L (ps : list (A * A)) x y : option spec_float := if mem (x, y) ps then Some (fadd L (fval F x y)) else F x y.
Definition lessC C L (ps : list (A * A)) x y : option spec_float := if mem (x, y) ps then Some (fsub (cnt C x y) L) else C x y.
Lemma gleft_spec F C gs x y : gmrep F C gs -> has_edge capg x y -> gmcf_left capg (snd (fst (fst gs))) (x, y) = Ok (cnt C x y).
Proof. destruct gs as [[[flows caps] paths] distances]. intros (_ & _ & _ & _ & _ & E2 & _) (c & Hc). unfold gmcf_left, cnt. cbn [fst snd]. rewrite E2, Hc. destruct (C x y); reflexivity. Qed.
Lemma gupdate_spec F C gs L a b : gmrep F C gs -> has_edge capg a b -> gpedge C a b = edge costs a b ->
  exists gs', gupdate L gs (a, b) = Ok gs' /\ gmrep (moreF F L [(a, b)]) (lessC C L [(a, b)]) gs'.
Proof. intros HM Hab Hp. pose proof (gleft_spec F C gs a b HM Hab) as HL. destruct gs as [[[flows caps] paths] distances]. cbn [fst snd] in HL.
  destruct HM as (R1 & R2 & R3 & N3 & E1 & E2 & E3 & E4). unfold gmcf_update. rewrite E1. change (a_zero f64) with f0. change (a_add f64) with fadd. fold (fval F a b).
  destruct (reachable_add_edge flows a b (fadd L (fval F a b)) R1) as (flows' & -> & R1' & E1' & _). cbn [bind]. rewrite HL. cbn [bind]. cbv zeta.
  destruct (reachable_add_edge caps a b (fsub (cnt C a b) L) R2) as (caps' & -> & R2' & E2' & _). cbn [bind]. change (a_eqb f64) with SFeqb.
  assert (forall x y, mem (x, y) [(a, b)] = if eq_dec x a then (if eq_dec y b then true else false) else false) as Em.
  { intros x y. unfold mem. cbn [existsb]. destruct (eq_dec x a) as [->|]; [destruct (eq_dec y b) as [->|]|]; destruct (eq_dec _ _) as [h|h]; try reflexivity; congruence. }
  assert (forall x y, edge flows' x y = moreF F L [(a, b)] x y) as E1''.
  { intros x y. rewrite E1'. unfold moreF. rewrite Em. destruct (eq_dec x a) as [->|]; [destruct (eq_dec y b) as [->|]|]; [reflexivity|apply E1|apply E1]. }
  assert (forall x y, edge caps' x y = lessC C L [(a, b)] x y) as E2''.
  { intros x y. rewrite E2'. unfold lessC. rewrite Em. destruct (eq_dec x a) as [->|]; [destruct (eq_dec y b) as [->|]|]; [reflexivity|apply E2|apply E2]. }
  destruct (SFeqb (fsub (cnt C a b) L) f0) eqn:Ez.
  - destruct (reachable_del_edge paths a b R3) as (paths' & -> & R3' & E3' & N3' & _). cbn [bind]. eexists. split; [reflexivity|]. hnf. splits; auto.
    + rewrite N3'. exact N3.
    + intros x y. rewrite E3'. unfold gpedge, lessC. rewrite Em. destruct (eq_dec x a) as [->|]; [destruct (eq_dec y b) as [->|]|]; [|apply E3|apply E3]. rewrite Ez. reflexivity.
  - eexists. split; [reflexivity|]. hnf. splits; auto.
    intros x y. rewrite E3. unfold gpedge, lessC. rewrite Em. destruct (eq_dec x a) as [->|]; [destruct (eq_dec y b) as [->|]|]; try reflexivity. rewrite Ez. fold (gpedge C a b). exact Hp. Qed.
Lemma gmrep_ext F C F' C' gs : (forall x y, F x y = F' x y) -> (forall x y, C x y = C' x y) -> gmrep F C gs -> gmrep F' C' gs.
Proof. intros HF HC. destruct gs as [[[flows caps] paths] distances]. intros (R1 & R2 & R3 & N3 & E1 & E2 & E3 & E4). hnf. splits; auto.
  - intros x y. rewrite E1. apply HF.
  - intros x y. rewrite E2. apply HC.
  - intros x y. rewrite E3. unfold gpedge. rewrite HC. reflexivity. Qed.
Lemma gupdates L ps : forall F C gs, gmrep F C gs -> NoDup ps -> (forall a b, In (a, b) ps -> has_edge capg a b /\ gpedge C a b = edge costs a b) ->
  exists gs', foldM (gupdate L) ps gs = Ok gs' /\ gmrep (moreF F L ps) (lessC C L ps) gs'.
Proof. induction ps as [|[a b] ps IH]; intros F C gs HM Hnd Hz; [exists gs; split; [reflexivity|]; exact HM|]. apply NoDup_cons_iff in Hnd. destruct Hnd as [Ha Hnd].
  destruct (Hz a b) as [H1 H2]; [cbn; auto|]. destruct (gupdate_spec F C gs L a b HM H1 H2) as (gs1 & Eg & HM1). cbn [foldM]. rewrite Eg. cbn [bind].
  assert (forall x y, In (x, y) ps -> mem (x, y) [(a, b)] = false) as Hm. { intros x y Hxy. destruct (mem_spec (x, y) [(a, b)]) as [[E|[]]|h]; [inv E; contradiction|reflexivity]. }
  destruct (IH _ _ _ HM1 Hnd) as (gs' & E' & HM'). { intros x y Hxy. destruct (Hz x y) as [K1 K2]; [cbn; auto|]. split; [exact K1|]. rewrite <- K2. unfold gpedge, lessC. rewrite (Hm x y Hxy). reflexivity. }
  exists gs'. split; [exact E'|]. refine (gmrep_ext _ _ _ _ _ _ _ HM'); intros x y; unfold moreF, lessC, fval, cnt.
  - change ((a, b) :: ps) with ([(a, b)] ++ ps). rewrite mem_app. destruct (mem_spec (x, y) ps) as [h|h]; [rewrite (Hm x y h); reflexivity|]. rewrite orb_false_r. reflexivity.
  - change ((a, b) :: ps) with ([(a, b)] ++ ps). rewrite mem_app. destruct (mem_spec (x, y) ps) as [h|h]; [rewrite (Hm x y h); reflexivity|]. rewrite orb_false_r. reflexivity. Qed.
Definition cnt_good C : Prop := forall x y, f64_good (cnt C x y).
Lemma glimit_spec F C gs ps : gmrep F C gs -> cnt_good C -> ps <> [] -> (forall a b, In (a, b) ps -> has_edge capg a b) ->
  exists l, gmcf_limit f64 capg (snd (fst (fst gs))) ps = Ok l /\ f64_good l /\ (exists a b, In (a, b) ps /\ l = cnt C a b) /\ forall a b, In (a, b) ps -> cle l (cnt C a b).
Proof. intros HM HC Hne Hps. destruct ps as [|[a b] ps]; [congruence|]. unfold gmcf_limit. rewrite (gleft_spec F C gs a b HM) by (apply Hps; cbn; auto). cbn [bind].
  assert (forall qs c, f64_good c -> (forall x y, In (x, y) qs -> has_edge capg x y) -> exists l, foldM (fun m y => d <- gmcf_left capg (snd (fst (fst gs))) y ;; Ok (pmin f64 m d)) qs c = Ok l /\ f64_good l /\
    (l = c \/ exists x y, In (x, y) qs /\ l = cnt C x y) /\ cle l c /\ forall x y, In (x, y) qs -> cle l (cnt C x y)) as G.
  { induction qs as [|[x y] qs IH]; intros c Gc Hq; [exists c; cbn; splits; auto; [apply cle_refl, Gc|intros ? ? []]|].
    cbn [foldM]. rewrite (gleft_spec F C gs x y HM) by (apply Hq; cbn; auto). cbn [bind]. destruct (pmin_spec c (cnt C x y) Gc (HC x y)) as (Gm & M3 & M1 & M2).
    destruct (IH (pmin f64 c (cnt C x y)) Gm) as (l & El & Gl & I1 & I2 & I3); [intros u v Huv; apply Hq; cbn; auto|]. exists l. splits; [exact El|exact Gl| | |].
    - destruct I1 as [->|(u & v & Huv & ->)]; [|right; exists u, v; cbn; auto]. destruct M3 as [->| ->]; [auto|right; exists x, y; cbn; auto].
    - exact (cle_trans _ _ _ Gl Gm Gc I2 M1).
    - intros u v [E|Huv]; [inv E; exact (cle_trans _ _ _ Gl Gm (HC _ _) I2 M2)|apply I3, Huv]. }
  destruct (G ps (cnt C a b)) as (l & El & Gl & I1 & I2 & I3); [apply HC|intros x y Hxy; apply Hps; cbn; auto|]. exists l. splits; [exact El|exact Gl| |].
  - destruct I1 as [->|(u & v & Huv & ->)]; [exists a, b; cbn; auto|exists u, v; cbn; auto].
  - intros u v [E|Huv]; [inv E; exact I2|apply I3, Huv]. Qed.
Lemma gsites_spec (distances : @matrix A) Dn bal : (forall E En, In (E, En) bal -> SFltb f0 E = true -> exists d, eget distances En Dn = Some d) ->
  exists sites, gmcf_sites f64 distances Dn bal = Ok sites /\ forall d E En, In (d, (E, En)) sites <-> In (E, En) bal /\ SFltb f0 E = true /\ eget distances En Dn = Some d.
Proof. induction bal as [|[E En] bal IH]; intros H; [exists []; split; [reflexivity|]; cbn; tauto|].
  destruct IH as (sites & Es & Hs); [intros E' En' Hi; apply H; cbn; auto|]. cbn [gmcf_sites]. change (a_ltb f64 (a_zero f64) E) with (SFltb f0 E). destruct (SFltb f0 E) eqn:h.
  - destruct (H E En) as (d & Hd); [cbn; auto|exact h|]. rewrite Hd, Es. cbn [bind]. eexists. split; [reflexivity|]. intros d' E' En'. cbn [In]. rewrite Hs. split.
    + intros [Eq|(K1 & K2 & K3)]; [inv Eq; auto|auto].
    + intros ([Eq|K1] & K2 & K3); [inv Eq; left; congruence|auto].
  - exists sites. split; [exact Es|]. intros d' E' En'. rewrite Hs. cbn [In]. split; [tauto|]. intros ([Eq|K1] & K2 & K3); [inv Eq; congruence|auto]. Qed.
Lemma gpedge_costs C x y w : gpedge C x y = Some w -> edge costs x y = Some w.
Proof. unfold gpedge. destruct (C x y); [destruct (SFeqb _ _); [discriminate|]|]; auto. Qed.
End M.
