(** minimum_cost_flow: when it is cost-minimal. *)
From Coq Require Import Sorted.
From Verif Require Import Prelude PreludeFacts Base BaseFacts BaseFacts2 BaseFacts3 Spec SpecFacts Loop SearchFacts
  BaseAlgFacts Sp SpFacts Fw FwFacts PropsFw FlowSpec Flow FlowFacts MaxFlowFacts FlowFacts2 HashFacts RandomFacts AssignFacts McfSpec Mcf McfFacts McfFacts2.
Local Open Scope Z_scope.

Lemma sumZ_pick {A} {EA : EqDec A} (l : list A) a (f : A -> Z) : NoDup l -> In a l -> sumZ l (fun x => ind1 a x * f x) = f a.
Proof. intros Hn Ha. rewrite (sumZ_ext l _ (fun x => f a * ind1 a x)) by (intros x _; unfold ind1; destruct (eq_dec a x) as [<-|]; lia).
  rewrite sumZ_scale, sumZ_ind1_in by assumption. lia. Qed.

Section Opt.
Context {A O : Type} {EA : EqDec A}.
Notation graph := (graph A O Z).
Notation capgraph := (Base.graph A O ext).
Implicit Types (costs : graph) (f : A -> A -> Z) (pi : A -> Z).

(** weak duality *)
Lemma cost_dual costs f pi : (forall x y, 0 <= f x y) -> (forall x y, ~ has_edge costs x y -> f x y = 0) ->
  (forall x y w, edge costs x y = Some w -> pi y - pi x <= w) -> - sumZ (nodes costs) (fun x => net costs f x * pi x) <= cost_of costs f.
Proof. intros H0 H1 H2. unfold cost_of.
  apply Z.le_trans with (sumZ (nodes costs) (fun x => sumZ (nodes costs) (fun y => f x y * (pi y - pi x)))).
  - rewrite (sumZ_ext (nodes costs) (fun x => sumZ (nodes costs) (fun y => f x y * (pi y - pi x))) (fun x => sumZ (nodes costs) (fun y => f x y * pi y) - outflow costs f x * pi x)).
    + rewrite sumZ_minus, (sumZ_swap (nodes costs) (nodes costs) (fun x y => f x y * pi y)).
      rewrite (sumZ_ext (nodes costs) (fun y => sumZ (nodes costs) (fun x => f x y * pi y)) (fun y => inflow costs f y * pi y)).
      * rewrite (sumZ_ext (nodes costs) (fun x => net costs f x * pi x) (fun x => outflow costs f x * pi x - inflow costs f x * pi x)) by (intros x _; unfold net; ring).
        rewrite sumZ_minus. lia.
      * intros y _. unfold inflow. rewrite (sumZ_ext (nodes costs) _ (fun x => pi y * f x y)) by (intros; ring). rewrite sumZ_scale. ring.
    + intros x _. unfold outflow. rewrite (sumZ_ext (nodes costs) _ (fun y => f x y * pi y - pi x * f x y)) by (intros; ring). rewrite sumZ_minus, (sumZ_scale (nodes costs) (pi x) (fun y => f x y)). ring.
  - apply sumZ_le. intros x _. apply sumZ_le. intros y _. unfold amount. destruct (edge costs x y) as [w|] eqn:E.
    + specialize (H2 _ _ _ E). specialize (H0 x y). nia.
    + rewrite H1; [lia|]. intros (w & Hw). congruence. Qed.
Lemma net_total costs f : sumZ (nodes costs) (fun x => net costs f x) = 0.
Proof. unfold net. rewrite sumZ_minus. unfold outflow, inflow. rewrite (sumZ_swap (nodes costs) (nodes costs) (fun x y => f x y)). lia. Qed.

(** the costs of one more unit along a path *)
Lemma cost_steps costs a p b d : wf costs -> In a (nodes costs) -> wpath (edge costs) a p b d ->
  sumZ (nodes costs) (fun x => sumZ (nodes costs) (fun y => steps_of p x y * amount costs x y)) = d.
Proof. intros W Ha H. induction H as [a|a c p b w d HE H IH].
  - apply sumZ_0. intros x _. apply sumZ_0. reflexivity.
  - destruct (wpath_head _ _ _ _ _ H) as (t & ->). destruct (edge_nodes costs a c w W HE) as [_ Hc]. specialize (IH Hc).
    rewrite (sumZ_ext (nodes costs) _ (fun x => ind1 a x * amount costs x c + sumZ (nodes costs) (fun y => steps_of (c :: t) x y * amount costs x y))).
    + rewrite sumZ_plus, IH, (sumZ_pick (nodes costs) a (fun x => amount costs x c) (wf_nodes _ W) Ha). unfold amount. rewrite HE. reflexivity.
    + intros x _. rewrite <- (sumZ_pick (nodes costs) c (fun y => ind1 a x * amount costs x y) (wf_nodes _ W) Hc), <- sumZ_plus. apply sumZ_ext. intros y _.
      change (steps_of (a :: c :: t) x y) with (ind1 a x * ind1 c y + steps_of (c :: t) x y). ring. Qed.
Lemma cost_addP costs F a p b d L : wf costs -> In a (nodes costs) -> wpath (edge costs) a p b d ->
  cost_of costs (fz (addP F p L)) = cost_of costs (fz F) + L * d.
Proof. intros W Ha H. rewrite <- (cost_steps costs a p b d W Ha H). unfold cost_of. rewrite <- sumZ_scale, <- sumZ_plus. apply sumZ_ext. intros x _.
  rewrite <- sumZ_scale, <- sumZ_plus. apply sumZ_ext. intros y _. rewrite fz_addP. ring. Qed.

(** a total version of distance: a large number for what cannot be reached *)
Definition big (l : list ext) : Z := sumZ l (fun e => match e with Fin z => z | Inf => 0 end).
Definition fin_or (M : Z) (e : ext) : Z := match e with Fin z => z | Inf => M end.
Lemma big_bound l z : (forall e, In e l -> ext_le (Fin 0) e) -> In (Fin z) l -> z <= big l.
Proof. unfold big. induction l as [|e l IH]; intros H Hi; [destruct Hi|]. cbn [sumZ].
  assert (0 <= sumZ l (fun e => match e with Fin z => z | Inf => 0 end)) as H0.
  { apply sumZ_nonneg. intros [y|] Hy; [|lia]. specialize (H (Fin y) (or_intror Hy)). cbn in H. exact H. }
  destruct Hi as [->|Hi]; [lia|]. specialize (IH (fun e He => H e (or_intror He)) Hi). specialize (H e (or_introl eq_refl)). destruct e; cbn in *; lia. Qed.

Section D.
Context (costs : graph).
Hypothesis HR : reachable costs.
Hypothesis Hnn : nonneg costs.
Let W := reachable_wf _ HR.
Definition dd (x y : A) : ext := mget (all_pairs_shortest_paths costs) x y.
Lemma dd_spec x y : In x (nodes costs) -> In y (nodes costs) -> dist (edge costs) x y (dd x y).
Proof. intros Hx Hy. apply dist_check; auto. apply nonneg_no_neg_cycle, Hnn. Qed.
Lemma dd_nonneg x y : In x (nodes costs) -> In y (nodes costs) -> ext_le (Fin 0) (dd x y).
Proof. intros Hx Hy. pose proof (dd_spec x y Hx Hy) as H. destruct (dd x y) as [z|]; [|exact Logic.I]. destruct H as [(p & Hp) _]. apply (wpath_nonneg _ _ _ _ _ Hnn Hp). Qed.
Lemma dd_self x : In x (nodes costs) -> dd x x = Fin 0.
Proof. intros Hx. pose proof (dd_spec x x Hx Hx) as H. pose proof (dd_nonneg x x Hx Hx) as H0. destruct (dd x x) as [z|]; cbn in *.
  - destruct H as [_ H]. specialize (H [x] 0 (wpath_one _ _)). f_equal. lia.
  - exfalso. apply (H [x] 0), wpath_one. Qed.
Lemma dd_fun x y d : In x (nodes costs) -> In y (nodes costs) -> dist (edge costs) x y d -> dd x y = d.
Proof. intros Hx Hy H. eapply dist_fun; [apply dd_spec; auto|exact H]. Qed.
(** distance from S as a potential *)
Definition from_pi S x : Z := fin_or (big (map (dd S) (nodes costs))) (dd S x).
Definition to_pi T x : Z := fin_or (big (map (fun y => dd y T) (nodes costs))) (dd x T).
Lemma from_pi_ok S x y w : In S (nodes costs) -> edge costs x y = Some w -> from_pi S y - from_pi S x <= w.
Proof. intros HS E. destruct (edge_nodes costs x y w W E) as [Hx Hy]. pose proof (Hnn _ _ _ E) as Hw. unfold from_pi, fin_or.
  pose proof (dd_spec S x HS Hx) as Dx. pose proof (dd_spec S y HS Hy) as Dy. destruct (dd S x) as [a|] eqn:Ex.
  - destruct Dx as [(p & Hp) _]. pose proof (wpath_snoc _ _ _ _ _ _ _ Hp E) as Hp'. destruct (dd S y) as [b|]; [|exfalso; apply (Dy _ _ Hp')]. destruct Dy as [_ Dy]. specialize (Dy _ _ Hp'). lia.
  - destruct (dd S y) as [b|] eqn:Ey; [|lia]. assert (b <= big (map (dd S) (nodes costs))); [|lia]. apply big_bound.
    + intros e He. apply in_map_iff in He. destruct He as (z & <- & Hz). apply dd_nonneg; auto.
    + apply in_map_iff. exists y. auto. Qed.
Lemma to_pi_ok T x y w : In T (nodes costs) -> edge costs x y = Some w -> to_pi T x - to_pi T y <= w.
Proof. intros HT E. destruct (edge_nodes costs x y w W E) as [Hx Hy]. pose proof (Hnn _ _ _ E) as Hw. unfold to_pi, fin_or.
  pose proof (dd_spec x T Hx HT) as Dx. pose proof (dd_spec y T Hy HT) as Dy. destruct (dd y T) as [a|] eqn:Ey.
  - destruct Dy as [(p & Hp) _]. pose proof (wpath_cons _ _ _ _ _ _ _ E Hp) as Hp'. destruct (dd x T) as [b|]; [|exfalso; apply (Dx _ _ Hp')]. destruct Dx as [_ Dx]. specialize (Dx _ _ Hp'). lia.
  - destruct (dd x T) as [b|] eqn:Ex; [|lia]. assert (b <= big (map (fun y => dd y T) (nodes costs))); [|lia]. apply big_bound.
    + intros e He. apply in_map_iff in He. destruct He as (z & <- & Hz). apply dd_nonneg; auto.
    + apply in_map_iff. exists x. auto. Qed.
Lemma to_pi_nonneg T x : In T (nodes costs) -> In x (nodes costs) -> 0 <= to_pi T x.
Proof. intros HT Hx. unfold to_pi. pose proof (dd_nonneg x T Hx HT) as H. destruct (dd x T) as [z|]; cbn in *; [exact H|]. apply sumZ_nonneg.
  intros e He. apply in_map_iff in He. destruct He as (y & <- & Hy). pose proof (dd_nonneg y T Hy HT) as K. destruct (dd y T); cbn in *; lia. Qed.

(** no capacities *)
Context (capg : capgraph) (stock : A -> Z).
Hypothesis HcE : forall x y, capE capg x y = room costs None x y.
Hypothesis Hstock : forall x, stock x <> 0 -> In x (nodes costs).
Lemma pedge_all F x y : good costs capg stock F -> pedge costs capg F x y = edge costs x y.
Proof. intros (G1 & _). unfold pedge. destruct (F x y) as [v|] eqn:E; [|reflexivity]. destruct (G1 _ _ _ E) as (w & Hw). rewrite HcE. unfold room. rewrite Hw. reflexivity. Qed.
Lemma augment_plain F En Dn d p L : good costs capg stock F -> augment costs capg stock F En Dn d p L ->
  In En (nodes costs) /\ In Dn (nodes costs) /\ En <> Dn /\ 0 < stock En /\ stock Dn < 0 /\ 0 <= L <= left_at costs stock F En /\
  dd En Dn = Fin d /\ (forall x, In x (nodes costs) -> 0 < left_at costs stock F x -> ext_le (Fin d) (dd x Dn)) /\
  cost_of costs (fz (addP F p L)) = cost_of costs (fz F) + L * d /\
  forall x, net costs (fz (addP F p L)) x = net costs (fz F) x + L * (ind1 En x - ind1 Dn x).
Proof. intros HG (H1 & H2 & H3 & H4 & H5 & H6 & H7 & H8). pose proof HG as (_ & _ & _ & G4).
  assert (0 < stock En) as SE by (specialize (G4 En); unfold left_at in H1; lia). assert (stock Dn < 0) as SD by (specialize (G4 Dn); unfold left_at in H2; lia).
  assert (In En (nodes costs)) as NE by (apply Hstock; lia). assert (In Dn (nodes costs)) as ND by (apply Hstock; lia).
  assert (En <> Dn) as Hne by (intros ->; lia).
  assert (forall x y, pedge costs capg F x y = edge costs x y) as HP by (intros x y; apply pedge_all, HG).
  assert (wpath (edge costs) En p Dn d) as H3' by (eapply wpath_mono; [|exact H3]; intros x y w _ _; rewrite HP; auto).
  splits; auto; try lia.
  - apply dd_fun; auto. eapply dist_ext; [exact HP|exact H5].
  - intros x Hx Hl. destruct (H6 x Hl) as (dx & Hdx & Hle). rewrite (dd_fun x Dn dx); auto. eapply dist_ext; [exact HP|exact Hdx].
  - apply (cost_addP costs F En p Dn d L W NE H3').
  - apply (net_addP costs HR F p L En Dn (erel (edge costs))); auto.
    + intros x Hx. eapply wpath_in_nodes; [exact W|exact NE|exact H3'|exact Hx].
    + split; [apply (wpath_path _ _ _ _ _ H3')|exact H4]. Qed.

(** one supply node *)
Definition J1 (S : A) (F : A -> A -> option Z) : Prop := cost_of costs (fz F) = - sumZ (nodes costs) (fun x => net costs (fz F) x * from_pi S x).
Lemma J1_step S : (forall x, 0 < stock x -> x = S) -> forall F En Dn d p L, good costs capg stock F -> J1 S F -> augment costs capg stock F En Dn d p L -> J1 S (addP F p L).
Proof. intros HS F En Dn d p L HG HJ HA. destruct (augment_plain F En Dn d p L HG HA) as (NE & ND & Hne & SE & SD & _ & Hd & _ & Hc & Hn). apply HS in SE. subst En.
  unfold J1 in *. rewrite Hc, HJ. rewrite (sumZ_ext (nodes costs) (fun x => net costs (fz (addP F p L)) x * from_pi S x) (fun x => net costs (fz F) x * from_pi S x + L * (ind1 S x * from_pi S x - ind1 Dn x * from_pi S x))) by (intros x _; rewrite Hn; ring).
  rewrite sumZ_plus, sumZ_scale, sumZ_minus, !sumZ_pick by (auto; apply W).
  assert (from_pi S S = 0) as -> by (unfold from_pi; rewrite (dd_self S NE); reflexivity).
  assert (from_pi S Dn = d) as -> by (unfold from_pi; rewrite Hd; reflexivity). lia. Qed.
Lemma shipment_plain f : shipment costs None stock f -> (forall x y, 0 <= f x y) /\ (forall x y, ~ has_edge costs x y -> f x y = 0) /\ forall x, In x (nodes costs) -> 0 <= net costs f x <= stock x \/ stock x <= net costs f x <= 0.
Proof. intros [H1 H2]. splits; [intros x y; apply H1| |intros x Hx; apply H2, contains_In, Hx].
  intros x y Hn. destruct (H1 x y) as [K1 K2]. unfold room in K2. destruct (edge costs x y) eqn:E; [exfalso; apply Hn; eexists; eauto|]. cbn in K2. lia. Qed.
Lemma one_supply_optimal S F f : In S (nodes costs) -> (forall x, 0 < stock x -> x = S) -> good costs capg stock F -> J1 S F -> shipment costs None stock f ->
  (forall x, stock x < 0 -> net costs f x = net costs (fz F) x) -> cost_of costs (fz F) <= cost_of costs f.
Proof. intros NS HS HG HJ Hf Hd. destruct (shipment_plain f Hf) as (F1 & F2 & F3). destruct HG as (_ & _ & _ & G4).
  pose proof (cost_dual costs f (from_pi S) F1 F2 (fun x y w => from_pi_ok S x y w NS)) as HC. unfold J1 in HJ. rewrite HJ.
  rewrite (sumZ_ext (nodes costs) (fun x => net costs (fz F) x * from_pi S x) (fun x => net costs f x * from_pi S x)); [exact HC|]. intros x Hx.
  destruct (Z_lt_le_dec (stock x) 0) as [h|h]; [rewrite Hd by exact h; reflexivity|]. destruct (Z.eq_dec (stock x) 0) as [h0|h0].
  - specialize (F3 x Hx). specialize (G4 x). replace (net costs f x) with 0 by lia. replace (net costs (fz F) x) with 0 by lia. reflexivity.
  - assert (x = S) as -> by (apply HS; lia). unfold from_pi. rewrite (dd_self S NS). cbn. lia. Qed.

(** one demand node *)
Definition J2 (T : A) (F : A -> A -> option Z) : Prop :=
  cost_of costs (fz F) = sumZ (nodes costs) (fun x => net costs (fz F) x * to_pi T x) /\
  forall x y, 0 < stock x -> to_pi T x < to_pi T y -> 0 < net costs (fz F) y -> left_at costs stock F x = 0.
Lemma J2_step T : (forall x, stock x < 0 -> x = T) -> forall F En Dn d p L, good costs capg stock F -> J2 T F -> augment costs capg stock F En Dn d p L -> J2 T (addP F p L).
Proof. intros HT F En Dn d p L HG [HJ1 HJ2] HA. destruct (augment_plain F En Dn d p L HG HA) as (NE & ND & Hne & SE & SD & HL & Hd & Hnear & Hc & Hn). apply HT in SD. subst Dn.
  assert (to_pi T T = 0) as TT by (unfold to_pi; rewrite (dd_self T ND); reflexivity).
  assert (to_pi T En = d) as TE by (unfold to_pi; rewrite Hd; reflexivity).
  split.
  - rewrite Hc, HJ1. rewrite (sumZ_ext (nodes costs) (fun x => net costs (fz (addP F p L)) x * to_pi T x) (fun x => net costs (fz F) x * to_pi T x + L * (ind1 En x * to_pi T x - ind1 T x * to_pi T x))) by (intros x _; rewrite Hn; ring).
    rewrite sumZ_plus, sumZ_scale, sumZ_minus, !sumZ_pick by (auto; apply W). rewrite TT, TE. lia.
  - intros x y Hx Hlt Hy. destruct HA as (HA1 & HA2 & _). destruct HG as (_ & _ & _ & G4).
    assert (forall z, 0 < stock z -> z <> T) as HzT by (intros z Hz ->; specialize (G4 T); pose proof (HA2 : left_at costs stock F T < 0); unfold left_at in *; lia).
    assert (left_at costs stock F x = 0) as H0.
    { destruct (eq_dec y En) as [->|hy].
      - rewrite TE in Hlt. destruct (Z.eq_dec (left_at costs stock F x) 0) as [h|h]; [exact h|exfalso]. assert (0 < left_at costs stock F x) as h' by (specialize (G4 x); unfold left_at in *; lia).
        assert (In x (nodes costs)) as Nx by (apply Hstock; lia). specialize (Hnear x Nx h'). unfold to_pi in Hlt. destruct (dd x T) as [z|] eqn:Ez; cbn in *; [lia|].
        assert (d <= big (map (fun y => dd y T) (nodes costs))); [|lia]. apply big_bound; [intros e He; apply in_map_iff in He; destruct He as (z & <- & Hz); apply dd_nonneg; auto|apply in_map_iff; exists En; auto].
      - apply (HJ2 x y Hx Hlt). rewrite Hn in Hy. unfold ind1 in Hy. destruct (eq_dec En y); [congruence|]. destruct (eq_dec T y); lia. }
    assert (x <> En) as HxE by (intros ->; lia). specialize (HzT x Hx). unfold left_at in *. rewrite Hn. unfold ind1. destruct (eq_dec En x); [congruence|]. destruct (eq_dec T x); [congruence|]. lia. Qed.
Lemma one_demand_optimal T F f : In T (nodes costs) -> (forall x, stock x < 0 -> x = T) -> stock T <= 0 -> good costs capg stock F -> J2 T F -> shipment costs None stock f ->
  net costs f T = net costs (fz F) T -> cost_of costs (fz F) <= cost_of costs f.
Proof. intros NT HT Hs0 HG [HJ1 HJ2] Hf Hd. destruct (shipment_plain f Hf) as (F1 & F2 & F3). destruct HG as (_ & _ & _ & G4).
  pose proof (cost_dual costs f (fun x => - to_pi T x) F1 F2) as HC. cbn beta in HC.
  assert (sumZ (nodes costs) (fun x => net costs f x * to_pi T x) <= cost_of costs f) as HC'.
  { rewrite (sumZ_ext (nodes costs) (fun x => net costs f x * - to_pi T x) (fun x => (-1) * (net costs f x * to_pi T x))) in HC by (intros; ring). rewrite sumZ_scale in HC.
    assert (forall a b, (forall x y w, edge costs x y = Some w -> - to_pi T y - - to_pi T x <= w) -> ((forall x y w, edge costs x y = Some w -> - to_pi T y - - to_pi T x <= w) -> a <= b) -> a <= b) as K by auto.
    apply K in HC; [lia|]. intros x y w E. pose proof (to_pi_ok T x y w NT E). lia. }
  rewrite HJ1. eapply Z.le_trans; [|exact HC'].
  set (cand := filter (fun x => (0 <? stock x) && (0 <? net costs (fz F) x)) (nodes costs)).
  set (theta := fold_left (fun m x => Z.max m (to_pi T x)) cand 0).
  assert (forall l m, (forall x, In x l -> to_pi T x <= fold_left (fun m x => Z.max m (to_pi T x)) l m) /\ m <= fold_left (fun m x => Z.max m (to_pi T x)) l m /\
    (fold_left (fun m x => Z.max m (to_pi T x)) l m = m \/ exists x, In x l /\ fold_left (fun m x => Z.max m (to_pi T x)) l m = to_pi T x)) as HM.
  { induction l as [|x l IH]; intros m; cbn [fold_left]; [splits; [intros x []|lia|auto]|]. destruct (IH (Z.max m (to_pi T x))) as (I1 & I2 & I3). splits.
    - intros y [<-|Hy]; [lia|apply I1, Hy].
    - lia.
    - destruct I3 as [I3|(y & Hy & I3)]; [|right; exists y; cbn; auto]. rewrite I3. destruct (Z.max_spec m (to_pi T x)) as [[_ ->]|[_ ->]]; [right; exists x; cbn; auto|auto]. }
  destruct (HM cand 0) as (M1 & M2 & M3). fold theta in M1, M2, M3.
  assert (0 <= sumZ (nodes costs) (fun x => (net costs f x - net costs (fz F) x) * (to_pi T x - theta))) as HP.
  { apply sumZ_nonneg. intros x Hx. destruct (Z_lt_le_dec (stock x) 0) as [h|h].
    - apply HT in h. subst x. rewrite Hd. lia.
    - specialize (F3 x Hx). pose proof (G4 x) as G4x. destruct (Z.eq_dec (stock x) 0) as [h0|h0]; [replace (net costs f x) with 0 by lia; replace (net costs (fz F) x) with 0 by lia; lia|].
      destruct (Z.lt_trichotomy (to_pi T x) theta) as [hl|[he|hg]].
      + assert (left_at costs stock F x = 0) as hz.
        { destruct M3 as [M3|(y & Hy & M3)]; [pose proof (to_pi_nonneg T x NT Hx); lia|]. apply filter_In in Hy. destruct Hy as [_ Hy]. apply andb_true_iff in Hy. destruct Hy as [Hy1 Hy2]. apply Z.ltb_lt in Hy1, Hy2.
          apply (HJ2 x y); auto; lia. }
        unfold left_at in hz. nia.
      + rewrite he. lia.
      + assert (net costs (fz F) x = 0) as hz.
        { destruct (Z.eq_dec (net costs (fz F) x) 0) as [hz|hz]; [exact hz|exfalso]. assert (to_pi T x <= theta); [|lia]. apply M1, filter_In. split; [exact Hx|]. apply andb_true_iff. split; apply Z.ltb_lt; lia. }
        rewrite hz. nia. }
  rewrite (sumZ_ext (nodes costs) _ (fun x => (net costs f x * to_pi T x - net costs (fz F) x * to_pi T x) - theta * (net costs f x - net costs (fz F) x))) in HP by (intros; ring).
  rewrite sumZ_minus, sumZ_scale, !sumZ_minus in HP.
  pose proof (net_total costs f) as N1. pose proof (net_total costs (fz F)) as N2.
  change (sumZ (nodes costs) (fun x => net costs f x)) with (sumZ (nodes costs) (net costs f)) in N1. change (sumZ (nodes costs) (fun x => net costs (fz F) x)) with (sumZ (nodes costs) (net costs (fz F))) in N2.
  rewrite N1, N2 in HP. lia. Qed.
End D.
End Opt.
