(** C97: minimum_cost_flow with float stocks and capacities (graph/min_cost_flow.py). *)
From Coq Require Import ZArith SpecFloat Sorted.
From Verif Require Import Prelude PreludeFacts Base BaseFacts BaseFacts2 BaseFacts3 Spec SpecFacts Loop SearchFacts
  BaseAlgFacts Sp SpFacts Fw FwFacts PropsFw FlowSpec Flow FlowFacts MaxFlowFacts FlowFacts2 HashFacts RandomFacts AssignFacts McfSpec Mcf McfFacts McfFacts2
  GSp Float64 FloatExact FloatSigned FloatStep GCpmSpec CpmFloat PropsFloat GFlow GFlowSpec FlowFloat FlowFloat2 PropsFlowFloat PropsFlowFloat2 GMcf GMcfSpec McfFloat McfFloat2 McfFloat3 McfFloat4.
Local Open Scope Z_scope.

Section P.
Context {A O : Type} {EA : EqDec A}.
Context (srt : list (spec_float * A) -> list (spec_float * A)) (near : list (ext * (spec_float * A)) -> ext * (spec_float * A)).
Context (times : spec_float -> Z -> spec_float) (sumf : list spec_float -> spec_float) (cl : gclass).
Notation graph := (graph A O Z).
Notation amounts := (Base.graph A O spec_float).
Notation minimum_cost_flow_f := (gminimum_cost_flow_of f64 fsub SFabs times sumf cl srt near).
Implicit Types (costs : graph) (fg : amounts) (capacity : option amounts) (inventory : dict A spec_float).

(** what the function is given *)
Definition float_input costs inventory capacity : Prop :=
  reachable costs /\ nonneg costs /\ NoDup (dkeys inventory) /\ (forall x v, In (x, v) inventory -> a_stock v) /\
  (forall x, exact_stock inventory x <> 0 -> contains costs x = true) /\ fcapacity_ok costs capacity.

Lemma room_zero costs capg stock k lv F C X x y : num_inv costs capg stock k lv F C X -> (forall x y c, edge capg x y = Some c -> f64_good c) -> has_edge capg x y -> gpedge costs C x y = None -> has_edge costs x y ->
  exists c, edge capg x y = Some c /\ finite_amount c /\ nearly k (X x y) (units c) (units c) /\ units (McfFloat.cnt capg C x y) = 0.
Proof. intros (_ & _ & _ & _ & _ & I5 & I6 & _) H0 (c & Hc) Hp (w & Hw). unfold gpedge in Hp. destruct (C x y) as [d|] eqn:Ed; [|congruence]. destruct (SFeqb d f0) eqn:E0; [|congruence].
  assert (McfFloat.cnt capg C x y = d) as Ec by (unfold McfFloat.cnt; rewrite Ed; reflexivity). assert (f64_good d) as Gd by (rewrite <- Ec; apply I5). apply (proj1 (eq_zero d Gd)) in E0. destruct E0 as [Fd Ud].
  destruct (I6 x y c Hc) as [J1 J2]. exists c. assert (finite_amount c) as Fc.
  { destruct (good_cases c (H0 _ _ _ Hc)) as [K|K]; [exact K|]. exfalso. specialize (J1 K). rewrite Ec, K in J1. rewrite J1 in Fd. destruct Fd as [_ (z & Ez)]. discriminate Ez. }
  destruct (J2 Fc) as (_ & _ & J3). rewrite Ec, Ud, Z.sub_0_r in J3. splits; auto; [|rewrite Ec; exact Ud]. unfold nearly in *. replace (X x y - units c) with (- (units c - X x y)) by lia. rewrite Z.abs_opp. exact J3. Qed.
Lemma amount_val F fg x y : (forall x y, edge fg x y = F x y) -> exact_amount fg x y = units (fval F x y).
Proof. intros H. unfold exact_amount, fval. rewrite H. destruct (F x y); [reflexivity|]. symmetry. apply zero_fa. Qed.

(** The function always returns.  What it ships is within k/2^53 of an exact shipment f, where k, the number of paths
    used, is at most the number of links plus the number of stocks; no supply is overdrawn and no demand is overfilled;
    and all demands are met, or all supplies used up.  It raises only if some demand is left that no remaining supply
    reaches over links that are not (nearly) full. *)
Theorem C97_float_shipment_partial costs inventory capacity : sorts_by_float srt -> picks_least near -> float_input costs inventory capacity ->
  exists r k f left, returns (fun n => minimum_cost_flow_f n costs inventory capacity) r /\
    0 <= k <= Z.of_nat (length (edges costs) + length inventory) /\ float_shipment k costs capacity inventory f left /\
    match r with
    | Ok (c, fg) =>
        reachable fg /\ (forall x y v, edge fg x y = Some v -> finite_amount v /\ has_edge costs x y) /\
        (forall x y, nearly k (exact_amount fg x y) (f x y) (exact_amount fg x y)) /\
        all_done inventory left /\
        c = sumf (map (fun x => times (snd x) (amount costs (fst (fst x)) (snd (fst x)))) (edges fg))
    | Err e => e = BadLogic /\ stuck k costs capacity f left
    | OutOfFuel => False
    end.
Proof. intros Hs Hn (H1 & H2 & H3 & H4 & H5 & H6).
  destruct (gmcf_of_spec srt near times sumf cl Hs Hn costs inventory capacity H1 H2 H3 H4 H5 H6) as (r & capg & k & lv & F & C & X & Hr & Hl & Hc & HI & Hk & Hpost).
  exists r, (Z.of_nat k), X, (fun x => units (lv x)). pose proof HI as (_ & I1 & I2 & I3 & I4 & I5 & I6 & _). splits; [exact Hr|lia|lia| |].
  - hnf. splits; [exact I3| | |].
    + intros x y c Ec Fc. destruct (fa_facts c Fc) as (_ & _ & Pc & _). unfold at_most. destruct (edge capg x y) as [c'|] eqn:E'.
      * destruct (Hc x y c' E') as [_ K]. assert (c' = c) as -> by congruence. destruct (proj2 (I6 x y c E') Fc) as (F1 & L1 & N1). destruct (fa_facts _ F1) as (_ & _ & P1 & _). unfold nearly in N1. clear - N1 P1. set (u := units (McfFloat.cnt capg C x y)) in *. clearbody u. set (q := Z.of_nat k * units c) in *. clearbody q. lia.
      * destruct (I3 x y) as [P2 P3]. assert (X x y = 0) as ->. { destruct (Z.eq_dec (X x y) 0) as [h|h]; [exact h|]. exfalso. apply P3 in h. apply Hl in h. destruct h. congruence. } nia.
    + intros x. rewrite <- stock_in_units. apply I1.
    + intros x. rewrite <- stock_in_units. apply I2.
  - destruct r as [[c fg]|e|]; [| |exact Hpost].
    + destruct Hpost as (R & E & D & Ec). splits; auto.
      * intros x y v Hv. destruct (I4 x y) as (K1 & _ & _ & K4). rewrite E in Hv. unfold fval in K1. rewrite Hv in K1. split; [exact K1|apply K4; congruence].
      * intros x y. rewrite (amount_val F fg x y E). apply I4.
    + destruct Hpost as [-> (t & T1 & T2 & T3)]. split; [reflexivity|]. exists t. splits; auto. intros s Hs' Hre. apply (T3 s Hs'). eapply reach_mono; [|exact Hre]. intros x y [K1 K2] K3. apply K2.
      destruct (room_zero costs capg (stock_in inventory) (Z.of_nat k) lv F C X x y HI (fun x y c H => proj1 (Hc x y c H)) (proj2 (Hl x y) K1) K3 K1) as (c & L1 & L2 & L3 & _). exists c. splits; auto. apply (Hc x y c L1). Qed.

(** If all stocks and finite capacities are multiples of one power of two, and not too large, nothing is rounded: the
    shipment is exact, within the capacities, and is the flow that is returned. *)
Theorem C97_grid_shipment costs inventory capacity j : sorts_by_float srt -> picks_least near -> float_input costs inventory capacity -> grid_amounts j inventory capacity ->
  exists r f left, returns (fun n => minimum_cost_flow_f n costs inventory capacity) r /\ exact_shipment costs capacity inventory f left /\
    match r with
    | Ok (c, fg) =>
        reachable fg /\ (forall x y v, edge fg x y = Some v -> finite_amount v /\ has_edge costs x y) /\
        (forall x y, f x y <= 2 ^ (j + 53) -> exact_amount fg x y = f x y) /\
        all_done inventory left /\
        c = sumf (map (fun x => times (snd x) (amount costs (fst (fst x)) (snd (fst x)))) (edges fg))
    | Err e => e = BadLogic /\ stuck 0 costs capacity f left
    | OutOfFuel => False
    end.
Proof. intros Hs Hn (H1 & H2 & H3 & H4 & H5 & H6) (G0 & G1 & G2).
  destruct (gmcf_of_spec srt near times sumf cl Hs Hn costs inventory capacity H1 H2 H3 H4 H5 H6) as (r & capg & k & lv & F & C & X & Hr & Hl & Hc & HI & Hk & Hpost).
  exists r, X, (fun x => units (lv x)). pose proof HI as (_ & I1 & I2 & I3 & I4 & I5 & I6 & I7). destruct (I7 j G0) as (J1 & J2 & J3).
  { split; [intros x; rewrite stock_in_units; apply G1|]. intros x y c Ec. apply (G2 x y c). apply (Hc x y c Ec). }
  splits; [exact Hr| |].
  - hnf. splits; [exact I3| | |].
    + intros x y c Ec Fc. destruct (fa_facts c Fc) as (_ & _ & Pc & _). destruct (edge capg x y) as [c'|] eqn:E'.
      * destruct (Hc x y c' E') as [_ K]. assert (c' = c) as -> by congruence. destruct (proj2 (I6 x y c E') Fc) as (F1 & _). destruct (fa_facts _ F1) as (_ & _ & P1 & _). destruct (J2 x y c E' Fc) as [K1 _]. lia.
      * destruct (I3 x y) as [P2 P3]. assert (X x y = 0) as ->; [|exact Pc]. destruct (Z.eq_dec (X x y) 0) as [h|h]; [exact h|]. exfalso. apply P3 in h. apply Hl in h. destruct h. congruence.
    + intros x. rewrite <- stock_in_units. apply I1.
    + intros x. rewrite <- stock_in_units. symmetry. apply J1.
  - destruct r as [[c fg]|e|]; [| |exact Hpost].
    + destruct Hpost as (R & E & D & Ec). splits; auto.
      * intros x y v Hv. destruct (I4 x y) as (K1 & _ & _ & K4). rewrite E in Hv. unfold fval in K1. rewrite Hv in K1. split; [exact K1|apply K4; congruence].
      * intros x y B. rewrite (amount_val F fg x y E). apply J3, B.
    + destruct Hpost as [-> (t & T1 & T2 & T3)]. split; [reflexivity|]. exists t. splits; auto. intros s Hs' Hre. apply (T3 s Hs'). eapply reach_mono; [|exact Hre]. intros x y [K1 K2] K3. apply K2.
      destruct (room_zero costs capg (stock_in inventory) (Z.of_nat k) lv F C X x y HI (fun x y c H => proj1 (Hc x y c H)) (proj2 (Hl x y) K1) K3 K1) as (c & L1 & L2 & L3 & L4). exists c. splits; [apply (Hc x y c L1)|exact L2|].
      destruct (J2 x y c L1 L2) as [M _]. unfold nearly. replace (X x y - units c) with 0 by lia. cbn. lia. Qed.

(** a negative cost, a negative capacity, or capacities for other links than those of the costs: ValueError *)
Theorem C97_rejects costs inventory capacity n : reachable costs -> (forall c, capacity = Some c -> reachable c) ->
  (exists x y w, edge costs x y = Some w /\ w < 0) \/
  (exists c, capacity = Some c /\ ((exists x y v, edge c x y = Some v /\ SFltb v (S754_zero false) = true) \/ exists x y, ~ (has_edge c x y <-> has_edge costs x y))) ->
  minimum_cost_flow_f n costs inventory capacity = Err ValueError.
Proof. intros R Rc H. pose proof (reachable_wf _ R) as W. unfold gminimum_cost_flow_of. destruct (forallb (fun x : A * A * Z => 0 <=? snd x) (edges costs)) eqn:E; [|reflexivity]. cbn [negb]. rewrite forallb_forall in E.
  destruct H as [(x & y & w & Hw & Hn)|(c & -> & H)].
  { exfalso. apply (In_edges costs x y w W) in Hw. specialize (E _ Hw). cbn in E. apply Z.leb_le in E. lia. }
  pose proof (reachable_wf _ (Rc c eq_refl)) as Wc. cbn [gmcf_capacity].
  destruct (existsb (fun x : A * A * spec_float => a_ltb f64 (snd x) (a_zero f64)) (edges c)) eqn:E1; [reflexivity|].
  destruct (forallb (fun x => mem x (links c)) (links costs) && forallb (fun x => mem x (links costs)) (links c)) eqn:E2; [|reflexivity]. exfalso. apply andb_true_iff in E2. destruct E2 as [E2 E3]. rewrite forallb_forall in E2, E3.
  destruct H as [(x & y & v & Hv & Hn)|(x & y & Hxy)].
  - apply not_true_iff_false in E1. apply E1, existsb_exists. exists (x, y, v). split; [apply (In_edges c x y v Wc), Hv|exact Hn].
  - apply Hxy. split; intros K.
    + apply (In_links costs x y W), mem_In, E3, (In_links c x y Wc), K.
    + apply (In_links c x y Wc), mem_In, E2, (In_links costs x y W), K. Qed.
End P.

(** ** Concrete cases *)
Fixpoint ins_f (x : spec_float * nat) (l : list (spec_float * nat)) : list (spec_float * nat) := match l with [] => [x] | y :: t => if SFltb (fst y) (fst x) then y :: ins_f x t else x :: l end.
Definition sort_f (l : list (spec_float * nat)) : list (spec_float * nat) := fold_right ins_f [] l.
Lemma sort_f_ok : sorts_by_float sort_f.
Proof. intros l. induction l as [|x l IH]; intros Hf; [split; constructor|]. change (sort_f (x :: l)) with (ins_f x (sort_f l)). destruct IH as [H1 H2]; [intros z Hz; apply Hf; right; exact Hz|].
  assert (forall z, In z (sort_f l) -> finite_number (fst z)) as Hfs by (intros z Hz; apply Hf; right; eapply Permutation_in; [exact H1|exact Hz]). assert (finite_number (fst x)) as Hx by (apply Hf; left; reflexivity).
  revert H1 H2 Hfs. generalize (sort_f l) as s. clear Hf. intros s H1 H2 Hs. split.
  - apply (Permutation_trans (l' := x :: s)); [|constructor; exact H1]. clear. induction s as [|y s IH]; cbn; [reflexivity|]. destruct (SFltb (fst y) (fst x)); [|reflexivity]. rewrite IH. constructor.
  - clear H1 l. induction s as [|y s IH]; cbn [ins_f]; [repeat constructor|]. apply StronglySorted_inv in H2. destruct H2 as [H2 H3]. assert (finite_number (fst y)) as Hy by (apply Hs; left; reflexivity). rewrite Forall_forall in H3. destruct (SFltb (fst y) (fst x)) eqn:E.
    + constructor; [apply IH; [exact H2|intros z Hz; apply Hs; right; exact Hz]|]. apply Forall_forall. intros z Hz. assert (z = x \/ In z s) as [->|Hz'].
      { clear - Hz. induction s as [|w s IH]; cbn [ins_f] in Hz; [destruct Hz as [<-|[]]; auto|]. destruct (SFltb (fst w) (fst x)); [|destruct Hz as [<-|Hz]; auto]. destruct Hz as [<-|Hz]; [right; left; reflexivity|]. destruct (IH Hz); [auto|right; right; assumption]. }
      * rewrite fin_lt in * by assumption. apply Z.ltb_lt in E. apply Z.ltb_ge. lia.
      * apply H3, Hz'.
    + constructor; [constructor; [exact H2|apply Forall_forall, H3]|]. constructor; [exact E|]. apply Forall_forall. intros z Hz. specialize (H3 z Hz). assert (finite_number (fst z)) as Hz' by (apply Hs; right; exact Hz).
      rewrite fin_lt in * by assumption. apply Z.ltb_ge in E, H3. apply Z.ltb_ge. lia. Qed.
Definition nearer {B} (b x : ext * B) : ext * B := if ext_ltb (fst x) (fst b) then x else b.
Definition near_of {B} (d : B) (l : list (ext * B)) : ext * B := fold_left nearer l (hd (Inf, d) l).
Lemma near_of_ok {B} (d : B) : picks_least (near_of d).
Proof. assert (forall (l : list (ext * B)) b, (fold_left nearer l b = b \/ In (fold_left nearer l b) l) /\ ext_le (fst (fold_left nearer l b)) (fst b) /\ forall y, In y l -> ext_le (fst (fold_left nearer l b)) (fst y)) as G.
  { induction l as [|z l IH]; intros b; cbn [fold_left]; [splits; auto; [apply ext_le_refl|intros y []]|]. destruct (IH (nearer b z)) as (H1 & H2 & H3).
    assert (ext_le (fst (nearer b z)) (fst b) /\ ext_le (fst (nearer b z)) (fst z) /\ (nearer b z = b \/ nearer b z = z)) as (K1 & K2 & K3).
    { unfold nearer. destruct (ext_ltb (fst z) (fst b)) eqn:E; splits; auto using ext_le_refl; destruct (fst z), (fst b); cbn in *; try discriminate; auto; [apply Z.ltb_lt in E; lia|apply Z.ltb_ge in E; lia]. }
    splits.
    - destruct H1 as [H1|H1]; [rewrite H1; destruct K3 as [->| ->]; [auto|right; left; reflexivity]|right; right; exact H1].
    - eapply ext_le_trans; eauto.
    - intros y [<-|Hy]; [eapply ext_le_trans; eauto|apply H3, Hy]. }
  intros l Hl. unfold near_of. destruct l as [|x l]; [congruence|]. destruct (G (x :: l) x) as (H1 & H2 & H3). cbn [hd]. split; [|exact H3]. destruct H1 as [->|H1]; [left; reflexivity|exact H1]. Qed.
Definition near64 : list (ext * (spec_float * nat)) -> ext * (spec_float * nat) := near_of (S754_zero false, 0%nat).
(** float * int, for small non-negative ints *)
Definition times64 (d : spec_float) (c : Z) : spec_float := SFmul 53 1024 d (binary_normalize 53 1024 c 0 false).
Lemma cap_stock c : capacity c -> a_stock c.
Proof. intros [F B]. destruct (fa_facts c F) as (_ & _ & P & _). split; [apply fa_fin, F|]. rewrite Z.abs_eq by exact P. destruct B as [->|[_ B]]; [apply Z.pow_nonneg; lia|exact B]. Qed.
Lemma neg_stock m k : capacity (S754_finite false m k) -> a_stock (S754_finite true m k).
Proof. intros H. apply cap_stock in H. destruct H as [[V (z & E)] B]. assert (sval 53 1024 (S754_finite true m k) = Some (- z)) as E'. { cbn [sval cond_Zopp] in *. apply some_inj in E. rewrite <- E. f_equal. }
  split; [split; [exact V|eauto]|]. unfold units in *. rewrite E' in *. rewrite E in B. rewrite Z.abs_opp. exact B. Qed.

(** supplies 0.3 at 1 and 0.7 at 2, a demand of 0.9000000000000001 at 4, all over 3 -> 4 with a capacity of 0.9 *)
Definition fm09' : spec_float := S754_finite true 8106479329266894 (-53).
Definition ops_q : list (op nat unit Z) := [OpAddEdge 1 3 1%Z false; OpAddEdge 2 3 1%Z false; OpAddEdge 3 4 1%Z false]%nat.
Definition g_q : graph nat unit Z := ok_or empty_graph (run ops_q).
Definition cap_q_ops : list (op nat unit spec_float) := [OpAddEdge 1 3 f1 false; OpAddEdge 2 3 (S754_infinity false) false; OpAddEdge 3 4 f09 false]%nat.
Definition cap_q : graph nat unit spec_float := ok_or empty_graph (run cap_q_ops).
Definition inv_q : dict nat spec_float := [(1, f03); (2, f07); (4, fm09')]%nat.
Lemma q_reachable : reachable g_q. Proof. exists ops_q. vm_compute. reflexivity. Qed.
Lemma capq_reachable : reachable cap_q. Proof. exists cap_q_ops. vm_compute. reflexivity. Qed.
Lemma stocks_of (inv : dict nat spec_float) l : map snd inv = l -> Forall a_stock l -> forall x v, In (x, v) inv -> a_stock v.
Proof. intros E H x v Hi. apply (in_map snd) in Hi. cbn in Hi. rewrite E in Hi. rewrite Forall_forall in H. apply H, Hi. Qed.
Lemma stocks_in (g : graph nat unit Z) (inv : dict nat spec_float) : forallb (fun x => contains g x) (dkeys inv) = true -> forall x, exact_stock inv x <> 0 -> contains g x = true.
Proof. intros H x Hx. unfold exact_stock in Hx. destruct (dget x inv) as [v|] eqn:E; [|congruence]. rewrite forallb_forall in H. apply H. apply dget_Some_key in E. exact E. Qed.
Lemma fcap_check (g : graph nat unit Z) (c : graph nat unit spec_float) l : reachable g -> reachable c -> forallb (fun x => mem x (links c)) (links g) && forallb (fun x => mem x (links g)) (links c) = true ->
  map snd (edges c) = l -> Forall f64_good l -> fcapacity_ok g (Some c).
Proof. intros R Rc H E Hg. apply andb_true_iff in H. destruct H as [H1 H2]. rewrite forallb_forall in H1, H2. pose proof (reachable_wf _ R) as W. pose proof (reachable_wf _ Rc) as Wc. cbn [fcapacity_ok]. splits; [exact Rc| |].
  - intros x y. split; intros K; [apply (In_links c x y Wc), H2, mem_In, (In_links g x y W) in K|apply (In_links g x y W), H1, mem_In, (In_links c x y Wc) in K]; exact K.
  - intros x y v Hv. apply (In_edges c x y v Wc) in Hv. apply (in_map snd) in Hv. cbn [snd] in Hv. rewrite E in Hv. rewrite Forall_forall in Hg. apply Hg, Hv. Qed.
Lemma inf_good : f64_good (S754_infinity false). Proof. split; reflexivity. Qed.
Example C97_example : sorts_by_float sort_f /\ picks_least near64 /\ float_input g_q inv_q (Some cap_q).
Proof. splits; [apply sort_f_ok|apply near_of_ok|]. hnf. splits; [exact q_reachable| | | | |].
  - intros a b w E. apply (In_edges g_q a b w (reachable_wf _ q_reachable)) in E. assert (forallb (fun x => (0 <=? snd x)%Z) (edges g_q) = true) as H by (vm_compute; reflexivity). rewrite forallb_forall in H. specialize (H _ E). apply Z.leb_le, H.
  - cbn. repeat constructor; cbn; intuition lia.
  - apply (stocks_of inv_q [f03; f07; fm09']); [reflexivity|]. constructor; [apply cap_stock, f_capacity; vm_compute; reflexivity|]. constructor; [apply cap_stock, f_capacity; vm_compute; reflexivity|]. constructor; [apply neg_stock, f_capacity; vm_compute; reflexivity|constructor].
  - apply stocks_in. vm_compute. reflexivity.
  - apply (fcap_check g_q cap_q [f1; S754_infinity false; f09] q_reachable capq_reachable); [vm_compute; reflexivity|vm_compute; reflexivity|].
    constructor; [apply (f_capacity 4503599627370496 (-52)); vm_compute; reflexivity|]. constructor; [exact inf_good|]. constructor; [apply (f_capacity 8106479329266893 (-53)); vm_compute; reflexivity|constructor]. Qed.
Lemma q_runs r : gminimum_cost_flow_of f64 fsub SFabs times64 sum64 IsGraph sort_f near64 50 g_q inv_q (Some cap_q) = r -> r <> OutOfFuel ->
  returns (fun n => gminimum_cost_flow_of f64 fsub SFabs times64 sum64 IsGraph sort_f near64 n g_q inv_q (Some cap_q)) r.
Proof. intros E Hr. destruct C97_example as (X1 & X2 & X3). destruct (C97_float_shipment_partial sort_f near64 times64 sum64 IsGraph g_q inv_q (Some cap_q) X1 X2 X3) as (r' & k & f & left & Hr' & _). clear X1 X2 X3.
  assert (r' = r) as <- by (rewrite <- E; symmetry; apply (returns_of _ _ 50%nat Hr'); rewrite E; exact Hr). exact Hr'. Qed.
(** 0.9000000000000001 is sent over the link 3 -> 4 of capacity 0.9: 0.9 - 0.3 is rounded up, and so is the sum *)
Theorem C97_over_capacity_refuted : exists c fg, returns (fun n => gminimum_cost_flow_of f64 fsub SFabs times64 sum64 IsGraph sort_f near64 n g_q inv_q (Some cap_q)) (Ok (c, fg)) /\
  edge cap_q 3%nat 4%nat = Some f09 /\ edge fg 3%nat 4%nat = Some f09' /\ units f09 < units f09' /\ exact_amount fg 1%nat 3%nat + exact_amount fg 2%nat 3%nat <> exact_amount fg 3%nat 4%nat.
Proof. set (r := gminimum_cost_flow_of f64 fsub SFabs times64 sum64 IsGraph sort_f near64 50 g_q inv_q (Some cap_q)). 
  assert (exists c fg, r = Ok (c, fg) /\ edge cap_q 3%nat 4%nat = Some f09 /\ edge fg 3%nat 4%nat = Some f09' /\ units f09 < units f09' /\ Z.eqb (exact_amount fg 1%nat 3%nat + exact_amount fg 2%nat 3%nat) (exact_amount fg 3%nat 4%nat) = false) as (c & fg & E & K1 & K2 & K3 & K4).
  { unfold r. eexists _, _. splits; [vm_compute; reflexivity|vm_compute; reflexivity..]. }
  exists c, fg. splits; [|exact K1|exact K2|exact K3|apply Z.eqb_neq, K4]. apply q_runs; [exact E|discriminate]. Qed.

(** 1.5 at 1, 0.25 at 2, a demand of 1.0 at 4 and capacities 1.0: multiples of 2^-4 *)
Definition fm1 : spec_float := S754_finite true 4503599627370496 (-52).
Definition cap_r_ops : list (op nat unit spec_float) := [OpAddEdge 1 3 f1 false; OpAddEdge 2 3 (S754_infinity false) false; OpAddEdge 3 4 f1 false]%nat.
Definition cap_r : graph nat unit spec_float := ok_or empty_graph (run cap_r_ops).
Definition inv_r : dict nat spec_float := [(1, f15'); (2, f025'); (4, fm1)]%nat.
Lemma capr_reachable : reachable cap_r. Proof. exists cap_r_ops. vm_compute. reflexivity. Qed.
Lemma divides j z : 0 <= j -> (z mod 2 ^ j =? 0) = true -> (2 ^ j | z).
Proof. intros Hj H. apply Z.mod_divide; [apply Z.pow_nonzero; lia|]. apply Z.eqb_eq, H. Qed.
Example C97_grid_example : float_input g_q inv_r (Some cap_r) /\ grid_amounts 1070 inv_r (Some cap_r).
Proof. split.
  - hnf. splits; [exact q_reachable|apply C97_example| | | |].
    + cbn. repeat constructor; cbn; intuition lia.
    + apply (stocks_of inv_r [f15'; f025'; fm1]); [reflexivity|]. constructor; [apply cap_stock, f_capacity; vm_compute; reflexivity|]. constructor; [apply cap_stock, f_capacity; vm_compute; reflexivity|]. constructor; [apply neg_stock, f_capacity; vm_compute; reflexivity|constructor].
    + apply stocks_in. vm_compute. reflexivity.
    + apply (fcap_check g_q cap_r [f1; S754_infinity false; f1] q_reachable capr_reachable); [vm_compute; reflexivity|vm_compute; reflexivity|].
      constructor; [apply (f_capacity 4503599627370496 (-52)); vm_compute; reflexivity|]. constructor; [exact inf_good|]. constructor; [apply (f_capacity 4503599627370496 (-52)); vm_compute; reflexivity|constructor].
  - assert (forall z, In z [units f15'; units f025'; units fm1; units f1; 0] -> (2 ^ 1070 | z) /\ Z.abs z <= 2 ^ (1070 + 53)) as G.
    { intros z Hz. assert (forallb (fun z => (z mod 2 ^ 1070 =? 0) && (Z.abs z <=? 2 ^ (1070 + 53))) [units f15'; units f025'; units fm1; units f1; 0] = true) as K by (vm_compute; reflexivity). rewrite forallb_forall in K. specialize (K z Hz). apply andb_true_iff in K. destruct K as [K1 K2]. split; [apply divides; [lia|exact K1]|apply Z.leb_le, K2]. }
    hnf. splits; [lia| |].
    + intros x. apply G. unfold exact_stock. destruct (dget x inv_r) as [v|] eqn:E; [|do 4 right; left; reflexivity]. apply dget_In in E. unfold inv_r in E. destruct E as [E|[E|[E|[]]]]; injection E as _ <-; [left; reflexivity|right; left; reflexivity|right; right; left; reflexivity].
    + intros x y c E F. cbn [fcap] in E. apply (In_edges cap_r x y c (reachable_wf _ capr_reachable)) in E. apply (in_map snd) in E. cbn [snd] in E. assert (map snd (edges cap_r) = [f1; S754_infinity false; f1]) as Q by (vm_compute; reflexivity). rewrite Q in E. clear Q.
      assert (c = f1) as ->. { destruct E as [<-|[<-|[<-|[]]]]; [reflexivity| |reflexivity]. destruct F as [_ (z & Ez)]. discriminate Ez. }
      destruct (G (units f1)) as [K1 K2]; [do 3 right; left; reflexivity|]. split; [exact K1|]. rewrite Z.abs_eq in K2 by apply fa_facts, F. exact K2. Qed.
