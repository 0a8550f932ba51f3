(** Property theorems C45, C46, C77 (minimum_cost_flow). *)
From Coq Require Import Sorted.
From Verif Require Import Prelude PreludeFacts Base BaseFacts BaseFacts2 BaseFacts3 Spec SpecFacts Loop SearchFacts
  BaseAlgFacts Sp SpFacts Fw FwFacts PropsFw FlowSpec Flow FlowFacts MaxFlowFacts FlowFacts2 HashFacts RandomFacts AssignFacts McfSpec Mcf McfFacts McfFacts2 McfOpt.
Local Open Scope Z_scope.

Section P.
Context {A O : Type} {EA : EqDec A}.
Context (cl : gclass) (srt : list (Z * A) -> list (Z * A)) (near : list (ext * (Z * A)) -> ext * (Z * A)).
Notation graph := (graph A O Z).
Notation capgraph := (Base.graph A O ext).
Implicit Types (costs flows : graph) (capacity : option capgraph) (inventory : dict A Z).

Lemma net_ext costs (f h : A -> A -> Z) x : (forall x y, f x y = h x y) -> net costs f x = net costs h x.
Proof. intros E. unfold net, outflow, inflow. rewrite (sumZ_ext (nodes costs) (fun y => f x y) (fun y => h x y)), (sumZ_ext (nodes costs) (fun y => f y x) (fun y => h y x)) by auto. reflexivity. Qed.
Lemma cost_of_ext costs (f h : A -> A -> Z) : (forall x y, f x y = h x y) -> cost_of costs f = cost_of costs h.
Proof. intros E. apply sumZ_ext. intros x _. apply sumZ_ext. intros y _. rewrite E. reflexivity. Qed.
Lemma good_shipment costs capg capacity stock F f : (forall x y, capE capg x y = room costs capacity x y) -> good costs capg stock F -> (forall x y, f x y = fz F x y) -> shipment costs capacity stock f.
Proof. intros HcE (G1 & G2 & G3 & G4) Ef. split.
  - intros x y. rewrite Ef, <- HcE. auto.
  - intros x _. rewrite (net_ext costs f (fz F) x Ef). apply G4. Qed.

(** C45: it always finishes.  Either it returns a shipment within stocks and capacities together with its exact costs, in
    which all the demand is met or all the supply is used up; or it raises the exception "bad logic", and then
    the shipment it has built cannot be extended: no supply node with stock left reaches a certain unmet demand node over
    links with room left. *)
Theorem C45_feasible costs inventory capacity : sorts_by_stock srt -> picks_nearest near ->
  reachable costs -> nonneg costs -> NoDup (dkeys inventory) -> (forall x, stock_of inventory x <> 0 -> contains costs x = true) -> capacity_ok costs capacity ->
  exists r, returns (fun n => minimum_cost_flow_of cl srt near n costs inventory capacity) r /\
    match r with
    | Ok (c, fg) => reachable fg /\ (forall x y v, edge fg x y = Some v -> has_edge costs x y) /\
        shipment costs capacity (stock_of inventory) (amount fg) /\ c = cost_of costs (amount fg) /\
        ((forall x, stock_of inventory x < 0 -> net costs (amount fg) x = stock_of inventory x) \/
         (forall x, 0 < stock_of inventory x -> net costs (amount fg) x = stock_of inventory x))
    | Err e => e = BadLogic /\ exists f t, shipment costs capacity (stock_of inventory) f /\ stock_of inventory t < net costs f t /\
        (exists s, 0 < stock_of inventory s /\ net costs f s < stock_of inventory s) /\
        forall s, 0 < stock_of inventory s -> net costs f s < stock_of inventory s -> ~ reach (open_link costs capacity f) s t
    | OutOfFuel => False
    end.
Proof. intros Hs Hn HR Hnn Hnd Hin Hcap.
  destruct (mcf_of_spec srt near Hs Hn cl costs inventory capacity (fun _ => True) HR Hnn Hnd Hin Hcap) as (r & capg & HcE & Hr & Hp); auto. exists r. split; [exact Hr|].
  destruct r as [[c fg]|e|]; cbn in Hp |- *; [| |exact Hp].
  - destruct Hp as (F & Rf & EF & HG & _ & Hc & HD). assert (forall x y, amount fg x y = fz F x y) as Ef by (intros x y; unfold amount, fz; rewrite EF; reflexivity). splits; auto.
    + intros x y v. rewrite EF. apply HG.
    + apply (good_shipment costs capg capacity _ F _ HcE HG Ef).
    + destruct HD as [HD|HD]; [left|right]; intros x Hx; rewrite (net_ext costs _ _ x Ef); auto.
  - destruct Hp as (-> & F & HG & _ & t & Ht & (s & Hs') & Hno). split; [reflexivity|]. exists (fz F), t. pose proof HG as (_ & _ & _ & G4). splits.
    + apply (good_shipment costs capg capacity _ F _ HcE HG). reflexivity.
    + exact Ht.
    + exists s. specialize (G4 s). split; lia.
    + intros s0 H1 H2 C. apply (Hno s0 H2 H1). eapply reach_mono; [|exact C]. intros x y [(w & Hw) Hop] E. apply Hop. unfold pedge in E. rewrite <- HcE. unfold fz.
      destruct (F x y) as [v|]; [|congruence]. destruct (ext_eqb (ext_sub (capE capg x y) v) (Fin 0)) eqn:Ez; [|congruence]. apply ext_eqb_eq in Ez. destruct (capE capg x y) as [z|]; cbn in Ez; [|discriminate]. injection Ez as Ez. f_equal. lia. Qed.
Theorem C45_negative_costs costs inventory capacity n : reachable costs -> ~ nonneg costs -> minimum_cost_flow_of cl srt near n costs inventory capacity = Err ValueError.
Proof. intros HR H. pose proof (reachable_wf _ HR) as W. unfold minimum_cost_flow_of. destruct (forallb (fun x : A * A * Z => 0 <=? snd x) (edges costs)) eqn:E; [|reflexivity]. exfalso. apply H.
  intros a b w Hw. rewrite forallb_forall in E. apply (In_edges costs a b w W) in Hw. specialize (E _ Hw). cbn in E. apply Z.leb_le, E. Qed.
Theorem C45_bad_capacity costs inventory c n : reachable costs -> reachable c -> ~ capacity_ok costs (Some c) -> minimum_cost_flow_of cl srt near n costs inventory (Some c) = Err ValueError.
Proof. intros HR Rc H. pose proof (reachable_wf _ HR) as W. pose proof (reachable_wf _ Rc) as Wc. unfold minimum_cost_flow_of. destruct (negb _); [reflexivity|].
  destruct (existsb (fun x : A * A * ext => ext_ltb (snd x) (Fin 0)) (edges c)) eqn:E1; [reflexivity|]. destruct (forallb (fun x => mem x (links c)) (links costs)) eqn:E2; [|reflexivity]. destruct (forallb (fun x => mem x (links costs)) (links c)) eqn:E3; [|reflexivity].
  exfalso. apply H. rewrite forallb_forall in E2, E3. cbn. splits; [exact Rc| |].
  - intros x y. split; intros K; [apply (In_links c x y Wc), E3, mem_In, (In_links costs x y W) in K|apply (In_links costs x y W), E2, mem_In, (In_links c x y Wc) in K]; exact K.
  - intros x y v Hv. apply (In_edges c x y v Wc) in Hv. destruct v as [z|]; [|exact Logic.I]. cbn. destruct (Z_lt_le_dec z 0) as [h|h]; [|exact h]. exfalso. apply not_true_iff_false in E1. apply E1. apply existsb_exists. exists (x, y, Fin z). split; [exact Hv|]. cbn. apply Z.ltb_lt, h. Qed.

(** C46.  It is cost-minimal among the shipments that bring as much to each demand node if there are no capacities and
    only one supply node or only one demand node.  Missing: several supplies and several demands, or capacities; there it fails. *)
Theorem C46_one_supply_partial costs inventory s c fg f : sorts_by_stock srt -> picks_nearest near ->
  reachable costs -> nonneg costs -> NoDup (dkeys inventory) -> (forall x, stock_of inventory x <> 0 -> contains costs x = true) ->
  0 < stock_of inventory s -> (forall x, 0 < stock_of inventory x -> x = s) ->
  returns (fun n => minimum_cost_flow_of cl srt near n costs inventory None) (Ok (c, fg)) ->
  shipment costs None (stock_of inventory) f -> (forall x, stock_of inventory x < 0 -> net costs f x = net costs (amount fg) x) ->
  c <= cost_of costs f.
Proof. intros Hs Hn HR Hnn Hnd Hin Hpos Hone Hr Hf Hd.
  assert (forall x, stock_of inventory x <> 0 -> In x (nodes costs)) as Hin' by (intros x Hx; apply contains_In, Hin, Hx).
  destruct (mcf_of_spec srt near Hs Hn cl costs inventory None (J1 costs s) HR Hnn Hnd Hin Logic.I) as (r & capg & HcE & Hr' & Hp).
  - intros capg HcE F En Dn d p L HG HJ HA. eapply (J1_step costs HR Hnn capg (stock_of inventory) HcE Hin' s Hone); eauto.
  - unfold J1, cost_of. rewrite sumZ_0 by (intros x _; apply sumZ_0; intros; unfold fz; lia). rewrite sumZ_0; [reflexivity|]. intros x _. unfold net, outflow, inflow. rewrite !sumZ_0 by reflexivity. lia.
  - pose proof (returns_fun _ _ _ Hr Hr') as E. rewrite <- E in Hp. cbn in Hp. destruct Hp as (F & Rf & EF & HG & HJ & -> & HD).
    assert (forall x y, amount fg x y = fz F x y) as Ef by (intros x y; unfold amount, fz; rewrite EF; reflexivity). rewrite (cost_of_ext costs _ _ Ef).
    apply (one_supply_optimal costs HR Hnn capg (stock_of inventory) s F f); auto; [apply Hin'; lia|]. intros x Hx. rewrite Hd by exact Hx. apply net_ext, Ef. Qed.
Theorem C46_one_demand_partial costs inventory t c fg f : sorts_by_stock srt -> picks_nearest near ->
  reachable costs -> nonneg costs -> NoDup (dkeys inventory) -> (forall x, stock_of inventory x <> 0 -> contains costs x = true) ->
  stock_of inventory t < 0 -> (forall x, stock_of inventory x < 0 -> x = t) ->
  returns (fun n => minimum_cost_flow_of cl srt near n costs inventory None) (Ok (c, fg)) ->
  shipment costs None (stock_of inventory) f -> net costs f t = net costs (amount fg) t ->
  c <= cost_of costs f.
Proof. intros Hs Hn HR Hnn Hnd Hin Hneg Hone Hr Hf Hd.
  assert (forall x, stock_of inventory x <> 0 -> In x (nodes costs)) as Hin' by (intros x Hx; apply contains_In, Hin, Hx).
  assert (forall x, net costs (fz (fun _ _ => None)) x = 0) as Hnet0 by (intros x; unfold net, outflow, inflow; rewrite !sumZ_0 by reflexivity; lia).
  destruct (mcf_of_spec srt near Hs Hn cl costs inventory None (J2 costs (stock_of inventory) t) HR Hnn Hnd Hin Logic.I) as (r & capg & HcE & Hr' & Hp).
  - intros capg HcE F En Dn d p L HG HJ HA. eapply (J2_step costs HR Hnn capg (stock_of inventory) HcE Hin' t Hone); eauto.
  - split; [|intros x y _ _; rewrite Hnet0; lia]. unfold cost_of. rewrite sumZ_0 by (intros x _; apply sumZ_0; intros; unfold fz; lia). rewrite sumZ_0; [reflexivity|]. intros x _. rewrite Hnet0. lia.
  - pose proof (returns_fun _ _ _ Hr Hr') as E. rewrite <- E in Hp. cbn in Hp. destruct Hp as (F & Rf & EF & HG & HJ & -> & HD).
    assert (forall x y, amount fg x y = fz F x y) as Ef by (intros x y; unfold amount, fz; rewrite EF; reflexivity). rewrite (cost_of_ext costs _ _ Ef).
    apply (one_demand_optimal costs HR Hnn capg (stock_of inventory) t F f); auto; [apply Hin'; lia|lia|]. rewrite Hd. apply net_ext, Ef. Qed.

(** C77.  Without capacities, if every supply node reaches every demand node, a shipment is returned in which all demand is
    met or all supply is used up.  Missing: that a shipment that meets all demand is found whenever there is one; this fails. *)
Theorem C77_all_reachable_partial costs inventory : sorts_by_stock srt -> picks_nearest near ->
  reachable costs -> nonneg costs -> NoDup (dkeys inventory) -> (forall x, stock_of inventory x <> 0 -> contains costs x = true) ->
  (forall s t, 0 < stock_of inventory s -> stock_of inventory t < 0 -> reach (has_edge costs) s t) ->
  exists c fg, returns (fun n => minimum_cost_flow_of cl srt near n costs inventory None) (Ok (c, fg)) /\ shipment costs None (stock_of inventory) (amount fg) /\
    ((forall x, stock_of inventory x < 0 -> net costs (amount fg) x = stock_of inventory x) \/
     (forall x, 0 < stock_of inventory x -> net costs (amount fg) x = stock_of inventory x)).
Proof. intros Hs Hn HR Hnn Hnd Hin Hreach. destruct (C45_feasible costs inventory None Hs Hn HR Hnn Hnd Hin Logic.I) as ([[c fg]|e|] & Hr & Hp); [exists c, fg; tauto| |destruct Hp].
  exfalso. destruct Hp as (_ & f & t & Hf & Ht & (s & Hs1 & Hs2) & Hno). destruct Hf as [Hf1 Hf2].
  assert (stock_of inventory t < 0) as Htn.
  { destruct (Z.eq_dec (stock_of inventory t) 0) as [h|h].
    - destruct (contains costs t) eqn:Ec; [specialize (Hf2 t Ec); lia|].
      assert (net costs f t = 0) as K; [|lia]. unfold net, outflow, inflow. rewrite !sumZ_0; [lia| |]; intros x Hx.
      + destruct (Hf1 x t) as [K1 K2]. unfold room in K2. destruct (edge costs x t) as [w|] eqn:E; [|cbn in K2; lia]. destruct (edge_nodes costs x t w (reachable_wf _ HR) E) as [_ K]. apply contains_In in K. congruence.
      + destruct (Hf1 t x) as [K1 K2]. unfold room in K2. destruct (edge costs t x) as [w|] eqn:E; [|cbn in K2; lia]. destruct (edge_nodes costs t x w (reachable_wf _ HR) E) as [K _]. apply contains_In in K. congruence.
    - specialize (Hf2 t (Hin t h)). lia. }
  apply (Hno s Hs1 Hs2). eapply reach_mono; [|apply (Hreach s t Hs1 Htn)]. intros x y Hxy. split; [exact Hxy|]. destruct Hxy as (w & Hw). unfold room. rewrite Hw. discriminate. Qed.
End P.

(** ** Concrete cases *)
Close Scope Z_scope.
Definition le_zn (x y : Z * nat) : bool := ((fst x <? fst y) || ((fst x =? fst y) && (snd x <=? snd y)%nat))%Z.
Fixpoint ins_zn (x : Z * nat) (l : list (Z * nat)) : list (Z * nat) := match l with [] => [x] | y :: t => if le_zn x y then x :: l else y :: ins_zn x t end.
Definition sort_zn (l : list (Z * nat)) : list (Z * nat) := fold_right ins_zn [] l.
Lemma sort_zn_ok : sorts_by_stock sort_zn.
Proof. intros l. induction l as [|x l [IH1 IH2]]; [split; constructor|]. change (sort_zn (x :: l)) with (ins_zn x (sort_zn l)). revert IH1 IH2. generalize (sort_zn l) as s. intros s H1 H2. split.
  - apply (Permutation_trans (l' := x :: s)); [|constructor; exact H1]. clear. induction s as [|y s IH]; cbn; [reflexivity|]. destruct (le_zn x y); [reflexivity|]. rewrite IH. constructor.
  - clear H1 l. induction s as [|y s IH]; cbn; [repeat constructor|]. apply StronglySorted_inv in H2. destruct H2 as [H2 H3]. destruct (le_zn x y) eqn:E; unfold le_zn in E.
    + assert (fst x <= fst y)%Z as E' by (destruct (Z.ltb_spec (fst x) (fst y)); [lia|]; destruct (Z.eqb_spec (fst x) (fst y)); [lia|discriminate]). constructor; [constructor; assumption|]. constructor; [exact E'|]. eapply Forall_impl; [|exact H3]. cbn. intros a Ha. lia.
    + assert (fst y <= fst x)%Z as E' by (destruct (Z.ltb_spec (fst x) (fst y)); [discriminate|lia]). constructor; [apply IH, H2|]. apply Forall_forall. intros z Hz. assert (z = x \/ In z s) as [->|Hz'].
      { clear - Hz. induction s as [|w s IH]; cbn in Hz; [destruct Hz as [<-|[]]; auto|]. destruct (le_zn x w); [destruct Hz as [<-|Hz]; auto|]. destruct Hz as [<-|Hz]; [right; left; reflexivity|]. destruct (IH Hz); [auto|right; right; assumption]. }
      * exact E'.
      * rewrite Forall_forall in H3. apply H3, Hz'. Qed.
Definition near_step (b x : ext * (Z * nat)) : ext * (Z * nat) := if ext_ltb (fst x) (fst b) then x else b.
Definition near_first (l : list (ext * (Z * nat))) : ext * (Z * nat) := fold_left near_step l (hd (Inf, (0%Z, 0)) l).
Lemma near_first_ok : picks_nearest near_first.
Proof. assert (forall l b, (fold_left near_step l b = b \/ In (fold_left near_step l b) l) /\ ext_le (fst (fold_left near_step l b)) (fst b) /\ forall y, In y l -> ext_le (fst (fold_left near_step l b)) (fst y)) as G.
  { induction l as [|z l IH]; intros b; cbn [fold_left]; [splits; auto; [apply ext_le_refl|intros y []]|]. destruct (IH (near_step b z)) as (H1 & H2 & H3).
    assert (ext_le (fst (near_step b z)) (fst b) /\ ext_le (fst (near_step b z)) (fst z) /\ (near_step b z = b \/ near_step b z = z)) as (K1 & K2 & K3).
    { unfold near_step. destruct (ext_ltb (fst z) (fst b)) eqn:E; splits; auto using ext_le_refl; destruct (fst z), (fst b); cbn in *; try discriminate; auto; [apply Z.ltb_lt in E; lia|apply Z.ltb_ge in E; lia]. }
    splits.
    - destruct H1 as [H1|H1]; [rewrite H1; destruct K3 as [->| ->]; [auto|right; left; reflexivity]|right; right; exact H1].
    - eapply ext_le_trans; eauto.
    - intros y [<-|Hy]; [eapply ext_le_trans; eauto|apply H3, Hy]. }
  intros l Hl. unfold near_first. destruct l as [|x l]; [congruence|]. destruct (G (x :: l) x) as (H1 & H2 & H3). cbn [hd]. split; [|exact H3]. destruct H1 as [->|H1]; [left; reflexivity|exact H1]. Qed.
(** checking a concrete shipment *)
Definition shipment_check (costs : graph nat unit Z) (capacity : option (graph nat unit ext)) (inv : dict nat Z) (h : graph nat unit Z) : bool :=
  (forallb (fun x : nat * nat * Z => (0 <=? snd x) && ext_leb (Fin (snd x)) (room costs capacity (fst (fst x)) (snd (fst x)))) (edges h) &&
   forallb (fun x => ((0 <=? net costs (amount h) x) && (net costs (amount h) x <=? stock_of inv x)) || ((stock_of inv x <=? net costs (amount h) x) && (net costs (amount h) x <=? 0))) (nodes costs))%Z.
Lemma shipment_checked costs capacity inv h : capacity_ok costs capacity -> reachable h -> shipment_check costs capacity inv h = true -> shipment costs capacity (stock_of inv) (amount h).
Proof. intros Hc R H. apply andb_true_iff in H. destruct H as [H1 H2]. rewrite forallb_forall in H1, H2. split.
  - intros x y. unfold amount. destruct (edge h x y) as [v|] eqn:E.
    + apply (In_edges h x y v (reachable_wf _ R)) in E. specialize (H1 _ E). cbn [fst snd] in H1. apply andb_true_iff in H1. destruct H1 as [K1 K2]. apply Z.leb_le in K1. split; [exact K1|].
      destruct (room costs capacity x y); [|exact Logic.I]. cbn in K2 |- *. apply Z.leb_le, K2.
    + split; [lia|]. unfold room. destruct (edge costs x y); [|cbn; lia]. destruct capacity as [c|]; [|exact Logic.I]. destruct (edge c x y) eqn:Ec; [|cbn; lia]. destruct Hc as (_ & _ & Hc). apply (Hc _ _ _ Ec).
  - intros x Hx. apply contains_In in Hx. specialize (H2 x Hx). apply orb_true_iff in H2. destruct H2 as [H2|H2]; apply andb_true_iff in H2; destruct H2 as [K1 K2]; apply Z.leb_le in K1, K2; auto. Qed.
Definition nonneg_checked (g : graph nat unit Z) : reachable g -> forallb (fun x => (0 <=? snd x)%Z) (edges g) = true -> nonneg g.
Proof. intros R H a b w E. rewrite forallb_forall in H. apply (In_edges g a b w (reachable_wf _ R)) in E. specialize (H _ E). apply Z.leb_le, H. Qed.
Definition capacity_checked (g : graph nat unit Z) (c : graph nat unit ext) : bool :=
  forallb (fun x => mem x (links c)) (links g) && forallb (fun x => mem x (links g)) (links c) && forallb (fun x => ext_leb (Fin 0) (snd x)) (edges c).
Lemma capacity_check g c : reachable g -> reachable c -> capacity_checked g c = true -> capacity_ok g (Some c).
Proof. intros R Rc H. apply andb_true_iff in H. destruct H as [H H3]. apply andb_true_iff in H. destruct H as [H1 H2]. rewrite forallb_forall in H1, H2, H3. pose proof (reachable_wf _ R) as W. pose proof (reachable_wf _ Rc) as Wc. cbn. splits; [exact Rc| |].
  - intros x y. split; intros K; [apply (In_links c x y Wc), H2, mem_In, (In_links g x y W) in K|apply (In_links g x y W), H1, mem_In, (In_links c x y Wc) in K]; exact K.
  - intros x y v Hv. apply (In_edges c x y v Wc) in Hv. specialize (H3 _ Hv). cbn in H3. destruct v; [apply Z.leb_le, H3|exact Logic.I]. Qed.
(** the inventory mentions only nodes of the graph, and no node twice *)
Definition inv_checked (g : graph nat unit Z) (inv : dict nat Z) : bool := forallb (fun x => contains g x) (dkeys inv).
Lemma inv_check g inv : inv_checked g inv = true -> forall x, stock_of inv x <> 0%Z -> contains g x = true.
Proof. intros H x Hx. unfold stock_of in Hx. destruct (dget x inv) as [v|] eqn:E; [|congruence]. unfold inv_checked in H. rewrite forallb_forall in H. apply H. apply dget_Some_key in E. exact E. Qed.
Lemma same_demand g inv (h k : nat -> nat -> Z) : forallb (fun x => (0 <=? stock_of inv x) || (net g h x =? net g k x))%Z (dkeys inv) = true ->
  forall x, (stock_of inv x < 0)%Z -> net (O := unit) g h x = net g k x.
Proof. intros H x Hx. rewrite forallb_forall in H. assert (In x (dkeys inv)) as Hi by (unfold stock_of in Hx; destruct (dget x inv) eqn:E; [apply dget_Some_key in E; exact E|lia]).
  specialize (H x Hi). apply orb_true_iff in H. destruct H as [H|H]; [apply Z.leb_le in H; lia|apply Z.eqb_eq, H]. Qed.
Lemma mcf_runs costs inv capacity n r : reachable costs -> nonneg costs -> NoDup (dkeys inv) -> (forall x, stock_of inv x <> 0%Z -> contains costs x = true) -> capacity_ok costs capacity ->
  minimum_cost_flow_of (O := unit) IsGraph sort_zn near_first n costs inv capacity = r -> r <> OutOfFuel -> returns (fun n => minimum_cost_flow sort_zn near_first n costs inv capacity) r.
Proof. intros H1 H2 H3 H4 H5 E Hr. destruct (C45_feasible IsGraph sort_zn near_first costs inv capacity sort_zn_ok near_first_ok H1 H2 H3 H4 H5) as (r' & Hr' & _).
  assert (r' = r) as <- by (rewrite <- E; symmetry; apply (returns_of _ _ n Hr'); rewrite E; exact Hr). exact Hr'. Qed.

(** two supplies (1, 2) and two demands (11, 12) *)
Definition ops_m1 : list (op nat unit Z) := [OpAddEdge 1 11 1%Z false; OpAddEdge 2 11 2%Z false; OpAddEdge 1 12 2%Z false; OpAddEdge 2 12 100%Z false].
Definition g_m1 : graph nat unit Z := ok_or empty_graph (run ops_m1).
Definition inv_m1 : dict nat Z := [(1, 1%Z); (2, 1%Z); (11, (-1)%Z); (12, (-1)%Z)].
Definition alt_m1_ops : list (op nat unit Z) := [OpAddEdge 2 11 1%Z false; OpAddEdge 1 12 1%Z false].
Definition alt_m1 : graph nat unit Z := ok_or empty_graph (run alt_m1_ops).
Lemma m1_ok : reachable g_m1 /\ nonneg g_m1 /\ NoDup (dkeys inv_m1) /\ (forall x, stock_of inv_m1 x <> 0%Z -> contains g_m1 x = true) /\ reachable alt_m1.
Proof. assert (reachable g_m1) as R by (exists ops_m1; vm_compute; reflexivity). splits; auto.
  - apply nonneg_checked; [exact R|vm_compute; reflexivity].
  - cbn. repeat constructor; cbn; intuition lia.
  - apply inv_check. vm_compute. reflexivity.
  - exists alt_m1_ops. vm_compute. reflexivity. Qed.
Example C45_example : exists c fg, returns (fun n => minimum_cost_flow sort_zn near_first n g_m1 inv_m1 None) (Ok (c, fg)) /\ c = 101%Z /\ amount fg 1 11 = 1%Z /\ amount fg 2 12 = 1%Z.
Proof. destruct m1_ok as (R & N & D & C & _). eexists _, _. split; [apply (mcf_runs g_m1 inv_m1 None 50 _ R N D C Logic.I); [vm_compute; reflexivity|discriminate]|]. vm_compute. auto. Qed.
Example C77_example : forall s t, (0 < stock_of inv_m1 s)%Z -> (stock_of inv_m1 t < 0)%Z -> reach (has_edge g_m1) s t.
Proof. intros s t Hs Ht. assert (In s (dkeys inv_m1)) as Is by (unfold stock_of in Hs; destruct (dget s inv_m1) eqn:E; [apply dget_Some_key in E; exact E|lia]).
  assert (In t (dkeys inv_m1)) as It by (unfold stock_of in Ht; destruct (dget t inv_m1) eqn:E; [apply dget_Some_key in E; exact E|lia]).
  cbn in Is, It. destruct Is as [<-|[<-|[<-|[<-|[]]]]]; try (vm_compute in Hs; discriminate); destruct It as [<-|[<-|[<-|[<-|[]]]]]; try (vm_compute in Ht; discriminate);
  (match goal with |- reach _ ?a ?b => exists [a; b]; apply (path_cons _ a b [b] b); [eexists; vm_compute; reflexivity|apply path_one] end). Qed.
(** the greedy choice of the nearest supply is not minimal: 101 instead of 4 *)
Theorem C46_not_minimal_refuted : exists (srt : list (Z * nat) -> list (Z * nat)) (near : list (ext * (Z * nat)) -> ext * (Z * nat)) (costs : graph nat unit Z) inventory c fg f,
  sorts_by_stock srt /\ picks_nearest near /\ reachable costs /\ nonneg costs /\ NoDup (dkeys inventory) /\ (forall x, stock_of inventory x <> 0%Z -> contains costs x = true) /\
  returns (fun n => minimum_cost_flow srt near n costs inventory None) (Ok (c, fg)) /\
  shipment costs None (stock_of inventory) f /\ (forall x, (stock_of inventory x < 0)%Z -> net costs f x = net costs (amount fg) x) /\ (cost_of costs f < c)%Z.
Proof. destruct m1_ok as (R & N & D & C & Ra). exists sort_zn, near_first, g_m1, inv_m1. set (r := ok_or (0%Z, empty_graph) (minimum_cost_flow sort_zn near_first 50 g_m1 inv_m1 None)). exists (fst r), (snd r), (amount alt_m1). splits; auto using sort_zn_ok, near_first_ok.
  - apply (mcf_runs g_m1 inv_m1 None 50 _ R N D C Logic.I); [vm_compute; reflexivity|discriminate].
  - apply shipment_checked; [exact Logic.I|exact Ra|vm_compute; reflexivity].
  - apply same_demand. vm_compute. reflexivity.
  - vm_compute. reflexivity. Qed.

(** one supply, one demand, capacities: 1003 instead of 22 *)
Definition ops_m2 : list (op nat unit Z) := [OpAddEdge 1 2 1%Z false; OpAddEdge 1 3 10%Z false; OpAddEdge 2 3 1%Z false; OpAddEdge 2 4 10%Z false; OpAddEdge 3 4 1%Z false; OpAddEdge 1 4 1000%Z false].
Definition g_m2 : graph nat unit Z := ok_or empty_graph (run ops_m2).
Definition cap_m2_ops : list (op nat unit ext) := [OpAddEdge 1 2 (Fin 1) false; OpAddEdge 1 3 (Fin 1) false; OpAddEdge 2 3 (Fin 1) false; OpAddEdge 2 4 (Fin 1) false; OpAddEdge 3 4 (Fin 1) false; OpAddEdge 1 4 Inf false].
Definition cap_m2 : graph nat unit ext := ok_or empty_graph (run cap_m2_ops).
Definition inv_m2 : dict nat Z := [(1, 2%Z); (4, (-2)%Z)].
Definition alt_m2_ops : list (op nat unit Z) := [OpAddEdge 1 2 1%Z false; OpAddEdge 2 4 1%Z false; OpAddEdge 1 3 1%Z false; OpAddEdge 3 4 1%Z false].
Definition alt_m2 : graph nat unit Z := ok_or empty_graph (run alt_m2_ops).
Lemma m2_ok : reachable g_m2 /\ nonneg g_m2 /\ NoDup (dkeys inv_m2) /\ (forall x, stock_of inv_m2 x <> 0%Z -> contains g_m2 x = true) /\ capacity_ok g_m2 (Some cap_m2) /\ reachable alt_m2.
Proof. assert (reachable g_m2) as R by (exists ops_m2; vm_compute; reflexivity). splits; auto.
  - apply nonneg_checked; [exact R|vm_compute; reflexivity].
  - cbn. repeat constructor; cbn; intuition lia.
  - apply inv_check. vm_compute. reflexivity.
  - apply capacity_check; [exact R|exists cap_m2_ops; vm_compute; reflexivity|vm_compute; reflexivity].
  - exists alt_m2_ops. vm_compute. reflexivity. Qed.
Theorem C46_capacity_refuted : exists (srt : list (Z * nat) -> list (Z * nat)) (near : list (ext * (Z * nat)) -> ext * (Z * nat)) (costs : graph nat unit Z) inventory capacity s t c fg f,
  sorts_by_stock srt /\ picks_nearest near /\ reachable costs /\ nonneg costs /\ NoDup (dkeys inventory) /\ (forall x, stock_of inventory x <> 0%Z -> contains costs x = true) /\ capacity_ok costs capacity /\
  (forall x, stock_of inventory x <> 0%Z -> x = s \/ x = t) /\
  returns (fun n => minimum_cost_flow srt near n costs inventory capacity) (Ok (c, fg)) /\
  shipment costs capacity (stock_of inventory) f /\ (forall x, (stock_of inventory x < 0)%Z -> net costs f x = net costs (amount fg) x) /\ (cost_of costs f < c)%Z.
Proof. destruct m2_ok as (R & N & D & C & K & Ra). exists sort_zn, near_first, g_m2, inv_m2, (Some cap_m2), 1, 4. set (r := ok_or (0%Z, empty_graph) (minimum_cost_flow sort_zn near_first 50 g_m2 inv_m2 (Some cap_m2))). exists (fst r), (snd r), (amount alt_m2). splits; auto using sort_zn_ok, near_first_ok.
  - intros x Hx. unfold stock_of in Hx. destruct (dget x inv_m2) eqn:E; [|congruence]. apply dget_Some_key in E. cbn in E. intuition lia.
  - apply (mcf_runs g_m2 inv_m2 (Some cap_m2) 50 _ R N D C K); [vm_compute; reflexivity|discriminate].
  - apply shipment_checked; [exact K|exact Ra|vm_compute; reflexivity].
  - apply same_demand. vm_compute. reflexivity.
  - vm_compute. reflexivity. Qed.

(** a demand that can be met, but the function raises: no capacities, supplies 1 and 2, demands 11 and 12 where only 2 reaches 12 *)
Definition ops_m3 : list (op nat unit Z) := [OpAddEdge 1 11 5%Z false; OpAddEdge 2 11 1%Z false; OpAddEdge 2 12 1%Z false].
Definition g_m3 : graph nat unit Z := ok_or empty_graph (run ops_m3).
Definition alt_m3_ops : list (op nat unit Z) := [OpAddEdge 1 11 1%Z false; OpAddEdge 2 12 1%Z false].
Definition alt_m3 : graph nat unit Z := ok_or empty_graph (run alt_m3_ops).
Lemma m3_ok : reachable g_m3 /\ nonneg g_m3 /\ (forall x, stock_of inv_m1 x <> 0%Z -> contains g_m3 x = true) /\ reachable alt_m3.
Proof. assert (reachable g_m3) as R by (exists ops_m3; vm_compute; reflexivity). splits; auto.
  - apply nonneg_checked; [exact R|vm_compute; reflexivity].
  - apply inv_check. vm_compute. reflexivity.
  - exists alt_m3_ops. vm_compute. reflexivity. Qed.
Theorem C77_raises_refuted : exists (srt : list (Z * nat) -> list (Z * nat)) (near : list (ext * (Z * nat)) -> ext * (Z * nat)) (costs : graph nat unit Z) inventory f,
  sorts_by_stock srt /\ picks_nearest near /\ reachable costs /\ nonneg costs /\ NoDup (dkeys inventory) /\ (forall x, stock_of inventory x <> 0%Z -> contains costs x = true) /\
  returns (fun n => minimum_cost_flow srt near n costs inventory None) (Err BadLogic) /\
  shipment costs None (stock_of inventory) f /\ (forall x, (stock_of inventory x < 0)%Z -> net costs f x = stock_of inventory x).
Proof. destruct m3_ok as (R & N & C & Ra). exists sort_zn, near_first, g_m3, inv_m1. exists (amount alt_m3). assert (NoDup (dkeys inv_m1)) as D by apply m1_ok. splits; auto using sort_zn_ok, near_first_ok.
  - apply (mcf_runs g_m3 inv_m1 None 50 _ R N D C Logic.I); [vm_compute; reflexivity|discriminate].
  - apply shipment_checked; [exact Logic.I|exact Ra|vm_compute; reflexivity].
  - intros x Hx. unfold stock_of in Hx. destruct (dget x inv_m1) eqn:E; [|lia]. apply dget_Some_key in E. cbn in E. destruct E as [<-|[<-|[<-|[<-|[]]]]]; vm_compute; reflexivity. Qed.
(** one supply: the premises of C46_one_supply_partial and C46_one_demand_partial *)
Definition inv_m4 : dict nat Z := [(1, 3%Z); (11, (-1)%Z); (12, (-1)%Z)].
Example C46_one_supply_example : exists c fg, returns (fun n => minimum_cost_flow sort_zn near_first n g_m1 inv_m4 None) (Ok (c, fg)) /\ c = 3%Z /\ (0 < stock_of inv_m4 1%nat)%Z /\ forall x, (0 < stock_of inv_m4 x)%Z -> x = 1%nat.
Proof. destruct m1_ok as (R & N & _ & _ & _). eexists _, _. splits; [apply (mcf_runs g_m1 inv_m4 None 50 _ R N); [cbn; repeat constructor; cbn; intuition lia|apply inv_check; vm_compute; reflexivity|exact Logic.I|vm_compute; reflexivity|discriminate]|reflexivity|reflexivity|].
  intros x Hx. unfold stock_of in Hx. destruct (dget x inv_m4) eqn:E; [|lia]. pose proof E as E'. apply dget_Some_key in E'. cbn in E'. destruct E' as [<-|[<-|[<-|[]]]]; [reflexivity| |]; vm_compute in E; injection E as <-; lia. Qed.
Definition inv_m5 : dict nat Z := [(1, 1%Z); (2, 3%Z); (12, (-2)%Z)].
Example C46_one_demand_example : exists c fg, returns (fun n => minimum_cost_flow sort_zn near_first n g_m1 inv_m5 None) (Ok (c, fg)) /\ c = 102%Z /\ (stock_of inv_m5 12%nat < 0)%Z /\ forall x, (stock_of inv_m5 x < 0)%Z -> x = 12%nat.
Proof. destruct m1_ok as (R & N & _ & _ & _). eexists _, _. splits; [apply (mcf_runs g_m1 inv_m5 None 50 _ R N); [cbn; repeat constructor; cbn; intuition lia|apply inv_check; vm_compute; reflexivity|exact Logic.I|vm_compute; reflexivity|discriminate]|reflexivity|reflexivity|].
  intros x Hx. unfold stock_of in Hx. destruct (dget x inv_m5) eqn:E; [|lia]. pose proof E as E'. apply dget_Some_key in E'. cbn in E'. destruct E' as [<-|[<-|[<-|[]]]]; [| |reflexivity]; vm_compute in E; injection E as <-; lia. Qed.
Example C45_capacity_example : capacity_ok g_m2 (Some cap_m2) /\ exists c fg, returns (fun n => minimum_cost_flow sort_zn near_first n g_m2 inv_m2 (Some cap_m2)) (Ok (c, fg)) /\ c = 1003%Z.
Proof. destruct m2_ok as (R & N & D & C & K & _). split; [exact K|]. eexists _, _. split; [apply (mcf_runs g_m2 inv_m2 (Some cap_m2) 50 _ R N D C K); [vm_compute; reflexivity|discriminate]|reflexivity]. Qed.
