(** minimum_cost_flow on floats: the whole function. *)
From Coq Require Import ZArith SpecFloat Sorted.
From Verif Require Import Prelude PreludeFacts Base BaseFacts BaseFacts2 BaseFacts3 Spec SpecFacts Loop SearchFacts
  BaseAlgFacts Sp SpFacts Fw FwFacts PropsFw FlowSpec Flow FlowFacts MaxFlowFacts FlowFacts2 HashFacts RandomFacts AssignFacts McfSpec Mcf McfFacts McfFacts2
  GSp Float64 FloatExact FloatSigned FloatStep GCpmSpec CpmFloat PropsFloat GFlow GFlowSpec FlowFloat FlowFloat2 GMcf GMcfSpec McfFloat McfFloat2 McfFloat3.
Local Open Scope Z_scope.

Lemma fin_eq0 w : finite_number w -> SFeqb w f0 = true <-> units w = 0.
Proof. intros [V (z & E)]. destruct w as [b|b| |b m k]; cbn [sval] in E; try discriminate; cbn [SFeqb SFcompare].
  - split; reflexivity.
  - split; [destruct b; discriminate|]. unfold units. cbn [sval]. intros C. exfalso. assert (0 < 2 ^ (k - SpecFloat.emin 53 1024)) as P.
    { apply Z.pow_pos_nonneg; [lia|]. unfold valid_binary, bounded, canonical_mantissa in V. apply andb_true_iff in V. destruct V as [V _]. apply Zeq_bool_eq in V. unfold fexp in V. lia. }
    set (P0 := 2 ^ (k - SpecFloat.emin 53 1024)) in *. clearbody P0. destruct b; cbn [cond_Zopp] in C; nia. Qed.
Lemma good_not_neg c : f64_good c -> SFltb c f0 = false.
Proof. intros G. destruct (good_cases c G) as [F| ->]; [|reflexivity]. destruct zero_fa as [Z1 Z2]. rewrite fin_lt by (auto using fa_fin). rewrite Z2. apply Z.ltb_ge. apply fa_facts, F. Qed.

Section M.
Context {A O : Type} {EA : EqDec A}.
Notation graph := (graph A O Z).
Notation amounts := (Base.graph A O spec_float).
Implicit Types (costs : graph) (flows : amounts) (capacity : option amounts) (inventory : dict A spec_float).
Lemma gmcf_total_spec (times : spec_float -> Z -> spec_float) (sumf : list spec_float -> spec_float) costs flows : wf flows -> (forall x y v, edge flows x y = Some v -> has_edge costs x y) ->
  gmcf_total times sumf costs flows = Ok (sumf (map (fun x => times (snd x) (amount costs (fst (fst x)) (snd (fst x)))) (edges flows))).
Proof. intros W H. unfold gmcf_total.
  assert (forall l t, (forall x y v, In (x, y, v) l -> has_edge costs x y) ->
    foldM (fun t (x : A * A * spec_float) => let '(s, e, d) := x in match edge costs s e with Some c => Ok (t ++ [times d c]) | None => Err TypeError end) l t =
    Ok (t ++ map (fun x => times (snd x) (amount costs (fst (fst x)) (snd (fst x)))) l)) as G.
  { induction l as [|[[x y] v] l IH]; intros t Hl; [cbn; rewrite app_nil_r; reflexivity|]. cbn [foldM map fst snd]. destruct (Hl x y v) as (c & Hc); [cbn; auto|]. unfold amount at 1. rewrite Hc. cbn [bind].
    rewrite IH by (intros a b w Hi; apply (Hl a b w); cbn; auto). rewrite <- app_assoc. reflexivity. }
  rewrite G; [reflexivity|]. intros x y v Hi. apply (In_edges flows x y v W) in Hi. eapply H, Hi. Qed.
Lemma gmcf_capacity_spec costs capacity : wf costs -> fcapacity_ok costs capacity -> exists capg, gmcf_capacity f64 costs capacity = Ok capg /\
  (forall x y, has_edge capg x y <-> has_edge costs x y) /\ (forall x y c, edge capg x y = Some c -> f64_good c) /\ (forall x y c, edge capg x y = Some c -> fcap capacity x y = Some c).
Proof. intros W. destruct capacity as [c|]; cbn [fcapacity_ok gmcf_capacity fcap].
  - intros (Rc & H1 & H2). pose proof (reachable_wf _ Rc) as Wc. exists c.
    assert (existsb (fun x : A * A * spec_float => a_ltb f64 (snd x) (a_zero f64)) (edges c) = false) as ->.
    { apply not_true_iff_false. intros C. apply existsb_exists in C. destruct C as ([[x y] v] & Hi & Hlt). cbn [snd] in Hlt. apply (In_edges c x y v Wc) in Hi. apply H2 in Hi. pose proof (good_not_neg v Hi) as K. change (SFltb v f0 = true) in Hlt. congruence. }
    assert (forallb (fun x => mem x (links c)) (links costs) = true) as ->.
    { apply forallb_forall. intros [x y] Hi. apply mem_In, (In_links c x y Wc), H1, (In_links costs x y W), Hi. }
    assert (forallb (fun x => mem x (links costs)) (links c) = true) as ->.
    { apply forallb_forall. intros [x y] Hi. apply mem_In, (In_links costs x y W), H1, (In_links c x y Wc), Hi. }
    splits; auto.
  - intros _. set (l := map (fun x : A * A * Z => (fst x, S754_infinity false)) (edges costs)).
    assert (NoDup (map ekey l)) as Hnd by (unfold l; rewrite map_map; apply (NoDup_edges costs W)).
    destruct (add_edges_spec (O := O) l empty_graph wf_empty Hnd) as (capg & E & Wg & _ & G1 & G2 & _ & _). exists capg.
    assert (forall x y, edge capg x y = match edge costs x y with Some _ => Some (S754_infinity false) | None => None end) as HE.
    { intros x y. destruct (edge costs x y) as [w|] eqn:Ew.
      - apply G1. unfold l. apply in_map_iff. exists (x, y, w). split; [reflexivity|]. apply (In_edges costs x y w W), Ew.
      - rewrite G2; [reflexivity|]. unfold l. rewrite map_map. intros C. apply in_map_iff in C. destruct C as ([[a b] w] & Eq & Hi). cbn in Eq. inv Eq. apply (In_edges costs x y w W) in Hi. congruence. }
    splits.
    + rewrite <- E, <- from_list_edges. unfold l. rewrite map_map. reflexivity.
    + intros x y. unfold has_edge. rewrite HE. destruct (edge costs x y); split; intros (? & ?); try discriminate; eauto.
    + intros x y c. rewrite HE. destruct (edge costs x y); [|discriminate]. intros K. inv K. split; reflexivity.
    + intros x y c. rewrite HE. destruct (edge costs x y); [auto|discriminate]. Qed.

Definition stock_in inventory (x : A) : spec_float := match dget x inventory with Some v => v | None => f0 end.
Lemma stock_in_units inventory x : units (stock_in inventory x) = exact_stock inventory x.
Proof. unfold stock_in, exact_stock. destruct (dget x inventory); [reflexivity|]. apply zero_fa. Qed.

Context (srt : list (spec_float * A) -> list (spec_float * A)) (near : list (ext * (spec_float * A)) -> ext * (spec_float * A)).
Context (times : spec_float -> Z -> spec_float) (sumf : list spec_float -> spec_float) (cl : gclass).
Hypothesis Hsrt : sorts_by_float srt.
Hypothesis Hnear : picks_least near.
Lemma gmcf_of_spec costs inventory capacity : reachable costs -> nonneg costs -> NoDup (dkeys inventory) -> (forall x v, In (x, v) inventory -> a_stock v) ->
  (forall x, exact_stock inventory x <> 0 -> contains costs x = true) -> fcapacity_ok costs capacity ->
  exists r capg k lv F C X, returns (fun n => gminimum_cost_flow_of f64 fsub SFabs times sumf cl srt near n costs inventory capacity) r /\
    (forall x y, has_edge capg x y <-> has_edge costs x y) /\ (forall x y c, edge capg x y = Some c -> f64_good c /\ fcap capacity x y = Some c) /\
    num_inv costs capg (stock_in inventory) (Z.of_nat k) lv F C X /\ (k <= length (edges costs) + length inventory)%nat /\
    match r with
    | Ok (c, flows) => reachable flows /\ (forall x y, edge flows x y = F x y) /\ all_done inventory (fun x => units (lv x)) /\
        c = sumf (map (fun x => times (snd x) (amount costs (fst (fst x)) (snd (fst x)))) (edges flows))
    | Err e => e = BadLogic /\ exists t, units (lv t) < 0 /\ (exists s, 0 < units (lv s)) /\ forall s, 0 < units (lv s) -> ~ reach (fun x y => gpedge costs C x y <> None) s t
    | OutOfFuel => False
    end.
Proof. intros HR Hnn Hnd Hst Hin Hcap. pose proof (reachable_wf _ HR) as W. set (stock := stock_in inventory) in *.
  destruct (gmcf_capacity_spec costs capacity W Hcap) as (capg & Ecap & Hlinks & Hc0 & HcE).
  destruct (reachable_copy_of cl costs W) as (paths & Ecopy & Rp & Np & Ep). destruct zero_fa as [Z1 Z2].
  assert (forall x, a_stock (stock x)) as Hstock.
  { intros x. unfold stock, stock_in. destruct (dget x inventory) as [v|] eqn:E; [apply dget_In in E; eapply Hst, E|]. split; [apply fa_fin, Z1|]. rewrite Z2. apply Z.pow_nonneg. lia. }
  assert (forall x, units (stock x) <> 0 -> In x (nodes costs)) as Hin'.
  { intros x Hx. apply contains_In, Hin. rewrite <- stock_in_units. exact Hx. }
  set (pre := map (fun p => (snd p, fst p)) (filter (fun p : A * spec_float => negb (a_eqb f64 (snd p) (a_zero f64))) inventory)).
  set (bal := srt pre).
  assert (forall v x, In (v, x) pre <-> units v <> 0 /\ v = stock x) as Hbi.
  { intros v x. unfold pre. rewrite in_map_iff. split.
    - intros ([k u] & E & Hi). cbn in E. inv E. apply filter_In in Hi. destruct Hi as [Hi Hu]. cbn [snd] in Hu. apply negb_true_iff in Hu. change (SFeqb v f0 = false) in Hu. split.
      + intros C. apply (fin_eq0 v (proj1 (Hst _ _ Hi))) in C. congruence.
      + unfold stock, stock_in. rewrite (In_dget x v inventory Hnd Hi). reflexivity.
    - intros [Hv ->]. exists (x, stock x). split; [reflexivity|]. apply filter_In. split.
      + unfold stock, stock_in in *. destruct (dget x inventory) as [u|] eqn:E; [apply dget_In, E|congruence].
      + cbn [snd]. apply negb_true_iff, not_true_iff_false. intros C. apply Hv. apply (fin_eq0 _ (proj1 (Hstock x))). exact C. }
  assert (Permutation bal pre /\ StronglySorted (fun x y => SFltb (fst y) (fst x) = false) bal) as [P1 P2].
  { apply Hsrt. intros [v x] Hv. apply Hbi in Hv. destruct Hv as [_ ->]. apply Hstock. }
  assert (fbal stock bal) as HB.
  { hnf. splits; [exact P2| |].
    - apply (Permutation_NoDup (Permutation_sym P1)). apply (NoDup_map_inv snd). unfold pre. rewrite map_map. cbn [snd].
      revert Hnd. generalize inventory as l. induction l as [|[k v] l IH]; intros Hl; [constructor|]. cbn [dkeys map fst] in Hl. apply NoDup_cons_iff in Hl. destruct Hl as [K1 K2]. cbn [filter]. destruct (negb _); [|apply IH, K2].
      cbn [map fst]. constructor; [|apply IH, K2]. intros C. apply K1. apply in_map_iff in C. destruct C as (z & Ez & Hz). apply filter_In in Hz. apply in_map_iff. exists z. tauto.
    - intros v x. transitivity (In (v, x) pre); [split; apply Permutation_in; [exact P1|symmetry; exact P1]|apply Hbi]. }
  assert (fmu costs (bal, (@empty_graph A O spec_float, @empty_graph A O spec_float, paths, all_pairs_shortest_paths paths)) <= length (edges costs) + length inventory)%nat as Hmu.
  { unfold fmu. cbn [fst snd]. apply Nat.add_le_mono.
    - unfold fedges. rewrite <- (map_length (@ekey A Z) (edges costs)). apply NoDup_incl_length; [apply NoDup_filter, NoDup_list_prod; apply W|].
      intros [x y] Hi. apply filter_In in Hi. destruct Hi as [_ Hi]. cbn [fst snd] in Hi. rewrite Ep in Hi. destruct (edge costs x y) as [w|] eqn:E; [|discriminate]. apply in_map_iff. exists (x, y, w). split; [reflexivity|]. apply (In_edges costs x y w W), E.
    - rewrite (Permutation_length P1). unfold pre. rewrite map_length. generalize inventory as l. induction l as [|z l IH]; cbn [filter length]; [lia|]. destruct (negb _); cbn [length]; lia. }
  destruct (floop srt near Hsrt Hnear costs capg stock HR Hnn Hlinks Hc0 Hstock Hin' (length (edges costs) + length inventory)%nat bal (@empty_graph A O spec_float, @empty_graph A O spec_float, paths, all_pairs_shortest_paths paths)) as (r & Hr & Hpost).
  { exists 0%nat, stock, (fun _ _ => None), (fun _ _ => None), (fun _ _ => 0). splits; [|apply num_init; auto|exact HB|exact Hmu]. hnf. splits; auto using reachable_empty. }
  apply returns2_diag in Hr.
  assert (forallb (fun x : A * A * Z => 0 <=? snd x) (edges costs) = true) as Hfb.
  { apply forallb_forall. intros [[x y] v] Hi. apply (In_edges costs x y v W) in Hi. cbn. apply Z.leb_le, (Hnn _ _ _ Hi). }
  assert (forall n, gminimum_cost_flow_of f64 fsub SFabs times sumf cl srt near n costs inventory capacity = (flows <- loop n (gmcf_step f64 fsub SFabs srt near n capg) (bal, (empty_graph, empty_graph, paths, all_pairs_shortest_paths paths)) ;; total <- gmcf_total times sumf costs flows ;; Ok (total, flows))) as Eq.
  { intros n. unfold gminimum_cost_flow_of. rewrite Hfb. cbn [negb]. rewrite Ecap. cbn [bind]. rewrite Ecopy. reflexivity. }
  destruct Hpost as (k & lv & F & C & X & HI & Hk & Hpost). destruct r as [flows|e|]; [| |destruct Hpost].
  - destruct Hpost as (Rf & EF & HD). set (c := sumf (map (fun x => times (snd x) (amount costs (fst (fst x)) (snd (fst x)))) (edges flows))).
    exists (Ok (c, flows)), capg, k, lv, F, C, X. splits; auto.
    + eapply returns_ext; [intros n; symmetry; apply Eq|]. refine (returns_bind _ (fun _ flows => _) flows _ Hr _).
      rewrite (gmcf_total_spec times sumf costs flows (reachable_wf _ Rf)); [apply returns_const; discriminate|]. intros x y v. rewrite EF. intros K. destruct HI as (_ & _ & _ & _ & I4 & _). apply (I4 x y). congruence.
    + intros x y c' K. split; [eapply Hc0, K|apply HcE, K].
    + unfold all_done. destruct HD as [HD|HD]; [left|right]; intros x Hx; apply HD; unfold stock; rewrite stock_in_units; exact Hx.
  - destruct Hpost as [-> Hpost]. exists (Err BadLogic), capg, k, lv, F, C, X. splits; auto.
    + eapply returns_ext; [intros n; symmetry; apply Eq|]. apply (returns_bind_err _ _ _ Hr).
    + intros x y c' K. split; [eapply Hc0, K|apply HcE, K]. Qed.
End M.
