(** Facts about minimum_cost_flow: the whole function. *)
From Coq Require Import Sorted.
From Verif Require Import Prelude PreludeFacts Base BaseFacts BaseFacts2 BaseFacts3 Spec SpecFacts Loop SearchFacts
  BaseAlgFacts Sp SpFacts Fw FwFacts PropsFw FlowSpec Flow FlowFacts MaxFlowFacts FlowFacts2 HashFacts RandomFacts AssignFacts McfSpec Mcf McfFacts.
Local Open Scope Z_scope.

Lemma sumZ_incl {X} {EX : EqDec X} (f : X -> Z) m : forall l, NoDup l -> NoDup m -> incl l m -> (forall x, In x m -> ~ In x l -> f x = 0) -> sumZ m f = sumZ l f.
Proof. induction m as [|x m IH]; intros l Hl Hm Hi H0.
  - destruct l as [|y l]; [reflexivity|]. destruct (Hi y); cbn; auto.
  - apply NoDup_cons_iff in Hm. destruct Hm as [Hx Hm]. cbn [sumZ]. destruct (mem_spec x l) as [h|h].
    + rewrite (sumZ_perm l (x :: lremove x l) f (lremove_perm x l h)). cbn [sumZ]. f_equal. apply IH; [apply NoDup_lremove, Hl|exact Hm| |].
      * intros y Hy. apply In_lremove_NoDup in Hy; [|exact Hl]. destruct Hy as [Hy Hn]. destruct (Hi y Hy) as [<-|K]; [congruence|exact K].
      * intros y Hy Hny. apply H0; [cbn; auto|]. intros C. apply Hny. apply In_lremove_NoDup; [exact Hl|]. split; [exact C|]. intros ->. contradiction.
    + rewrite (H0 x), Z.add_0_l by (cbn; auto). apply IH; auto.
      * intros y Hy. destruct (Hi y Hy) as [<-|K]; [contradiction|exact K].
      * intros y Hy Hny. apply H0; cbn; auto. Qed.
Lemma sumZ_list_prod {X Y} (f : X * Y -> Z) l m : sumZ (list_prod l m) f = sumZ l (fun x => sumZ m (fun y => f (x, y))).
Proof. induction l as [|x l IH]; cbn [list_prod sumZ]; [reflexivity|]. rewrite sumZ_app, IH, sumZ_map. reflexivity. Qed.

Section M.
Context {A O : Type} {EA : EqDec A}.
Notation graph := (graph A O Z).
Notation capgraph := (Base.graph A O ext).
Implicit Types (costs flows : graph) (capacity : option capgraph) (inventory : dict A Z).

Lemma mcf_total_spec costs flows : wf costs -> wf flows -> (forall x y v, edge flows x y = Some v -> has_edge costs x y) ->
  mcf_total costs flows = Ok (cost_of costs (amount flows)).
Proof. intros W1 W2 H. unfold mcf_total.
  assert (forall l t, (forall x y v, In (x, y, v) l -> has_edge costs x y) ->
    foldM (fun t (x : A * A * Z) => let '(s, e, d) := x in match edge costs s e with Some c => Ok (t + d * c) | None => Err TypeError end) l t =
    Ok (t + sumZ l (fun x => snd x * amount costs (fst (fst x)) (snd (fst x))))) as G.
  { induction l as [|[[x y] v] l IH]; intros t Hl; [cbn; rewrite Z.add_0_r; reflexivity|]. cbn [foldM sumZ fst snd]. destruct (Hl x y v) as (c & Hc); [cbn; auto|]. unfold amount at 1. rewrite Hc. cbn [bind].
    rewrite IH by (intros a b w Hi; apply (Hl a b w); cbn; auto). f_equal. lia. }
  rewrite G by (intros x y v Hi; apply (In_edges flows x y v W2) in Hi; eapply H, Hi). f_equal. rewrite Z.add_0_l. unfold cost_of.
  rewrite <- (sumZ_list_prod (fun xy => amount flows (fst xy) (snd xy) * amount costs (fst xy) (snd xy)) (nodes costs) (nodes costs)).
  rewrite (sumZ_ext (edges flows) _ (fun x => amount flows (fst (ekey x)) (snd (ekey x)) * amount costs (fst (ekey x)) (snd (ekey x)))).
  - rewrite <- (sumZ_map (@ekey A Z) (edges flows) (fun xy => amount flows (fst xy) (snd xy) * amount costs (fst xy) (snd xy))). symmetry. apply sumZ_incl.
    + apply NoDup_edges, W2.
    + apply NoDup_list_prod; apply W1.
    + intros [x y] Hi. apply in_map_iff in Hi. destruct Hi as ([[a b] v] & E & Hi). cbn in E. inv E. apply (In_edges flows x y v W2) in Hi. apply H in Hi.
      destruct (has_edge_nodes costs x y W1 Hi). apply in_prod; assumption.
    + intros [x y] _ Hn. cbn [fst snd]. unfold amount at 1. destruct (edge flows x y) as [v|] eqn:Ev; [|lia]. exfalso. apply Hn. apply in_map_iff. exists (x, y, v). split; [reflexivity|]. apply (In_edges flows x y v W2), Ev.
  - intros [[x y] v] Hi. apply (In_edges flows x y v W2) in Hi. unfold ekey, amount at 2. cbn [fst snd]. rewrite Hi. reflexivity. Qed.

Definition mcf_capacity costs capacity : res capgraph :=
  match capacity with
  | None => from_list empty_graph (map (fun x => LEdge (fst (fst x)) (snd (fst x)) Inf) (edges costs))
  | Some c =>
      if existsb (fun x => ext_ltb (snd x) (Fin 0)) (edges c) then Err ValueError else
      if forallb (fun x => mem x (links c)) (links costs) && forallb (fun x => mem x (links costs)) (links c)
      then Ok c else Err ValueError
  end.
Lemma In_links {V} (g : Base.graph A O V) x y : wf g -> In (x, y) (links g) <-> has_edge g x y.
Proof. intros W. unfold links. rewrite in_map_iff. split.
  - intros ([[a b] v] & E & Hi). cbn in E. inv E. apply (In_edges g x y v W) in Hi. exists v. exact Hi.
  - intros (v & Hv). exists (x, y, v). split; [reflexivity|]. apply (In_edges g x y v W), Hv. Qed.
Lemma mcf_capacity_spec costs capacity : wf costs -> capacity_ok costs capacity -> exists capg, mcf_capacity costs capacity = Ok capg /\
  (forall x y, has_edge capg x y <-> has_edge costs x y) /\ (forall x y c, edge capg x y = Some c -> ext_le (Fin 0) c) /\ (forall x y, capE capg x y = room costs capacity x y).
Proof. intros W. destruct capacity as [c|]; cbn [capacity_ok mcf_capacity].
  - intros (Rc & H1 & H2). pose proof (reachable_wf _ Rc) as Wc. exists c.
    assert (existsb (fun x : A * A * ext => ext_ltb (snd x) (Fin 0)) (edges c) = false) as ->.
    { apply not_true_iff_false. intros C. apply existsb_exists in C. destruct C as ([[x y] v] & Hi & Hlt). cbn [snd] in Hlt. apply (In_edges c x y v Wc) in Hi. apply H2 in Hi. destruct v as [z|]; cbn in *; [apply Z.ltb_lt in Hlt; lia|discriminate]. }
    assert (forallb (fun x => mem x (links c)) (links costs) = true) as ->.
    { apply forallb_forall. intros [x y] Hi. apply mem_In, (In_links c x y Wc), H1, (In_links costs x y W), Hi. }
    assert (forallb (fun x => mem x (links costs)) (links c) = true) as ->.
    { apply forallb_forall. intros [x y] Hi. apply mem_In, (In_links costs x y W), H1, (In_links c x y Wc), Hi. }
    splits; auto. intros x y. unfold capE, room. destruct (edge costs x y) eqn:E; [reflexivity|]. destruct (edge c x y) eqn:E'; [|reflexivity]. exfalso. assert (has_edge costs x y) as (w & Hw) by (apply H1; eexists; eauto). congruence.
  - intros _. set (l := map (fun x : A * A * Z => (fst x, Inf)) (edges costs)).
    assert (NoDup (map ekey l)) as Hnd by (unfold l; rewrite map_map; apply (NoDup_edges costs W)).
    destruct (add_edges_spec (O := O) l empty_graph wf_empty Hnd) as (capg & E & Wg & _ & G1 & G2 & _ & _). exists capg.
    assert (forall x y, edge capg x y = match edge costs x y with Some _ => Some Inf | None => None end) as HE.
    { intros x y. destruct (edge costs x y) as [w|] eqn:Ew.
      - apply G1. unfold l. apply in_map_iff. exists (x, y, w). split; [reflexivity|]. apply (In_edges costs x y w W), Ew.
      - rewrite G2; [reflexivity|]. unfold l. rewrite map_map. intros C. apply in_map_iff in C. destruct C as ([[a b] w] & Eq & Hi). cbn in Eq. inv Eq. apply (In_edges costs x y w W) in Hi. congruence. }
    splits.
    + rewrite <- E, <- from_list_edges. unfold l. rewrite map_map. reflexivity.
    + intros x y. unfold has_edge. rewrite HE. destruct (edge costs x y); split; intros (? & ?); try discriminate; eauto.
    + intros x y c. rewrite HE. destruct (edge costs x y); [|discriminate]. intros K. inv K. exact Logic.I.
    + intros x y. unfold capE, room. rewrite HE. destruct (edge costs x y); reflexivity. Qed.

Context (srt : list (Z * A) -> list (Z * A)) (near : list (ext * (Z * A)) -> ext * (Z * A)).
Hypothesis Hsrt : forall l, Permutation (srt l) l /\ StronglySorted (fun x y => fst x <= fst y) (srt l).
Hypothesis Hnear : forall l, l <> [] -> In (near l) l /\ forall y, In y l -> ext_le (fst (near l)) (fst y).
Definition mcf_result costs capg (stock : A -> Z) (J : (A -> A -> option Z) -> Prop) (r : res (Z * graph)) : Prop :=
  match r with
  | Ok (c, flows) => exists F, reachable flows /\ (forall x y, edge flows x y = F x y) /\ good costs capg stock F /\ J F /\ c = cost_of costs (amount flows) /\
      ((forall x, stock x < 0 -> net costs (fz F) x = stock x) \/ (forall x, 0 < stock x -> net costs (fz F) x = stock x))
  | Err e => e = BadLogic /\ exists F, good costs capg stock F /\ J F /\ exists t, stock t < net costs (fz F) t /\ (exists s, net costs (fz F) s < stock s) /\
      forall s, net costs (fz F) s < stock s -> 0 < stock s -> ~ reach (fun x y => pedge costs capg F x y <> None) s t
  | OutOfFuel => False
  end.
Lemma mcf_of_spec cl costs inventory capacity (J : (A -> A -> option Z) -> Prop) : reachable costs -> nonneg costs -> NoDup (dkeys inventory) -> (forall x, stock_of inventory x <> 0 -> contains costs x = true) -> capacity_ok costs capacity ->
  (forall capg, (forall x y, capE capg x y = room costs capacity x y) -> forall F En Dn d p L, good costs capg (stock_of inventory) F -> J F -> augment costs capg (stock_of inventory) F En Dn d p L -> J (addP F p L)) ->
  J (fun _ _ => None) ->
  exists r capg, (forall x y, capE capg x y = room costs capacity x y) /\ returns (fun n => minimum_cost_flow_of cl srt near n costs inventory capacity) r /\ mcf_result costs capg (stock_of inventory) J r.
Proof. intros HR Hnn Hnd Hin Hcap HJ HJ0. pose proof (reachable_wf _ HR) as W. set (stock := stock_of inventory) in *.
  destruct (mcf_capacity_spec costs capacity W Hcap) as (capg & Ecap & Hlinks & Hc0 & HcE).
  destruct (reachable_copy_of cl costs W) as (paths & Ecopy & Rp & Np & Ep).
  set (bal := srt (map (fun p => (snd p, fst p)) (filter (fun p => negb (snd p =? 0)) inventory))).
  assert (forall (f : A -> A -> Z) x, (forall x y, f x y = 0) -> net costs f x = 0) as Hnet0 by (intros f x Hf; unfold net, outflow, inflow; rewrite !sumZ_0; auto).
  assert (forall v x, In (v, x) (map (fun p => (snd p, fst p)) (filter (fun p : A * Z => negb (snd p =? 0)) inventory)) <-> v <> 0 /\ v = stock x) as Hbi.
  { intros v x. rewrite in_map_iff. split.
    - intros ([k u] & E & Hi). cbn in E. inv E. apply filter_In in Hi. destruct Hi as [Hi Hu]. cbn in Hu. apply negb_true_iff, Z.eqb_neq in Hu. split; [exact Hu|]. unfold stock, stock_of. rewrite (In_dget x v inventory Hnd Hi). reflexivity.
    - intros [Hv ->]. exists (x, stock x). split; [reflexivity|]. apply filter_In. split; [|cbn; apply negb_true_iff, Z.eqb_neq, Hv].
      unfold stock, stock_of in *. destruct (dget x inventory) as [u|] eqn:E; [apply dget_In, E|congruence]. }
  assert (bal_ok costs stock (fun _ _ => None) bal) as HB.
  { unfold bal. destruct (Hsrt (map (fun p => (snd p, fst p)) (filter (fun p : A * Z => negb (snd p =? 0)) inventory))) as [P1 P2]. hnf. splits; [exact P2| |].
    - apply (Permutation_NoDup (Permutation_sym P1)). apply (NoDup_map_inv snd). rewrite map_map. cbn [snd].
      revert Hnd. generalize inventory as l. induction l as [|[k v] l IH]; intros Hl; [constructor|]. cbn [dkeys map fst] in Hl. apply NoDup_cons_iff in Hl. destruct Hl as [K1 K2]. cbn [filter]. destruct (negb (snd (k, v) =? 0)); [|apply IH, K2].
      cbn [map fst]. constructor; [|apply IH, K2]. intros C. apply K1. apply in_map_iff in C. destruct C as (z & Ez & Hz). apply filter_In in Hz. apply in_map_iff. exists z. tauto.
    - intros v x. transitivity (In (v, x) (map (fun p => (snd p, fst p)) (filter (fun p : A * Z => negb (snd p =? 0)) inventory))); [split; apply Permutation_in; [exact P1|symmetry; exact P1]|].
      rewrite Hbi. unfold left_at. rewrite (Hnet0 (fz (fun _ _ => None))) by reflexivity. rewrite Z.sub_0_r. reflexivity. }
  destruct (mcf_loop srt near Hsrt Hnear costs capg stock HR Hnn Hlinks) with (J := J) (bal := bal) (gs := (@empty_graph A O Z, @empty_graph A O ext, paths, all_pairs_shortest_paths paths)) as (r & Hr & Hpost).
  - intros x Hx. apply contains_In, Hin, Hx.
  - intros F En Dn d p L. apply (HJ capg HcE).
  - exists (fun _ _ => None). splits; [| |exact HJ0|exact HB].
    + hnf. splits; auto using reachable_empty.
    + hnf. splits.
      * intros x y v. discriminate.
      * intros x y. cbn. lia.
      * intros x y. unfold fz, capE. destruct (edge capg x y) eqn:E; [apply (Hc0 _ _ _ E)|cbn; lia].
      * intros x. rewrite Hnet0 by reflexivity. lia.
  - apply returns2_diag in Hr.
    assert (forallb (fun x : A * A * Z => 0 <=? snd x) (edges costs) = true) as Hfb.
    { apply forallb_forall. intros [[x y] v] Hi. apply (In_edges costs x y v W) in Hi. cbn. apply Z.leb_le, (Hnn _ _ _ Hi). }
    assert (forall n, minimum_cost_flow_of cl srt near n costs inventory capacity = (flows <- loop n (mcf_step srt near n capg) (bal, (empty_graph, empty_graph, paths, all_pairs_shortest_paths paths)) ;; total <- mcf_total costs flows ;; Ok (total, flows))) as Eq.
    { intros n. unfold minimum_cost_flow_of. rewrite Hfb. cbn [negb]. fold (mcf_capacity costs capacity). rewrite Ecap. cbn [bind]. rewrite Ecopy. reflexivity. }
    destruct r as [flows|e|]; [| |destruct Hpost].
    + destruct Hpost as (F & Rf & EF & HG & HJF & HD). exists (Ok (cost_of costs (amount flows), flows)), capg. splits; [exact HcE| |].
      * eapply returns_ext; [intros n; symmetry; apply Eq|]. refine (returns_bind _ (fun _ flows => _) flows _ Hr _).
        rewrite (mcf_total_spec costs flows W (reachable_wf _ Rf)); [apply returns_const; discriminate|]. intros x y v. rewrite EF. apply HG.
      * cbn. exists F. splits; auto.
    + destruct Hpost as [-> Hpost]. exists (Err BadLogic), capg. splits; [exact HcE| |cbn; auto]. eapply returns_ext; [intros n; symmetry; apply Eq|]. apply (returns_bind_err _ _ _ Hr). Qed.
End M.
