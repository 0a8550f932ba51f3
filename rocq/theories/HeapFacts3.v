(** Calls, copies and dictionaries on the heap; the invariant of a user's program. *)
From Verif Require Import Prelude PreludeFacts Base BaseFacts BaseFacts2 BaseFacts3 Spec MaxFlowFacts HashFacts McfFacts Heap HeapSpec HeapFacts HeapFacts2.

Section Facts.
Context {A O V : Type} {EA : EqDec A} (is_coll : V -> bool).
Notation graph := (Base.graph A O V).
Notation heap := (heap A O V).
Notation prog := (@prog A O V).
Notation world := (world A O V).
Implicit Types (h : heap) (g : gobj) (G : graph) (own : list nat) (w : world).

Definition sound G : Prop := reachable G /\ forall a b v, edge G a b = Some v -> is_coll v = false.
Lemma sound_empty : sound empty_graph.
Proof. split; [apply reachable_empty|]. intros a b v H. discriminate. Qed.
Lemma sound_add_node G n o : sound G -> sound (add_node G n o).
Proof. intros [R C]. split; [apply reachable_add_node; exact R|]. intros a b v H. destruct (add_node_effect G n o R) as (_ & _ & _ & He). rewrite He in H. eauto. Qed.
Lemma sound_add_edge G a b v bi : sound G -> is_coll v = false -> exists G', add_edge G a b v bi = Ok G' /\ sound G'.
Proof. intros [R C] Hv. destruct (add_edge_effect G a b v bi R) as (G' & E & _ & _ & H1 & H2 & H3). exists G'. split; [exact E|]. split.
  - apply (reachable_step G (OpAddEdge a b v bi)); [exact R|exact E].
  - intros x y u Hu. destruct (eq_dec (x, y) (a, b)) as [E1|N1]; [injection E1 as -> ->; congruence|].
    destruct bi; [destruct (eq_dec (x, y) (b, a)) as [E1|N2]; [injection E1 as -> ->; rewrite H2 in Hu by reflexivity; congruence|]|].
    + rewrite H3 in Hu by auto. eauto.
    + rewrite H3 in Hu by (auto; discriminate). eauto. Qed.
Lemma sound_del_edge G a b : sound G -> exists G', del_edge G a b = Ok G' /\ sound G'.
Proof. intros [R C]. destruct (del_edge_effect G a b R) as (G' & E & _ & _ & H1 & H2 & _). exists G'. split; [exact E|]. split.
  - apply (reachable_step G (OpDelEdge a b)); [exact R|exact E].
  - intros x y u Hu. destruct (eq_dec (x, y) (a, b)) as [E1|N1]; [injection E1 as -> ->; congruence|]. rewrite H2 in Hu by exact N1. eauto. Qed.
Lemma sound_del_node G n : sound G -> exists G', del_node G n = Ok G' /\ sound G'.
Proof. intros [R C]. destruct (del_node_effect G n R) as (G' & E & _ & _ & H1 & _). exists G'. split; [exact E|]. split.
  - apply (reachable_step G (OpDelNode n)); [exact R|exact E].
  - intros x y u Hu. rewrite H1 in Hu. destruct (eq_dec x n); [discriminate|]. destruct (eq_dec y n); [discriminate|]. eauto. Qed.
Lemma sound_reads G n : sound G -> sound (snd (in_degree G n)) /\ sound (snd (out_degree G n)).
Proof. intros [R C]. destruct (degree_read G n R) as [_ H]. split; (split;
  [first [apply (reachable_step G (OpInDegree n)); [exact R|reflexivity]|apply (reachable_step G (OpOutDegree n)); [exact R|reflexivity]]|]);
  intros a b v Hv.
  - destruct (H _ (or_introl eq_refl)) as (_ & _ & He & _). destruct (He a b) as [He1 _]. rewrite He1 in Hv. eauto.
  - destruct (H _ (or_intror eq_refl)) as (_ & _ & He & _). destruct (He a b) as [He1 _]. rewrite He1 in Hv. eauto. Qed.

Notation put_edge := (put_edge (A := A) (O := O) is_coll).
Notation put_item := (put_item (A := A) (O := O) is_coll).
Notation put_row := (put_row (A := A) (O := O) is_coll).
Notation apply := (apply (A := A) (O := O) is_coll).
(** an update of a graph object *)
Definition upd g (m : prog unit) (F : graph -> graph * res unit) : Prop :=
  forall G, sound G -> tri g G (fst (F G)) m (snd (F G)) /\ sound (fst (F G)).
Lemma put_edge_upd g a b v bi : upd g (hadd_edge is_coll g a b v bi) (fun G => put_edge G a b v bi).
Proof. intros G HG. unfold HeapSpec.put_edge. destruct (is_coll v) eqn:Ev; cbn [fst snd]; [split; [apply hadd_edge_bad; exact Ev|exact HG]|].
  destruct (sound_add_edge G a b v bi HG Ev) as (G' & E & S'). rewrite E. cbn. split; [apply hadd_edge_tri; auto|exact S']. Qed.
Lemma add_node_upd g n o : upd g (hadd_node g n o) (fun G => (add_node G n o, Ok tt)).
Proof. intros G HG. cbn. split; [apply hadd_node_tri|apply sound_add_node; exact HG]. Qed.
Lemma put_all_upd {X} g (f : X -> prog unit) (F : graph -> X -> graph * res unit) xs :
  (forall x, upd g (f x) (fun G => F G x)) -> upd g (iter f xs) (fun G => put_all F xs G).
Proof. intros Hf. induction xs as [|x xs IH]; intros G HG; cbn; [split; [apply tri_ret|exact HG]|].
  destruct (Hf x G HG) as [T S1]. destruct (F G x) as [G1 [u| |]]; cbn [fst snd] in *.
  - destruct u. destruct (IH G1 S1) as [T2 S2]. split; [eapply tri_then; eauto|exact S2].
  - split; [apply tri_then_err; exact T|exact S1].
  - split; [|exact S1]. intros h own Hr. destruct (T h own Hr) as (h1 & own1 & E1 & R1 & F1). exists h1, own1. unfold andthen. rewrite E1. auto. Qed.
Lemma put_item_upd g x : upd g (hadd_item is_coll g x) (fun G => put_item G x).
Proof. destruct x as [[a b v|a b v bi|n]|e]; cbn [hadd_item HeapSpec.put_item]; [apply put_edge_upd|apply put_edge_upd|apply add_node_upd|].
  intros G HG. split; [apply tri_raise|exact HG]. Qed.
Lemma call_upd g c : upd g (hcall is_coll g c) (fun G => apply G c).
Proof. destruct c as [n o|a b v bi|a b|n|xs|n|n]; cbn [hcall HeapSpec.apply].
  - apply add_node_upd.
  - apply put_edge_upd.
  - intros G HG. destruct (sound_del_edge G a b HG) as (G' & E & S'). rewrite E. cbn. split; [apply hdel_edge_tri; exact E|exact S'].
  - intros G HG. destruct (sound_del_node G n HG) as (G' & E & S'). rewrite E. cbn. split; [apply hdel_node_tri; exact E|exact S'].
  - apply put_all_upd. intros x. apply put_item_upd.
  - intros G HG. cbn. split; [|apply (sound_reads G n HG)]. eapply tri_then; [apply hread_in_tri|]. apply tri_ret.
  - intros G HG. cbn. split; [|apply (sound_reads G n HG)]. eapply tri_then; [apply hread_out_tri|]. apply tri_ret. Qed.

(** reading *)
Lemma content2_rep h d E : rep2 h d E -> content2 h d = Some E.
Proof. induction 1 as [|[a i] [b x] d E [H1 H2] HF IH]; cbn in *; [reflexivity|]. subst b. rewrite H2, IH. reflexivity. Qed.
Lemma outer_rep h l d E : orep h l d E -> outer_content h l = Some E.
Proof. intros (H1 & H2 & _). unfold outer_content. rewrite H1. apply content2_rep. exact H2. Qed.
Lemma content_rep h g own G : rep h g own G -> content h g = Some G.
Proof. intros (eo & ro & _ & H1 & H2 & H3 & H4 & H5 & H6 & _). unfold content. rewrite H1, H2, H3, H4, (outer_rep _ _ _ _ H5), (outer_rep _ _ _ _ H6).
  destruct G. reflexivity. Qed.
Lemma rep_below h g own G : rep h g own G -> forall x, In x own -> x < h_next h.
Proof. intros (eo & ro & _ & _ & _ & _ & _ & _ & _ & _ & H). exact H. Qed.
Lemma rep_keep h h' g own G : rep h g own G -> h_next h <= h_next h' -> (forall x, In x own -> h_get h' x = h_get h x) -> rep h' g own G.
Proof. intros (eo & ro & -> & H1 & H2 & H3 & H4 & H5 & H6 & H7 & H8) Hn Hk. exists eo, ro. splits; [reflexivity| | | | | | |exact H7|].
  1-4: rewrite Hk; [assumption|rewrite !in_app_iff; left; cbn; tauto].
  - apply (orep_same h); [exact H5|exact Hn|]. intros x Hx. apply Hk. rewrite !in_app_iff. tauto.
  - apply (orep_same h); [exact H6|exact Hn|]. intros x Hx. apply Hk. rewrite !in_app_iff. tauto.
  - intros x Hx. specialize (H8 x Hx). lia. Qed.
Lemma rep_frame h h' g own G o1 o2 : rep h g own G -> frame h h' o1 o2 -> (forall x, In x own -> ~ In x o1) -> rep h' g own G.
Proof. intros R (F1 & F2 & F3) D. apply (rep_keep h); [exact R|exact F1|]. intros x Hx. apply F2; [eapply rep_below; eauto|auto]. Qed.
Lemma hedges_of_eq h d E : rep2 h d E -> hedges_of d h = (h, Ok (flat_map (fun p => map (fun q => (fst p, fst q, snd q)) (snd p)) E)).
Proof. induction 1 as [|[a i] [b x] d E [H1 H2] HF IH]; cbn [hedges_of flat_map fst snd] in *; [reflexivity|]. subst b.
  rewrite (then_ok _ _ h h x (rd_inner_eq h i x H2)). rewrite (then_ok _ _ h h _ IH). reflexivity. Qed.
Lemma hedges_eq h g own G : rep h g own G -> hedges g h = (h, Ok (edges G)).
Proof. intros (eo & ro & _ & _ & _ & _ & _ & (H1 & H2 & _) & _). unfold hedges. rewrite (then_ok _ _ h h eo (rd_outer_eq h _ _ H1)).
  apply hedges_of_eq. exact H2. Qed.

(** new objects *)
Lemma hnew_spec h : exists h' g own, hnew h = (h', Ok g) /\ rep h' g own empty_graph /\ frame h h' [] own.
Proof. unfold hnew, andthen, alloc, ret. cbn. set (n := h_next h).
  eexists _, _, _. split; [reflexivity|]. split.
  - exists [], []. cbn. splits; [reflexivity|..].
    1-4: repeat (match goal with |- context [if ?x =? ?y then _ else _] => destruct (Nat.eqb_spec x y); try lia end); reflexivity.
    1-2: hnf; splits; [cbn; repeat (match goal with |- context [if ?x =? ?y then _ else _] => destruct (Nat.eqb_spec x y); try lia end); reflexivity|constructor|repeat constructor; cbn; tauto|cbn; intros x [<-|[]]; lia].
    + repeat constructor; cbn; lia.
    + cbn. lia.
  - hnf; splits; [cbn; lia| |cbn; intros x Hx; right; unfold n in *; lia].
    intros x Hx _. cbn. repeat (match goal with |- context [if ?x =? ?y then _ else _] => destruct (Nat.eqb_spec x y); try lia end). reflexivity. Qed.
Lemma iter_ext_tri {X} g (f : X -> prog unit) (F : graph -> X -> graph) xs : (forall G x, tri g G (F G x) (f x) (Ok tt)) -> forall G, tri g G (fold_left F xs G) (iter f xs) (Ok tt).
Proof. intros Hf. induction xs as [|x xs IH]; intros G; cbn; [apply tri_ret|]. eapply tri_then; [apply Hf|apply IH]. Qed.
Lemma frame_fresh h h' own x : frame h h' [] own -> In x own -> h_next h <= x.
Proof. intros (_ & _ & F) Hx. apply F in Hx. destruct Hx as [[]|Hx]; exact Hx. Qed.
Lemma hcopy_spec h g own G : rep h g own G -> sound G ->
  exists h' c own' G', hcopy is_coll g h = (h', Ok c) /\ copy G = Ok G' /\ sound G' /\ rep h' c own' G' /\ frame h h' [] own'.
Proof. intros R S. destruct (hnew_spec h) as (h1 & c & oc & E1 & R1 & F1). unfold hcopy. rewrite (then_ok _ _ _ _ _ E1).
  assert (Rg1 : rep h1 g own G) by (eapply rep_frame; eauto). 
  assert (E1n : rd_nodes (o_nodes g) h1 = (h1, Ok (g_nodes G))).
  { destruct Rg1 as (eo & ro & _ & Hn & _). unfold rd_nodes. rewrite Hn. reflexivity. }
  rewrite (then_ok _ _ _ _ _ E1n).
  destruct (iter_ext_tri c (fun p => hadd_node c (fst p) (snd p)) (fun G' p => add_node G' (fst p) (snd p)) (g_nodes G) (fun G0 p => hadd_node_tri c G0 (fst p) (snd p)) empty_graph h1 oc R1)
    as (h2 & oc2 & E2 & R2 & F2). rewrite (then_ok _ _ _ _ _ E2).
  assert (F02 : frame h h2 [] oc2) by (eapply frame_trans; eauto).
  assert (Rg2 : rep h2 g own G) by (apply (rep_frame h h2 g own G [] oc2); auto). rewrite (then_ok _ _ _ _ _ (hedges_eq _ _ _ _ Rg2)).
  destruct (reachable_copy G (reachable_wf _ (proj1 S))) as (G' & Ec & Rc & Nc & Xc).
  pose proof Ec as Ec'. unfold copy in Ec'.
  assert (T : tri c (fold_left (fun G' p => add_node G' (fst p) (snd p)) (g_nodes G) empty_graph) G' (iter (fun e => hadd_edge is_coll c (fst (fst e)) (snd (fst e)) (snd e) false) (edges G)) (Ok tt)).
  { eapply (iter_tri c _ (fun (G0 : graph) e => let '(a, b, v) := e in add_edge G0 a b v false)); [|exact Ec'].
    intros G1 G2 [[a b] v] Hin HE. cbn. apply hadd_edge_tri; [|exact HE]. destruct S as [Sr Sc]. apply (Sc a b). apply In_edges; [apply reachable_wf; exact Sr|exact Hin]. }
  destruct (T h2 oc2 R2) as (h3 & oc3 & E3 & R3 & F3). rewrite (then_ok _ _ _ _ _ E3).
  exists h3, c, oc3, G'. split; [reflexivity|]. splits; [exact Ec| |exact R3|eapply frame_trans; eauto].
  split; [exact Rc|]. intros a b v Hv. rewrite Xc in Hv. destruct S as [_ Sc]. eauto. Qed.

(** to_dict *)
Lemma hinners_spec ns : forall h, exists h' d, hinners ns h = (h', Ok d) /\ rep2 h' d (map (fun n => (n, [])) ns) /\ NoDup (map snd d) /\
  (forall x, In x (map snd d) -> h_next h <= x < h_next h') /\ h_next h <= h_next h' /\ (forall x, x < h_next h -> h_get h' x = h_get h x).
Proof. induction ns as [|n ns IH]; intros h; cbn [hinners map]; [exists h, []; split; [reflexivity|]; split; [apply Forall2_nil|]; split; [constructor|]; split; [intros x []|]; split; [lia|auto]|].
  unfold andthen at 1, alloc. cbn [fst snd]. set (h1 := mkHeap _ _). destruct (IH h1) as (h2 & d & E & R & ND & B & L & K). unfold h1 in B, L, K. cbn [h_next] in B, L, K.
  rewrite (then_ok _ _ _ _ _ E). exists h2, ((n, h_next h) :: d). split; [reflexivity|]. splits.
  - constructor; [|exact R]. cbn. split; [reflexivity|]. rewrite K by lia. cbn. rewrite Nat.eqb_refl. reflexivity.
  - cbn. constructor; [|exact ND]. intros Hx. apply B in Hx. lia.
  - intros x [<-|Hx]; cbn; [lia|]. apply B in Hx. lia.
  - lia.
  - intros x Hx. rewrite K by lia. cbn. destruct (Nat.eqb_spec x (h_next h)); [lia|reflexivity]. Qed.
Lemma iter_local {X} l (f : X -> prog unit) (F : dict A (dict A V) -> X -> res (dict A (dict A V))) xs :
  (forall E E' x, F E x = Ok E' -> local l E E' (f x) (Ok tt)) -> forall E E', foldM F xs E = Ok E' -> local (O := O) l E E' (iter f xs) (Ok tt).
Proof. intros Hf. induction xs as [|x xs IH]; intros E E' H; cbn in *.
  - injection H as <-. intros h d Hr. exists h, d. split; [reflexivity|]. split; [exact Hr|apply frame_refl].
  - destruct (F E x) as [E1| |] eqn:Ex; try discriminate. cbn in H. intros h d Hr. destruct (Hf _ _ _ Ex h d Hr) as (h1 & d1 & Q1 & R1 & F1).
    destruct (IH E1 E' H h1 d1 R1) as (h2 & d2 & Q2 & R2 & F2). exists h2, d2. rewrite (then_ok _ _ _ _ _ Q1). split; [exact Q2|]. split; [exact R2|]. eapply frame_trans; eauto. Qed.
Lemma hto_dict_spec h g own G : rep h g own G -> reachable G ->
  exists h' l d D, hto_dict g h = (h', Ok l) /\ to_dict G = Ok D /\ orep h' l d D /\ frame h h' [] (l :: map snd d).
Proof. intros R S. destruct (to_dict_spec G (reachable_wf _ S)) as (D & ED & _). unfold hto_dict.
  assert (E1n : rd_nodes (o_nodes g) h = (h, Ok (g_nodes G))).
  { destruct R as (eo & ro & _ & Hn & _). unfold rd_nodes. rewrite Hn. reflexivity. }
  rewrite (then_ok _ _ _ _ _ E1n). destruct (hinners_spec (dkeys (g_nodes G)) h) as (h1 & d & E1 & R1 & ND & B & L & K). rewrite (then_ok _ _ _ _ _ E1).
  unfold andthen at 1, alloc. cbn [fst snd]. set (l := h_next h1). set (h2 := mkHeap _ _).
  assert (R2 : orep h2 l d (map (fun n => (n, [])) (dkeys (g_nodes G)))).
  { hnf; splits; [cbn; rewrite Nat.eqb_refl; reflexivity| | |].
    - apply (rep2_frame h1); [exact R1|]. intros x Hx. cbn. apply B in Hx. destruct (Nat.eqb_spec x l); [unfold l in *; lia|reflexivity].
    - constructor; [|exact ND]. intros Hx. apply B in Hx. unfold l in Hx. lia.
    - cbn. intros x [<-|Hx]; [lia|]. apply B in Hx. lia. }
  assert (F2 : frame h h2 [] (l :: map snd d)).
  { hnf; splits; [cbn; lia| |].
    - intros x Hx _. cbn. destruct (Nat.eqb_spec x l); [unfold l in *; lia|]. apply K. exact Hx.
    - intros x [<-|Hx]; right; [unfold l; lia|apply B in Hx; lia]. }
  assert (Rg : rep h2 g own G) by (apply (rep_frame h h2 g own G [] (l :: map snd d)); auto). rewrite (then_ok _ _ _ _ _ (hedges_eq _ _ _ _ Rg)).
  assert (T : local (O := O) l (map (fun n => (n, [])) (dkeys (g_nodes G))) D (iter (fun e => hset2 l (fst (fst e)) (snd (fst e)) (snd e)) (edges G)) (Ok tt)).
  { eapply iter_local; [|exact ED]. intros E E' [[a b] v] HE. cbn. pose proof (hset2_local (O := O) l E a b v) as Q.
    destruct (dget a E); [|discriminate]. injection HE as <-. exact Q. }
  destruct (T h2 d R2) as (h3 & d3 & E3 & R3 & F3). rewrite (then_ok _ _ _ _ _ E3). exists h3, l, d3, D. split; [reflexivity|]. splits; [exact ED|exact R3|eapply frame_trans; eauto]. Qed.

(** from_dict reads a dict that shares nothing with the graph *)
Lemma content2_keep h h' d E : content2 h d = Some E -> (forall x, In x (map snd d) -> h_get h' x = h_get h x) -> content2 h' d = Some E.
Proof. revert E. induction d as [|[a i] d IH]; intros E H Hk; cbn in *; [exact H|]. rewrite (Hk i) by auto. destruct (h_get h i) as [[]|]; try discriminate.
  destruct (content2 h d) as [r|] eqn:Er; [|discriminate]. rewrite (IH r) by auto. exact H. Qed.
Lemma hfrom_dict_spec d : forall h g own G D, rep h g own G -> sound G -> content2 h d = Some D ->
  (forall x, In x (map snd d) -> x < h_next h /\ ~ In x own) ->
  exists h' own', iter (fun p => x <~ rd_inner (snd p) ; if is_nil x then hadd_node g (fst p) None
                 else iter (fun q => hadd_edge is_coll g (fst p) (fst q) (snd q) false) x) d h = (h', snd (put_all put_row D G)) /\
    rep h' g own' (fst (put_all put_row D G)) /\ sound (fst (put_all put_row D G)) /\ frame h h' own own'.
Proof. induction d as [|[a i] d IH]; intros h g own G D R S Hc Hd; cbn in Hc.
  - injection Hc as <-. exists h, own. cbn. splits; [reflexivity|exact R|exact S|apply frame_refl].
  - destruct (h_get h i) as [[]|] eqn:Ei; try discriminate. rename d0 into x. destruct (content2 h d) as [D1|] eqn:E1; [|discriminate]. injection Hc as <-.
    assert (U : upd g (if is_nil x then hadd_node g a None else iter (fun q => hadd_edge is_coll g a (fst q) (snd q) false) x) (fun G => put_row G (a, x))).
    { unfold HeapSpec.put_row. cbn [fst snd]. destruct (is_nil x); [apply add_node_upd|]. apply (put_all_upd g _ (fun G q => put_edge G a (fst q) (snd q) false)). intros q. apply put_edge_upd. }
    destruct (U G S) as [T S1]. destruct (T h own R) as (h1 & own1 & Q1 & R1 & F1). cbn [put_all iter fst snd].
    assert (Qi : (x0 <~ rd_inner i; (if is_nil x0 then hadd_node g a None else iter (fun q : A * V => hadd_edge is_coll g a (fst q) (snd q) false) x0)) h = (h1, snd (put_row G (a, x)))).
    { rewrite (then_ok _ _ _ _ _ (rd_inner_eq h i x Ei)). exact Q1. }
    assert (Hd1 : forall y, In y (map snd d) -> h_get h1 y = h_get h y /\ y < h_next h1 /\ ~ In y own1).
    { intros y Hy. destruct (Hd y (or_intror Hy)) as [Hb Ho]. destruct F1 as (L1 & K1 & N1). splits; [apply K1; auto|lia|]. intros Hy1. apply N1 in Hy1. destruct Hy1; [auto|lia]. }
    destruct (put_row G (a, x)) as [G1 [u| |]]; cbn [fst snd] in *.
    + destruct u. destruct (IH h1 g own1 G1 D1 R1 S1) as (h2 & own2 & Q2 & R2 & S2 & F2).
      * apply (content2_keep h); [exact E1|]. intros y Hy. apply Hd1. exact Hy.
      * intros y Hy. apply Hd1 in Hy. tauto.
      * exists h2, own2. rewrite (then_ok _ _ _ _ _ Qi). splits; [exact Q2|exact R2|exact S2|eapply frame_trans; eauto].
    + exists h1, own1. rewrite (then_err _ _ _ _ _ Qi). splits; [reflexivity|exact R1|exact S1|exact F1].
    + exists h1, own1. unfold andthen at 1. rewrite Qi. splits; [reflexivity|exact R1|exact S1|exact F1]. Qed.
End Facts.
