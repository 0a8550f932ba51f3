(** The methods of a graph object refine the operations on graph values. *)
From Verif Require Import Prelude PreludeFacts Base BaseFacts BaseFacts2 BaseFacts3 Spec Heap HeapSpec HeapFacts.

Section Facts.
Context {A O V : Type} {EA : EqDec A} (is_coll : V -> bool).
Notation graph := (Base.graph A O V).
Notation heap := (heap A O V).
Notation prog := (@prog A O V).
Implicit Types (h : heap) (g : gobj) (G : graph) (own : list nat).

Definition rep h g own G : Prop :=
  exists eo ro,
    own = [o_nodes g; o_count g; o_indeg g; o_outdeg g] ++ (o_edges g :: map snd eo) ++ (o_rev g :: map snd ro) /\
    h_get h (o_nodes g) = Some (CNodes (g_nodes G)) /\ h_get h (o_count g) = Some (CCount (g_count G)) /\
    h_get h (o_indeg g) = Some (CDeg (g_indeg G)) /\ h_get h (o_outdeg g) = Some (CDeg (g_outdeg G)) /\
    orep h (o_edges g) eo (g_edges G) /\ orep h (o_rev g) ro (g_rev G) /\
    NoDup own /\ (forall x, In x own -> x < h_next h).
Definition tri {X} g G G' (m : prog X) (r : res X) : Prop :=
  forall h own, rep h g own G -> exists h' own', m h = (h', r) /\ rep h' g own' G' /\ frame h h' own own'.

Lemma tri_ret {X} g G (x : X) : tri g G G (ret x) (Ok x).
Proof. intros h own H. exists h, own. split; [reflexivity|]. split; [exact H|apply frame_refl]. Qed.
Lemma tri_raise {X} g G e : tri g G G (raise (X := X) e) (Err e).
Proof. intros h own H. exists h, own. split; [reflexivity|]. split; [exact H|apply frame_refl]. Qed.
Lemma tri_then {X Y} g G G1 G2 (m : prog X) (k : X -> prog Y) x r :
  tri g G G1 m (Ok x) -> tri g G1 G2 (k x) r -> tri g G G2 (andthen m k) r.
Proof. intros H1 H2 h own Hr. destruct (H1 h own Hr) as (h1 & own1 & E1 & R1 & F1). destruct (H2 h1 own1 R1) as (h2 & own2 & E2 & R2 & F2).
  exists h2, own2. split; [rewrite (then_ok _ _ _ _ _ E1); exact E2|]. split; [exact R2|]. eapply frame_trans; eauto. Qed.
Lemma tri_then_err {X Y} g G G1 (m : prog X) (k : X -> prog Y) e :
  tri g G G1 m (Err e) -> tri g G G1 (andthen m k) (Err e).
Proof. intros H1 h own Hr. destruct (H1 h own Hr) as (h1 & own1 & E1 & R1 & F1).
  exists h1, own1. split; [rewrite (then_err _ _ _ _ _ E1); reflexivity|]. auto. Qed.

Lemma orep_same h h' l d E : orep h l d E -> h_next h <= h_next h' -> (forall x, In x (l :: map snd d) -> h_get h' x = h_get h x) -> orep h' l d E.
Proof. intros (H1 & H2 & H3 & H4) Hn He. hnf; splits; [rewrite He; [exact H1|left; reflexivity]| |exact H3|].
  - apply (rep2_frame h); [exact H2|]. intros x Hx. apply He. right. exact Hx.
  - intros x Hx. specialize (H4 x Hx). lia. Qed.

Lemma own_parts (n c i o e r : nat) (le lr : list nat) :
  NoDup ([n; c; i; o] ++ (e :: le) ++ (r :: lr)) ->
  (forall x, In x (e :: le) -> x <> n /\ x <> c /\ x <> i /\ x <> o /\ ~ In x (r :: lr)) /\
  (forall x, In x (r :: lr) -> x <> n /\ x <> c /\ x <> i /\ x <> o /\ ~ In x (e :: le)) /\
  NoDup [n; c; i; o].
Proof. intros H. apply NoDup_app_iff in H. destruct H as (H1 & H2 & H3). apply NoDup_app_iff in H2. destruct H2 as (H4 & H5 & H6). splits; [| |exact H1].
  - intros x Hx. assert (Hc : ~ In x [n; c; i; o]) by (intros Hi; apply (H3 x Hi); apply in_app_iff; left; exact Hx). cbn in Hc.
    splits; try (intros ->; tauto). intros Hr. exact (H6 x Hx Hr).
  - intros x Hx. assert (Hc : ~ In x [n; c; i; o]) by (intros Hi; apply (H3 x Hi); apply in_app_iff; right; exact Hx). cbn in Hc.
    splits; try (intros ->; tauto). intros He. exact (H6 x He Hx). Qed.

Lemma tri_edges {X} g G E' (m : prog X) r : local (o_edges g) (g_edges G) E' m r ->
  tri g G (mkG (g_nodes G) E' (g_count G) (g_rev G) (g_indeg G) (g_outdeg G)) m r.
Proof. intros Hl h own (eo & ro & -> & Hn & Hc & Hi & Ho & He & Hr & Hnd & Hb).
  destruct (Hl h eo He) as (h' & eo' & Em & He' & HF). pose proof HF as (F1 & F2 & F3).
  destruct (own_parts _ _ _ _ _ _ _ _ Hnd) as (P1 & P2 & P3).
  assert (Hkeep : forall x, In x [o_nodes g; o_count g; o_indeg g; o_outdeg g] \/ In x (o_rev g :: map snd ro) -> h_get h' x = h_get h x).
  { intros x Hx. apply F2.
    - apply Hb. rewrite !in_app_iff. tauto.
    - intros Hx'. specialize (P1 x Hx'). destruct Hx as [Hx|Hx]; [cbn in Hx; intuition congruence|tauto]. }
  assert (Hnew : forall x, In x (o_edges g :: map snd eo') -> ~ In x ([o_nodes g; o_count g; o_indeg g; o_outdeg g] ++ o_rev g :: map snd ro)).
  { intros x Hx Hx'. apply F3 in Hx. destruct Hx as [Hx|Hx].
    - specialize (P1 x Hx). apply in_app_iff in Hx'. destruct Hx' as [Hx'|Hx']; [cbn in Hx'; intuition congruence|tauto].
    - assert (x < h_next h); [|lia]. apply Hb. rewrite !in_app_iff. apply in_app_iff in Hx'. tauto. }
  eexists h', _. split; [exact Em|]. split.
  - exists eo', ro. splits; [reflexivity| | | | | | | |]; cbn.
    + rewrite Hkeep; [exact Hn|left; cbn; tauto].
    + rewrite Hkeep; [exact Hc|left; cbn; tauto].
    + rewrite Hkeep; [exact Hi|left; cbn; tauto].
    + rewrite Hkeep; [exact Ho|left; cbn; tauto].
    + exact He'.
    + apply (orep_same h); [exact Hr|exact F1|]. intros x Hx. apply Hkeep. right. exact Hx.
    + change (NoDup ([o_nodes g; o_count g; o_indeg g; o_outdeg g] ++ (o_edges g :: map snd eo') ++ (o_rev g :: map snd ro))).
      apply NoDup_app_iff. splits; [exact P3| |].
      * apply NoDup_app_iff. splits; [apply He'|apply Hr|]. intros x Hx Hx'. apply (Hnew x Hx). apply in_app_iff. right. exact Hx'.
      * intros x Hx Hx'. apply in_app_iff in Hx'. destruct Hx' as [Hx'|Hx']; [apply (Hnew x Hx'); apply in_app_iff; left; exact Hx|].
        specialize (P2 x Hx'). cbn in Hx. intuition congruence.
    + change (forall x, In x ([o_nodes g; o_count g; o_indeg g; o_outdeg g] ++ (o_edges g :: map snd eo') ++ (o_rev g :: map snd ro)) -> x < h_next h').
      intros x Hx. rewrite !in_app_iff in Hx. destruct Hx as [Hx|[Hx|Hx]].
      * specialize (Hb x). rewrite !in_app_iff in Hb. specialize (Hb (or_introl Hx)). lia.
      * apply He'. exact Hx.
      * specialize (Hb x). rewrite !in_app_iff in Hb. specialize (Hb (or_intror (or_intror Hx))). lia.
  - hnf; splits; [exact F1| |].
    + intros x Hx Hnx. apply F2; [exact Hx|]. intros Hx'. apply Hnx. rewrite !in_app_iff. tauto.
    + intros x Hx. rewrite !in_app_iff in *. destruct Hx as [Hx|[Hx|Hx]]; [tauto| |tauto]. apply F3 in Hx. tauto. Qed.
Lemma tri_rev {X} g G R' (m : prog X) r : local (o_rev g) (g_rev G) R' m r ->
  tri g G (mkG (g_nodes G) (g_edges G) (g_count G) R' (g_indeg G) (g_outdeg G)) m r.
Proof. intros Hl h own (eo & ro & -> & Hn & Hc & Hi & Ho & He & Hr & Hnd & Hb).
  destruct (Hl h ro Hr) as (h' & ro' & Em & Hr' & HF). pose proof HF as (F1 & F2 & F3).
  destruct (own_parts _ _ _ _ _ _ _ _ Hnd) as (P1 & P2 & P3).
  assert (Hkeep : forall x, In x [o_nodes g; o_count g; o_indeg g; o_outdeg g] \/ In x (o_edges g :: map snd eo) -> h_get h' x = h_get h x).
  { intros x Hx. apply F2.
    - apply Hb. rewrite !in_app_iff. tauto.
    - intros Hx'. specialize (P2 x Hx'). destruct Hx as [Hx|Hx]; [cbn in Hx; intuition congruence|tauto]. }
  assert (Hnew : forall x, In x (o_rev g :: map snd ro') -> ~ In x ([o_nodes g; o_count g; o_indeg g; o_outdeg g] ++ o_edges g :: map snd eo)).
  { intros x Hx Hx'. apply F3 in Hx. destruct Hx as [Hx|Hx].
    - specialize (P2 x Hx). apply in_app_iff in Hx'. destruct Hx' as [Hx'|Hx']; [cbn in Hx'; intuition congruence|tauto].
    - assert (x < h_next h); [|lia]. apply Hb. rewrite !in_app_iff. apply in_app_iff in Hx'. tauto. }
  eexists h', _. split; [exact Em|]. split.
  - exists eo, ro'. splits; [reflexivity| | | | | | | |]; cbn.
    + rewrite Hkeep; [exact Hn|left; cbn; tauto].
    + rewrite Hkeep; [exact Hc|left; cbn; tauto].
    + rewrite Hkeep; [exact Hi|left; cbn; tauto].
    + rewrite Hkeep; [exact Ho|left; cbn; tauto].
    + apply (orep_same h); [exact He|exact F1|]. intros x Hx. apply Hkeep. right. exact Hx.
    + exact Hr'.
    + change (NoDup ([o_nodes g; o_count g; o_indeg g; o_outdeg g] ++ (o_edges g :: map snd eo) ++ (o_rev g :: map snd ro'))).
      apply NoDup_app_iff. splits; [exact P3| |].
      * apply NoDup_app_iff. splits; [apply He|apply Hr'|]. intros x Hx Hx'. apply (Hnew x Hx'). apply in_app_iff. right. exact Hx.
      * intros x Hx Hx'. apply in_app_iff in Hx'. destruct Hx' as [Hx'|Hx']; [|apply (Hnew x Hx'); apply in_app_iff; left; exact Hx].
        specialize (P1 x Hx'). cbn in Hx. intuition congruence.
    + change (forall x, In x ([o_nodes g; o_count g; o_indeg g; o_outdeg g] ++ (o_edges g :: map snd eo) ++ (o_rev g :: map snd ro')) -> x < h_next h').
      intros x Hx. rewrite !in_app_iff in Hx. destruct Hx as [Hx|[Hx|Hx]].
      * specialize (Hb x). rewrite !in_app_iff in Hb. specialize (Hb (or_introl Hx)). lia.
      * specialize (Hb x). rewrite !in_app_iff in Hb. specialize (Hb (or_intror (or_introl Hx))). lia.
      * apply Hr'. exact Hx.
  - hnf; splits; [exact F1| |].
    + intros x Hx Hnx. apply F2; [exact Hx|]. intros Hx'. apply Hnx. rewrite !in_app_iff. tauto.
    + intros x Hx. rewrite !in_app_iff in *. destruct Hx as [Hx|[Hx|Hx]]; [tauto|tauto|]. apply F3 in Hx. tauto. Qed.

(** the four cells *)
Lemma tri_cell g G G' l c (P : l = o_nodes g /\ c = CNodes (g_nodes G') /\ G' = mkG (g_nodes G') (g_edges G) (g_count G) (g_rev G) (g_indeg G) (g_outdeg G) \/
                               l = o_count g /\ c = CCount (g_count G') /\ G' = mkG (g_nodes G) (g_edges G) (g_count G') (g_rev G) (g_indeg G) (g_outdeg G) \/
                               l = o_indeg g /\ c = CDeg (g_indeg G') /\ G' = mkG (g_nodes G) (g_edges G) (g_count G) (g_rev G) (g_indeg G') (g_outdeg G) \/
                               l = o_outdeg g /\ c = CDeg (g_outdeg G') /\ G' = mkG (g_nodes G) (g_edges G) (g_count G) (g_rev G) (g_indeg G) (g_outdeg G')) :
  tri g G G' (write l c) (Ok tt).
Proof. intros h own (eo & ro & -> & Hn & Hc & Hi & Ho & He & Hr & Hnd & Hb).
  destruct (own_parts _ _ _ _ _ _ _ _ Hnd) as (P1 & P2 & P3).
  assert (Hl : In l [o_nodes g; o_count g; o_indeg g; o_outdeg g]) by (cbn; intuition).
  apply NoDup_cons_iff in P3. destruct P3 as [Q1 P3]. apply NoDup_cons_iff in P3. destruct P3 as [Q2 P3]. apply NoDup_cons_iff in P3. destruct P3 as [Q3 P3]. cbn in Q1, Q2, Q3.
  assert (N1 : o_nodes g <> o_count g) by intuition. assert (N2 : o_nodes g <> o_indeg g) by intuition. assert (N3 : o_nodes g <> o_outdeg g) by intuition.
  assert (N4 : o_count g <> o_indeg g) by intuition. assert (N5 : o_count g <> o_outdeg g) by intuition. assert (N6 : o_indeg g <> o_outdeg g) by intuition.
  assert (Hoth : forall x, In x (o_edges g :: map snd eo) \/ In x (o_rev g :: map snd ro) -> x <> l).
  { intros x [Hx|Hx]; [specialize (P1 x Hx)|specialize (P2 x Hx)]; cbn in Hl; intuition congruence. }
  eexists _, _. split; [reflexivity|]. split.
  - exists eo, ro. splits; [reflexivity| | | | | | |exact Hnd|exact Hb].
    1-4: cbn; match goal with |- (if ?x =? ?y then _ else _) = _ => destruct (Nat.eqb_spec x y) end;
      destruct P as [(E1 & E2 & E3)|[(E1 & E2 & E3)|[(E1 & E2 & E3)|(E1 & E2 & E3)]]]; first [congruence|rewrite E3; cbn; congruence|exfalso; congruence].
    + apply (orep_same h); [|cbn; lia|].
      * replace (g_edges G') with (g_edges G); [exact He|]. destruct P as [(_ & _ & ->)|[(_ & _ & ->)|[(_ & _ & ->)|(_ & _ & ->)]]]; reflexivity.
      * intros x Hx. cbn. destruct (Nat.eqb_spec x l); [|reflexivity]. exfalso. apply (Hoth x); auto.
    + apply (orep_same h); [|cbn; lia|].
      * replace (g_rev G') with (g_rev G); [exact Hr|]. destruct P as [(_ & _ & ->)|[(_ & _ & ->)|[(_ & _ & ->)|(_ & _ & ->)]]]; reflexivity.
      * intros x Hx. cbn. destruct (Nat.eqb_spec x l); [|reflexivity]. exfalso. apply (Hoth x); auto.
  - hnf; splits; [cbn; lia| |auto]. intros x Hx Hnx. cbn. destruct (Nat.eqb_spec x l) as [->|]; [|reflexivity].
    exfalso. apply Hnx. rewrite !in_app_iff. left. exact Hl. Qed.
Lemma tri_rd_nodes g G : tri g G G (rd_nodes (o_nodes g)) (Ok (g_nodes G)).
Proof. intros h own H. exists h, own. split; [|split; [exact H|apply frame_refl]]. destruct H as (eo & ro & _ & Hn & _). unfold rd_nodes. rewrite Hn. reflexivity. Qed.
Lemma tri_rd_count g G : tri g G G (rd_count (o_count g)) (Ok (g_count G)).
Proof. intros h own H. exists h, own. split; [|split; [exact H|apply frame_refl]]. destruct H as (eo & ro & _ & _ & Hn & _). unfold rd_count. rewrite Hn. reflexivity. Qed.
Lemma tri_rd_indeg g G : tri g G G (rd_deg (o_indeg g)) (Ok (g_indeg G)).
Proof. intros h own H. exists h, own. split; [|split; [exact H|apply frame_refl]]. destruct H as (eo & ro & _ & _ & _ & Hn & _). unfold rd_deg. rewrite Hn. reflexivity. Qed.
Lemma tri_rd_outdeg g G : tri g G G (rd_deg (o_outdeg g)) (Ok (g_outdeg G)).
Proof. intros h own H. exists h, own. split; [|split; [exact H|apply frame_refl]]. destruct H as (eo & ro & _ & _ & _ & _ & Hn & _). unfold rd_deg. rewrite Hn. reflexivity. Qed.
Lemma tri_wr_nodes g G n : tri g G (mkG n (g_edges G) (g_count G) (g_rev G) (g_indeg G) (g_outdeg G)) (write (o_nodes g) (CNodes n)) (Ok tt).
Proof. apply tri_cell. left. auto. Qed.
Lemma tri_wr_count g G n : tri g G (mkG (g_nodes G) (g_edges G) n (g_rev G) (g_indeg G) (g_outdeg G)) (write (o_count g) (CCount n)) (Ok tt).
Proof. apply tri_cell. right. left. auto. Qed.
Lemma tri_wr_indeg g G n : tri g G (mkG (g_nodes G) (g_edges G) (g_count G) (g_rev G) n (g_outdeg G)) (write (o_indeg g) (CDeg n)) (Ok tt).
Proof. apply tri_cell. right. right. left. auto. Qed.
Lemma tri_wr_outdeg g G n : tri g G (mkG (g_nodes G) (g_edges G) (g_count G) (g_rev G) (g_indeg G) n) (write (o_outdeg g) (CDeg n)) (Ok tt).
Proof. apply tri_cell. right. right. right. auto. Qed.

(** the methods *)
Lemma hadd_node_tri g G n o : tri g G (add_node G n o) (hadd_node g n o) (Ok tt).
Proof. unfold hadd_node, add_node. eapply tri_then; [apply tri_rd_nodes|]. destruct (dmem n (g_nodes G)); [apply tri_wr_nodes|].
  eapply tri_then; [apply tri_wr_nodes|]. eapply tri_then; [apply tri_rd_indeg|]. eapply tri_then; [apply tri_wr_indeg|].
  eapply tri_then; [apply tri_rd_outdeg|]. apply tri_wr_outdeg. Qed.
Lemma hdeg_in_tri g G k z : tri g G (mkG (g_nodes G) (g_edges G) (g_count G) (g_rev G) (dset k (deg (g_indeg G) k + z)%Z (g_indeg G)) (g_outdeg G)) (hdeg (o_indeg g) k z) (Ok tt).
Proof. eapply tri_then; [apply tri_rd_indeg|]. apply tri_wr_indeg. Qed.
Lemma hdeg_out_tri g G k z : tri g G (mkG (g_nodes G) (g_edges G) (g_count G) (g_rev G) (g_indeg G) (dset k (deg (g_outdeg G) k + z)%Z (g_outdeg G))) (hdeg (o_outdeg g) k z) (Ok tt).
Proof. eapply tri_then; [apply tri_rd_outdeg|]. apply tri_wr_outdeg. Qed.
Lemma hcount_tri g G z : tri g G (mkG (g_nodes G) (g_edges G) (g_count G + z) (g_rev G) (g_indeg G) (g_outdeg G)) (hcount (o_count g) z) (Ok tt).
Proof. eapply tri_then; [apply tri_rd_count|]. apply tri_wr_count. Qed.
(** is the edge there? *)
Lemma present_tri g G a b (K : bool -> prog unit) G' r :
  tri g G G' (K (match eget (g_edges G) a b with Some _ => true | None => false end)) r ->
  tri g G G' (d <~ rd_outer (o_edges g) ; present <~ (match dget a d with None => ret false | Some i => x <~ rd_inner i ; ret (dmem b x) end) ; K present) r.
Proof. intros HK h own Hr. destruct (HK h own Hr) as (h' & own' & E & R & F). exists h', own'. split; [|auto].
  destruct Hr as (eo & ro & _ & _ & _ & _ & _ & (H1 & H2 & _) & _). rewrite (then_ok _ _ h h eo (rd_outer_eq h _ _ H1)).
  pose proof (rep2_dget h eo _ a H2) as Q. unfold eget in E. destruct (dget a eo) as [i|].
  - destruct Q as (x & Qx & Qi & _). rewrite Qx in E. rewrite (then_ok _ _ h h (dmem b x)); [rewrite dmem_dget; exact E|].
    rewrite (then_ok _ _ h h x (rd_inner_eq h i x Qi)). reflexivity.
  - rewrite Q in E. rewrite (then_ok _ _ h h false); [exact E|reflexivity]. Qed.
Lemma hadd_edge1_tri g G G' a b v : is_coll v = false -> add_edge1 G a b v = Ok G' -> tri g G G' (hadd_edge1 is_coll g a b v) (Ok tt).
Proof. intros Hc H. unfold hadd_edge1. rewrite Hc. unfold add_edge1 in H.
  set (G1 := if dmem a (g_nodes G) then G else add_node G a None) in H. set (G2 := if dmem b (g_nodes G1) then G1 else add_node G1 b None) in H.
  eapply tri_then; [apply tri_rd_nodes|]. apply tri_then with (G1 := G1) (x := tt).
  { unfold G1. destruct (dmem a (g_nodes G)); [apply tri_ret|apply hadd_node_tri]. }
  eapply tri_then; [apply tri_rd_nodes|]. apply tri_then with (G1 := G2) (x := tt).
  { unfold G2. destruct (dmem b (g_nodes G1)); [apply tri_ret|apply hadd_node_tri]. }
  apply present_tri. destruct (eget (g_edges G2) a b) as [w|] eqn:Ee.
  - unfold eget in Ee. destruct (dget a (g_edges G2)) as [x|] eqn:Ea; [|discriminate].
    destruct (dget b (g_rev G2)) as [y|] eqn:Eb; [|discriminate]. injection H as <-. unfold inner. rewrite Ea.
    eapply tri_then.
    + apply tri_edges. pose proof (hset2_local (O := O) (o_edges g) (g_edges G2) a b v) as L. rewrite Ea in L. exact L.
    + match goal with |- tri g ?G _ _ _ => pose proof (hset2_local (O := O) (o_rev g) (g_rev G) b a v) as L end. cbn [g_rev] in L. rewrite Eb in L.
      apply (tri_rev g (mkG (g_nodes G2) _ (g_count G2) (g_rev G2) (g_indeg G2) (g_outdeg G2)) _ _ _ L).
  - injection H as <-. eapply tri_then; [apply tri_edges; apply hput2_local|]. eapply tri_then; [apply tri_rev; apply hput2_local|]. cbn [g_nodes g_edges g_count g_rev g_indeg g_outdeg].
    eapply tri_then; [apply hdeg_out_tri|]. eapply tri_then; [apply hdeg_in_tri|]. apply hcount_tri. Qed.
Lemma hadd_edge_tri g G G' a b v bi : is_coll v = false -> add_edge G a b v bi = Ok G' -> tri g G G' (hadd_edge is_coll g a b v bi) (Ok tt).
Proof. intros Hc H. unfold hadd_edge. unfold add_edge in H. destruct (add_edge1 G a b v) as [G1| |] eqn:E1; try discriminate. cbn in H.
  eapply tri_then; [apply hadd_edge1_tri; [exact Hc|exact E1]|]. destruct bi; [apply hadd_edge1_tri; auto|]. injection H as <-. apply tri_ret. Qed.
Lemma hadd_edge_bad g G a b v bi : is_coll v = true -> tri g G G (hadd_edge is_coll g a b v bi) (Err ValueError).
Proof. intros Hc. unfold hadd_edge. apply tri_then_err. unfold hadd_edge1. rewrite Hc. apply tri_raise. Qed.
Lemma dget_dset_same {X} k (x : X) (d : dict A X) : dget k (dset k x d) = Some x.
Proof. rewrite dget_dset. destruct (eq_dec k k); congruence. Qed.
Lemma hdel_edge_tri g G G' a b : del_edge G a b = Ok G' -> tri g G G' (hdel_edge g a b) (Ok tt).
Proof. intros H. unfold del_edge in H. unfold hdel_edge.
  assert (Hno : forall m, local (A := A) (V := V) (O := O) (o_edges g) (g_edges G) (g_edges G) (hdel2 (o_edges g) a b) (Err KeyError) -> G' = G ->
     tri g G G' (fun h => match hdel2 (o_edges g) a b h with (h, Err KeyError) => (h, Ok tt) | (h, Err e) => (h, Err e) | (h, OutOfFuel) => (h, OutOfFuel) | (h, Ok _) => m h end) (Ok tt)).
  { intros m L ->. intros h own Hr. destruct (tri_edges g G _ _ _ L h own Hr) as (h' & own' & E & R & F). exists h', own'. rewrite E. split; [reflexivity|].
    split; [|exact F]. destruct G; exact R. }
  pose proof (hdel2_local (O := O) (o_edges g) (g_edges G) a b) as L.
  destruct (dget a (g_edges G)) as [x|] eqn:Ea; [|injection H as <-; apply Hno; auto].
  destruct (dget b x) as [w|] eqn:Eb; [|injection H as <-; apply Hno; auto].
  destruct (dget b (g_rev G)) as [y|] eqn:Ey; [|discriminate]. destruct (dget a y) as [w'|] eqn:Ey'; [|discriminate]. injection H as <-.
  intros h own Hr. destruct (tri_edges g G _ _ _ L h own Hr) as (h1 & own1 & E1 & R1 & F1). rewrite E1.
  match goal with |- exists h' own', ?m h1 = _ /\ _ => assert (T : tri g (mkG (g_nodes G) (dset a (ddel b x) (g_edges G)) (g_count G) (g_rev G) (g_indeg G) (g_outdeg G))
     (mkG (g_nodes G) (if is_nil (ddel b x) then ddel a (dset a (ddel b x) (g_edges G)) else dset a (ddel b x) (g_edges G)) (g_count G - 1)
        (if is_nil (ddel a y) then ddel b (dset b (ddel a y) (g_rev G)) else dset b (ddel a y) (g_rev G))
        (dset b (deg (g_indeg G) b - 1)%Z (g_indeg G)) (dset a (deg (g_outdeg G) a - 1)%Z (g_outdeg G))) m (Ok tt)) end.
  { eapply tri_then; [apply tri_edges; apply hprune_local; cbn [g_edges]; apply dget_dset_same|]. cbn [g_nodes g_edges g_count g_rev g_indeg g_outdeg].
    eapply tri_then.
    { apply tri_rev. cbn [g_rev]. pose proof (hdel2_local (O := O) (o_rev g) (g_rev G) b a) as L2. rewrite Ey, Ey' in L2. exact L2. }
    cbn [g_nodes g_edges g_count g_rev g_indeg g_outdeg].
    eapply tri_then; [apply tri_rev; apply hprune_local; cbn [g_rev]; apply dget_dset_same|]. cbn [g_nodes g_edges g_count g_rev g_indeg g_outdeg].
    eapply tri_then; [apply hdeg_out_tri|]. eapply tri_then; [apply hdeg_in_tri|]. apply hcount_tri. }
  destruct (T h1 own1 R1) as (h2 & own2 & E2 & R2 & F2). exists h2, own2. split; [exact E2|]. split; [exact R2|]. eapply frame_trans; eauto. Qed.
Lemma iter_tri {X} g (f : X -> prog unit) (F : graph -> X -> res graph) xs : forall G G',
  (forall G G' x, In x xs -> F G x = Ok G' -> tri g G G' (f x) (Ok tt)) -> foldM F xs G = Ok G' -> tri g G G' (iter f xs) (Ok tt).
Proof. induction xs as [|x xs IH]; intros G G' Hf H; cbn in *; [injection H as <-; apply tri_ret|].
  destruct (F G x) as [G1| |] eqn:E; try discriminate. cbn in H. eapply tri_then; [apply Hf; eauto|]. apply IH; [intros; eapply Hf; eauto|exact H]. Qed.
Lemma hdel_node_tri g G G' n : del_node G n = Ok G' -> tri g G G' (hdel_node g n) (Ok tt).
Proof. intros H. unfold del_node in H. unfold hdel_node. eapply tri_then; [apply tri_rd_nodes|].
  destruct (negb (dmem n (g_nodes G))); [injection H as <-; apply tri_ret|].
  match type of H with bind ?e _ = _ => destruct e as [G1| |] eqn:E1; try discriminate end. cbn [bind] in H.
  match type of H with bind ?e _ = _ => destruct e as [G2| |] eqn:E2; try discriminate end. cbn [bind] in H. injection H as <-.
  eapply tri_then; [apply tri_rd_outdeg|]. apply tri_then with (G1 := G1) (x := tt).
  { destruct (deg (g_outdeg G) n =? 0)%Z; [injection E1 as <-; apply tri_ret|]. destruct (dget n (g_edges G)) as [x|] eqn:Ex; [|discriminate].
    apply tri_then with (G1 := G) (x := dkeys x).
    - pose proof (tri_edges g G (g_edges G) _ _ (hkeys2_local (O := O) (o_edges g) (g_edges G) n x Ex)) as T. destruct G; exact T.
    - eapply iter_tri; [|exact E1]. intros. cbn in *. apply hdel_edge_tri. assumption. }
  eapply tri_then; [apply tri_rd_indeg|]. apply tri_then with (G1 := G2) (x := tt).
  { destruct (deg (g_indeg G1) n =? 0)%Z; [injection E2 as <-; apply tri_ret|]. destruct (dget n (g_rev G1)) as [x|] eqn:Ex; [|discriminate].
    apply tri_then with (G1 := G1) (x := dkeys x).
    - pose proof (tri_rev g G1 (g_rev G1) _ _ (hkeys2_local (O := O) (o_rev g) (g_rev G1) n x Ex)) as T. destruct G1; exact T.
    - eapply iter_tri; [|exact E2]. intros. cbn in *. apply hdel_edge_tri. assumption. }
  assert (Hassoc : forall {X Y Z} (m : prog X) (k : X -> prog Y) (k' : prog Z) h, andthen m (fun x => andthen (k x) (fun _ => k')) h = andthen (andthen m k) (fun _ => k') h).
  { intros. unfold andthen. destruct (m h) as [h1 [x| |]]; reflexivity. }
  assert (Tassoc : forall {X Y Z} (m : prog X) (k : X -> prog Y) (k' : prog Z) G3 G4 r, tri g G3 G4 (andthen (andthen m k) (fun _ => k')) r -> tri g G3 G4 (andthen m (fun x => andthen (k x) (fun _ => k'))) r).
  { intros X Y Z m k k' G3 G4 r T h own Hr. destruct (T h own Hr) as (h' & own' & E & Q). exists h', own'. rewrite Hassoc. auto. }
  apply Tassoc. eapply tri_then; [apply tri_edges; apply hdrop_local|]. apply Tassoc. eapply tri_then; [apply tri_rev; apply hdrop_local|].
  cbn [g_nodes g_edges g_count g_rev g_indeg g_outdeg].
  eapply tri_then; [apply tri_rd_nodes|]. eapply tri_then; [apply tri_wr_nodes|].
  eapply tri_then; [apply tri_rd_indeg|]. eapply tri_then; [apply tri_wr_indeg|].
  eapply tri_then; [apply tri_rd_outdeg|]. apply tri_wr_outdeg. Qed.
Lemma hread_in_tri g G n : tri g G (snd (in_degree G n)) (hread_deg (o_indeg g) n) (Ok (fst (in_degree G n))).
Proof. unfold hread_deg, in_degree. eapply tri_then; [apply tri_rd_indeg|]. destruct (dget n (g_indeg G)); [apply tri_ret|].
  eapply tri_then; [apply tri_wr_indeg|]. apply tri_ret. Qed.
Lemma hread_out_tri g G n : tri g G (snd (out_degree G n)) (hread_deg (o_outdeg g) n) (Ok (fst (out_degree G n))).
Proof. unfold hread_deg, out_degree. eapply tri_then; [apply tri_rd_outdeg|]. destruct (dget n (g_outdeg G)); [apply tri_ret|].
  eapply tri_then; [apply tri_wr_outdeg|]. apply tri_ret. Qed.
End Facts.
