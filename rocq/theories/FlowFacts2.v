(** maximum_flow and maximum_flow_min_cut: the whole functions. *)
From Verif Require Import Prelude PreludeFacts Base BaseFacts BaseFacts2 BaseFacts3 Spec SpecFacts Loop SearchFacts
  BaseAlgFacts Bfs BfsFacts Sp SpFacts FlowSpec Flow FlowFacts MaxFlowFacts.
Local Open Scope Z_scope.

Lemma from_list_edges {A O V} {EA : EqDec A} (l : list (A * A * V)) : forall g : graph A O V,
  from_list g (map (fun x => LEdge (fst (fst x)) (snd (fst x)) (snd x)) l) = foldM (fun g' (e : A * A * V) => let '(a, b, v) := e in add_edge g' a b v false) l g.
Proof. unfold from_list. induction l as [|[[a b] v] l IH]; intros g; cbn [map foldM]; [reflexivity|]. cbn [add_link fst snd]. destruct (add_edge g a b v false); cbn [bind]; auto. Qed.

(** every flow is at most what s can send and e can take *)
Lemma flow_le_ends {A O} {EA : EqDec A} (g : graph A O Z) s e f v : wf g -> In s (nodes g) -> In e (nodes g) -> s <> e -> is_flow g s e f v ->
  v <= Z.min (outflow g (amount g) s) (inflow g (amount g) e).
Proof. intros HW Hs He Hse (H1 & H2 & H3).
  assert (forall x, 0 <= inflow g f x) as Hi by (intros x; apply sumZ_nonneg; intros y _; apply H1).
  assert (forall x, 0 <= outflow g f x) as Ho by (intros x; apply sumZ_nonneg; intros y _; apply H1).
  assert (outflow g f s <= outflow g (amount g) s) as Hs' by (apply sumZ_le; intros y _; apply H1).
  assert (inflow g f e <= inflow g (amount g) e) as He' by (apply sumZ_le; intros y _; apply H1).
  assert (sumZ (nodes g) (fun x => outflow g f x - inflow g f x) = 0) as H0.
  { rewrite sumZ_minus. unfold outflow, inflow. rewrite (sumZ_swap (nodes g) (nodes g) (fun x y => f x y)). lia. }
  rewrite (sumZ_ext (nodes g) _ (fun x => v * ind1 s x + (outflow g f e - inflow g f e) * ind1 e x)) in H0.
  - rewrite sumZ_plus, !sumZ_scale, !sumZ_ind1_in in H0 by (auto; apply HW). specialize (Hi s). specialize (Ho e). lia.
  - intros x Hx. unfold ind1. destruct (eq_dec s x) as [<-|h]; [destruct (eq_dec e s); [congruence|lia]|]. destruct (eq_dec e x) as [<-|k]; [lia|].
    rewrite H2 by (auto; apply contains_In, Hx). lia. Qed.

Section MF.
Context {A O W : Type} {EA : EqDec A} (inv : Z -> W) (P : W -> Prop) (sp : nat -> graph A O W -> A -> A -> res (option (list A))).
Hypothesis HP : forall c, 0 < c -> P (inv c).
Hypothesis Hsp : finds_paths P sp.
Notation graph := (graph A O Z).
Implicit Types (g : graph) (s e x y : A).

Lemma maximum_flow_spec g s e : wf g -> nonneg g -> In s (nodes g) -> In e (nodes g) -> s <> e ->
  exists r, returns (fun n => maximum_flow inv sp n g s e) r /\ mf_post g s e (Z.min (outflow g (amount g) s) (inflow g (amount g) e)) r.
Proof. intros HW Hnn Hs He Hse. unfold maximum_flow. assert (contains g s = true) as -> by (apply contains_In, Hs). assert (contains g e = true) as -> by (apply contains_In, He).
  cbn [negb]. rewrite (sum_out g s HW), (sum_in g e HW). set (U := Z.min _ _).
  set (l := map (fun x : A * A * Z => (fst x, inv (snd x))) (filter (fun ed : A * A * Z => 0 <? snd ed) (edges g))).
  assert (forall x y c, amount g x y = c -> 0 < c -> edge g x y = Some c) as Ham by (intros x y c; unfold amount; destruct (edge g x y); intros; [congruence|lia]).
  assert (forall x y w, In (x, y, w) l <-> exists c, edge g x y = Some c /\ 0 < c /\ w = inv c) as Hl.
  { intros x y w. unfold l. rewrite in_map_iff. split.
    - intros ([[a b] c] & E & Hi). cbn in E. inv E. apply filter_In in Hi. destruct Hi as [Hi Hc]. cbn in Hc. apply Z.ltb_lt in Hc. apply (In_edges g x y c HW) in Hi. eauto.
    - intros (c & Hc & Hp & ->). exists (x, y, c). split; [reflexivity|]. apply filter_In. split; [apply (In_edges g x y c HW), Hc|]. cbn. apply Z.ltb_lt, Hp. }
  assert (NoDup (map ekey l)) as Hnd.
  { unfold l. rewrite map_map. rewrite (map_ext _ (@ekey A Z)) by (intros [[a b] c]; reflexivity).
    pose proof (NoDup_edges g HW) as HN. revert HN. generalize (edges g) as es. induction es as [|x es IH]; cbn [map filter]; intros HN; [constructor|].
    apply NoDup_cons_iff in HN. destruct HN as [HN1 HN2]. destruct (0 <? snd x); [|apply IH, HN2]. cbn [map]. constructor; [|apply IH, HN2].
    intros C. apply HN1. apply in_map_iff in C. destruct C as (z & Ez & Hz). apply filter_In in Hz. apply in_map_iff. exists z. tauto. }
  destruct (add_edges_spec (O := O) l empty_graph wf_empty Hnd) as (ig & Eig & Wig & _ & G1 & G2 & _ & G4).
  assert (from_list (O := O) empty_graph (map (fun x : A * A * Z => LEdge (fst (fst x)) (snd (fst x)) (inv (snd x))) (filter (fun ed : A * A * Z => 0 <? snd ed) (edges g))) = Ok ig) as Efl.
  { rewrite <- Eig, <- from_list_edges. unfold l. rewrite map_map. reflexivity. }
  rewrite Efl. cbn [bind].
  destruct (mf_loop inv P sp HP Hsp g s e U (empty_graph, empty_graph, ig) HW Hs He Hse eq_refl) as (r & Hr & Hpost).
  - exists (fun _ _ => None). splits; try lia.
    + hnf; splits; auto using reachable_empty.
      * eapply reachable_from_list; [apply reachable_empty|exact Efl].
      * destruct (Z.eqb_spec U 0) as [h|h]; [intros z []|].
        assert (0 <= outflow g (amount g) s) as K1 by (apply sumZ_nonneg; intros y _; unfold amount; destruct (edge g s y) eqn:E; [apply (Hnn _ _ _ E)|lia]).
        assert (0 <= inflow g (amount g) e) as K2 by (apply sumZ_nonneg; intros y _; unfold amount; destruct (edge g y e) eqn:E; [apply (Hnn _ _ _ E)|lia]).
        assert (0 < outflow g (amount g) s) as K3 by lia. assert (0 < inflow g (amount g) e) as K4 by lia.
        apply sumZ_pos_ex in K3, K4. destruct K3 as (y1 & _ & K3). destruct K4 as (y2 & _ & K4).
        intros z [<-|[<-|[]]]; apply G4; right.
        -- exists (s, y1, inv (amount g s y1)). split; [apply Hl; exists (amount g s y1); splits; auto|auto].
        -- exists (y2, e, inv (amount g y2 e)). split; [apply Hl; exists (amount g y2 e); splits; auto|auto].
      * intros x y. unfold fz. rewrite Z.sub_0_r. destruct (Z.ltb_spec 0 (amount g x y)) as [h|h].
        -- apply G1, Hl. exists (amount g x y). splits; auto.
        -- rewrite G2; [reflexivity|]. intros C. apply in_map_iff in C. destruct C as ([[a b] w] & E & Hi). cbn in E. inv E. apply Hl in Hi. destruct Hi as (c & Hc & Hp & _).
           unfold amount in h. rewrite Hc in h. lia.
    + assert (0 <= outflow g (amount g) s) as K1 by (apply sumZ_nonneg; intros y _; unfold amount; destruct (edge g s y) eqn:E; [apply (Hnn _ _ _ E)|lia]).
      assert (0 <= inflow g (amount g) e) as K2 by (apply sumZ_nonneg; intros y _; unfold amount; destruct (edge g y e) eqn:E; [apply (Hnn _ _ _ E)|lia]). lia.
    + intros x y v. discriminate.
    + intros x y. unfold fz, amount. destruct (edge g x y) eqn:E; [pose proof (Hnn _ _ _ E)|]; lia.
    + intros x _ _. unfold outflow, inflow, fz. rewrite !sumZ_0; auto.
    + apply sumZ_0. auto.
    + apply sumZ_0. auto.
    + apply sumZ_0. auto.
    + apply sumZ_0. auto.
  - exists r. split; [|exact Hpost]. apply returns2_diag in Hr. exact Hr. Qed.

(** ** min cut *)
Definition full_edge g (mfg : graph) (x y : A) : bool := match edge g x y, edge mfg x y with Some c, Some v => c - v =? 0 | _, _ => false end.
Lemma mc_edges g mfg n1 l : forall w cut, (forall y, In y l -> exists v, edge mfg n1 y = Some v) -> (forall x y v, edge mfg x y = Some v -> exists c, edge g x y = Some c) -> wf w -> clean w ->
  exists w', foldM (mc_edge g mfg n1) l (w, cut) = Ok (w', cut ++ map (pair n1) (filter (full_edge g mfg n1) l)) /\ wf w' /\ clean w' /\ nodes w' = nodes w /\
    forall x y, edge w' x y = if eq_dec x n1 then (if mem y (filter (full_edge g mfg n1) l) then None else edge w x y) else edge w x y.
Proof. induction l as [|y0 l IH]; intros w cut Hl Hg HW HC; cbn [foldM filter map].
  - exists w. rewrite app_nil_r. splits; auto. intros x y. destruct (eq_dec x n1); reflexivity.
  - destruct (Hl y0 (or_introl eq_refl)) as (v & Hv). destruct (Hg _ _ _ Hv) as (c & Hc).
    assert (forall y, In y l -> exists v, edge mfg n1 y = Some v) as Hl' by (intros y Hy; apply Hl; cbn; auto).
    assert (mc_edge g mfg n1 (w, cut) y0 = if c - v =? 0 then working <- del_edge w n1 y0 ;; Ok (working, cut ++ [(n1, y0)]) else Ok (w, cut)) as -> by (unfold mc_edge; rewrite Hc, Hv; reflexivity).
    assert (full_edge g mfg n1 y0 = (c - v =? 0)) as -> by (unfold full_edge; rewrite Hc, Hv; reflexivity). destruct (c - v =? 0).
    + rewrite del_edge_eq by exact HW. cbn [bind].
      destruct (IH (del_edge_result w n1 y0) (cut ++ [(n1, y0)]) Hl' Hg (wf_del_edge_result _ _ _ HW) (clean_del_edge_result _ _ _ HW HC)) as (w' & -> & H1 & H2 & H3 & H4).
      exists w'. splits; auto.
      * rewrite <- app_assoc. reflexivity.
      * rewrite H3. apply nodes_del_edge_result.
      * intros x y. rewrite H4, edge_del_edge_result by exact HW. cbn [mem]. destruct (eq_dec x n1) as [->|]; [|reflexivity].
        destruct (eq_dec y y0) as [->|]; [|reflexivity]. destruct (mem y0 _); reflexivity.
    + cbn [bind]. destruct (IH w cut Hl' Hg HW HC) as (w' & -> & H). exists w'. split; [reflexivity|exact H]. Qed.
Lemma mc_walk g mfg walk : forall w cut, wf mfg -> (forall x y v, edge mfg x y = Some v -> exists c, edge g x y = Some c) -> wf w -> clean w ->
  exists w' cut', foldM (fun st n1 => foldM (mc_edge g mfg n1) (nodes_from mfg n1) st) walk (w, cut) = Ok (w', cut ++ cut') /\ wf w' /\ clean w' /\ nodes w' = nodes w /\
    (forall x y, In (x, y) cut' <-> In x walk /\ full_edge g mfg x y = true) /\ (NoDup walk -> NoDup cut') /\
    (forall x y, edge w' x y = if mem x walk then (if full_edge g mfg x y then None else edge w x y) else edge w x y).
Proof. induction walk as [|n1 walk IH]; intros w cut HM Hg HW HC; cbn [foldM].
  - exists w, []. rewrite app_nil_r. splits; auto; [intros x y; split; [intros []|tauto]|intros _; constructor].
  - destruct (mc_edges g mfg n1 (nodes_from mfg n1) w cut) as (w1 & -> & W1 & C1 & N1 & E1); auto; [intros y Hy; apply (In_nodes_from mfg n1 y HM), Hy|]. cbn [bind].
    set (l1 := filter (full_edge g mfg n1) (nodes_from mfg n1)) in *.
    assert (forall y, In y l1 <-> full_edge g mfg n1 y = true) as Hl1.
    { intros y. unfold l1. rewrite filter_In. split; [tauto|]. intros H. split; [|exact H]. apply (In_nodes_from mfg n1 y HM). unfold full_edge in H. destruct (edge g n1 y), (edge mfg n1 y); try discriminate. eauto. }
    destruct (IH w1 (cut ++ map (pair n1) l1) HM Hg W1 C1) as (w' & cut' & -> & H1 & H2 & H3 & H4 & H5 & H6).
    exists w', (map (pair n1) l1 ++ cut'). splits; auto.
    + rewrite app_assoc. reflexivity.
    + congruence.
    + intros x y. rewrite in_app_iff, in_map_iff, H4. cbn [In]. split.
      * intros [(z & E & Hz)|H]; [inv E; split; [auto|apply Hl1, Hz]|tauto].
      * intros [[<-|H] Hf]; [left; exists y; split; [reflexivity|apply Hl1, Hf]|auto].
    + intros Hn. apply NoDup_cons_iff in Hn. destruct Hn as [Hn1 Hn2]. apply NoDup_app_iff. splits.
      * assert (NoDup l1) as HN by (apply NoDup_filter, NoDup_nodes_from, HM). clear - HN. induction HN; cbn; constructor; auto. intros C. apply in_map_iff in C. destruct C as (z & E & Hz). inv E. auto.
      * auto.
      * intros [x y] Hx Hy. apply in_map_iff in Hx. destruct Hx as (z & E & _). inv E. apply H4 in Hy. tauto.
    + intros x y. rewrite H6, E1. cbn [mem]. destruct (eq_dec x n1) as [->|h].
      * assert (mem y l1 = full_edge g mfg n1 y) as ->.
        { destruct (full_edge g mfg n1 y) eqn:Ef; [apply mem_In, Hl1, Ef|apply mem_notIn; rewrite Hl1; congruence]. }
        destruct (mem n1 walk); destruct (full_edge g mfg n1 y); reflexivity.
      * reflexivity. Qed.

Lemma min_cut_spec g s e : reachable g -> nonneg g -> In s (nodes g) -> In e (nodes g) -> s <> e ->
  exists total fg, returns (fun n => maximum_flow inv sp n g s e) (Ok (total, fg)) /\
    ((total = 0 /\ returns (fun n => maximum_flow_min_cut inv sp n g s e) (Ok [])) \/
    (total <> 0 /\ exists walk cut, returns (fun n => breadth_first_walk n fg s (Some e) false) (Ok walk) /\
       returns (fun n => maximum_flow_min_cut inv sp n g s e) (Ok cut) /\ NoDup cut /\
       forall x y, In (x, y) cut <-> In x walk /\ has_edge fg x y /\ forall z v, edge fg x z = Some v -> edge g x z = Some v)).
Proof. intros HR Hnn Hs He Hse. pose proof (reachable_wf _ HR) as HW.
  destruct (maximum_flow_spec g s e HW Hnn Hs He Hse) as (r & Hr & total & fg & -> & Rf & Ht & Fp & Fc & Cons & Cs1 & Cs2 & Ce1 & Ce2 & _).
  exists total, fg. split; [exact Hr|]. unfold maximum_flow_min_cut. assert (contains g s = true) as Es by (apply contains_In, Hs). assert (contains g e = true) as Ee by (apply contains_In, He).
  destruct (Z.eqb_spec total 0) as [h|h].
  - left. split; [exact h|]. rewrite Es, Ee. cbn [negb]. refine (returns_bind _ (fun n r => _) (total, fg) _ Hr _). cbn beta iota. rewrite h, Z.eqb_refl. apply returns_const. discriminate.
  - right. split; [exact h|]. pose proof (reachable_wf _ Rf) as Wf.
    assert (exists y, edge fg s y <> None) as (ys & Hys).
    { assert (0 < outflow g (amount fg) s) as K by lia. apply sumZ_pos_ex in K. destruct K as (y & _ & K). exists y. unfold amount in K. destruct (edge fg s y); [discriminate|lia]. }
    assert (exists y, edge fg y e <> None) as (ye & Hye).
    { assert (0 < inflow g (amount fg) e) as K by lia. apply sumZ_pos_ex in K. destruct K as (y & _ & K). exists y. unfold amount in K. destruct (edge fg y e); [discriminate|lia]. }
    assert (In s (nodes fg)) as Hsf by (destruct (edge fg s ys) eqn:E; [apply (edge_nodes fg s ys _ Wf E)|congruence]).
    assert (In e (nodes fg)) as Hef by (destruct (edge fg ye e) eqn:E; [apply (edge_nodes fg ye e _ Wf E)|congruence]).
    assert (forall x y v, edge fg x y = Some v -> exists c, edge g x y = Some c) as Hg.
    { intros x y v E. specialize (Fc x y). pose proof (Fp _ _ _ E) as K. unfold amount in Fc. rewrite E in Fc. destruct (edge g x y); [eauto|lia]. }
    assert (forall y, edge fg e y = None) as Hout.
    { intros y. destruct (edge fg e y) as [v|] eqn:E; [exfalso|reflexivity]. destruct (Hg _ _ _ E) as (c & Hc). destruct (edge_nodes g e y c HW Hc) as [_ Hy].
      assert (amount fg e y <= outflow g (amount fg) e) as K.
      { unfold outflow. clear - Hy Fc. revert Hy. generalize (nodes g) as N. induction N as [|z N IH]; cbn [sumZ]; [intros []|]. intros [->|Hy].
        - assert (0 <= sumZ N (fun y => amount fg e y)) by (apply sumZ_nonneg; intros u _; apply Fc). lia.
        - specialize (IH Hy). specialize (Fc e z). lia. }
      pose proof (Fp _ _ _ E) as K2. unfold amount in K at 1. rewrite E in K. lia. }
    destruct (bfw_spec fg s false Wf Hsf) as (fl & _ & Hnd & _ & Hfl & _ & Hend). destruct (Hend e Hef) as [Hw1 Hw2].
    assert (exists walk, returns (fun n => breadth_first_walk n fg s (Some e) false) (Ok walk) /\ NoDup walk) as (walk & Hwalk & Hwn).
    { destruct (In_dec' e fl) as [hi|hi]; [|exists fl; auto]. destruct (in_split_first e fl hi) as (l1 & l2 & E & Hn). exists (l1 ++ [e]). split; [eapply Hw2; eauto|].
      rewrite E in Hnd. apply NoDup_app_iff in Hnd. destruct Hnd as (K1 & K2 & K3). apply NoDup_app_single; auto. }
    destruct (from_list_to_list fg Wf) as (w0 & Ew0 & Ww0 & Cw0 & Edge0 & N0 & _).
    destruct (mc_walk g fg walk w0 [] Wf Hg Ww0 Cw0) as (w' & cut & Ecut & W' & C' & N' & H4 & H5 & H6).
    assert (forall x, In x (nodes_out_degree w' 0) <-> In x (nodes fg) /\ forall y, edge w' x y = None) as Hdeg.
    { intros x. destruct (nodes_deg_list (g_outdeg w') 0 (fun n => Z.of_nat (length (edges_from w' n)))) as [_ I2]; [apply W'|intros n _; unfold edges_from; rewrite map_length; apply W'|].
      unfold nodes_out_degree. rewrite I2. destruct C' as [_ C2]. rewrite C2, N', N0. split; intros [K1 K2]; (split; [exact K1|]).
      - intros y. destruct (edge w' x y) as [v|] eqn:E; [exfalso|reflexivity]. assert (In (x, y, v) (edges_from w' x)) as K by (apply (In_edges_from w' x _ W'); eauto). destruct (edges_from w' x); [destruct K|cbn in K2; lia].
      - destruct (edges_from w' x) as [|ed l] eqn:E; [reflexivity|]. assert (In ed (edges_from w' x)) as K by (rewrite E; cbn; auto). apply (In_edges_from w' x _ W') in K. destruct K as (b & v & _ & K). rewrite K2 in K. discriminate. }
    set (res := filter (fun ed : A * A => mem (fst ed) (sremove e (nodes_out_degree w' 0))) cut).
    exists walk, res. splits; auto.
    + rewrite Es, Ee. cbn [negb]. refine (returns_bind _ (fun n r => _) (total, fg) _ Hr _). cbn beta iota. destruct (Z.eqb_spec total 0); [congruence|]. rewrite Ew0. cbn [bind].
      refine (returns_bind _ (fun n wk => _) walk _ Hwalk _). cbn beta. rewrite Ecut. cbn [bind app].
      assert (mem e (nodes_out_degree w' 0) = true) as ->.
      { apply mem_In, Hdeg. split; [exact Hef|]. intros y. rewrite H6, Edge0, Hout. destruct (mem e walk), (full_edge g fg e y); reflexivity. }
      apply returns_const. discriminate.
    + apply NoDup_filter, H5, Hwn.
    + intros x y. unfold res. rewrite filter_In, H4. cbn [fst]. rewrite mem_In, In_sremove, Hdeg. split.
      * intros [[K1 K2] [[K3 K4] K5]]. splits; auto.
        -- unfold full_edge in K2. destruct (edge g x y), (edge fg x y) as [v|] eqn:E; try discriminate. exists v. exact E.
        -- intros z v Ez. specialize (K4 z). rewrite H6 in K4. assert (mem x walk = true) as Ex by (apply mem_In, K1). rewrite Ex, Edge0, Ez in K4.
           unfold full_edge in K4. rewrite Ez in K4. destruct (edge g x z) as [c|]; [|discriminate]. destruct (Z.eqb_spec (c - v) 0); [f_equal; lia|discriminate].
      * intros (K1 & (v & Ev) & K2). splits.
        -- exact K1.
        -- unfold full_edge. rewrite (K2 _ _ Ev), Ev, Z.sub_diag. reflexivity.
        -- apply (edge_nodes fg x y v Wf Ev).
        -- intros z. rewrite H6. assert (mem x walk = true) as -> by (apply mem_In, K1). rewrite Edge0. destruct (edge fg x z) as [v'|] eqn:Ez; [|destruct (full_edge g fg x z); reflexivity].
           unfold full_edge. rewrite (K2 _ _ Ez), Ez, Z.sub_diag. reflexivity.
        -- intros ->. rewrite Hout in Ev. discriminate. Qed.
End MF.
