(** Property theorems C100 (shortest_tree_all_pairs with float edge values). *)
From Coq Require Import SpecFloat.
From Verif Require Import Prelude PreludeFacts Base BaseFacts BaseFacts2 BaseFacts3 Spec SpecFacts Loop SearchFacts BaseAlgFacts SpFacts Fw FwFacts TreeFacts GSp GSpec GSpFacts Float64 FloatSpec FwFloat PropsFloat PropsFloat2 GFw GFwSpec CentreFloat PropsCentreFloat GTree GTreeFacts.
Local Open Scope Z_scope.

Section M.
Context {A O : Type} {EA : EqDec A}.
Implicit Types (g : graph A O spec_float).
Lemma tree_gen g (eOK : ext -> Prop) RR (HR : rounding eOK RR) (TR : ext -> ext -> Prop) sumf ord : reachable g -> good_edges f64_good g ->
  (forall a b w, edge g a b = Some w -> eOK (iv w)) -> sums_near sumf -> (forall n l, Permutation (ord n l) l) ->
  (forall v ds row, In v (nodes g) -> exact_total g v (esum ds) -> Forall2 (RR (Z.of_nat (length (nodes g)))) ds (map iv row) -> (forall x, In x ds -> nneg x) ->
       (forall x, In x row -> f64_good x) -> length row = length (nodes g) -> TR (esum ds) (iv (sumf row))) ->
  (forall x, In x (nodes g) -> exists t, exact_total g x t /\ TR t Inf) /\ (forall k, gshortest_tree f64 sumf ord k g = Err KeyError) \/
  exists l1 s l2 T Tf p, nodes g = l1 ++ s :: l2 /\ exact_total g s T /\ Tf <> Inf /\ TR T Tf /\ (forall x, In x l2 -> exists t', exact_total g x t' /\ TR t' Inf) /\
    returns (fun k => gshortest_tree f64 sumf ord k g) (Ok p) /\ Permutation p (nodes g) /\
    forall p1 x p2 y p3 dx dy, p = p1 ++ x :: p2 ++ y :: p3 -> dist (fin_edge g) s x dx -> dist (fin_edge g) s y dy ->
      exists Dx Dy, RR (Z.of_nat (length (nodes g))) dx Dx /\ RR (Z.of_nat (length (nodes g))) dy Dy /\ ext_le Dx Dy.
Proof. intros R G HE Hs Ho HT. destruct (fw_float g R G eOK RR HR HE) as (f & Ef & Hf). set (n := Z.of_nat (length (nodes g))) in *.
  assert (forall v, In v (nodes g) -> forall y, In y (map (f v) (nodes g)) -> f64_good y) as Gy by (intros v Hv y Hy; apply in_map_iff in Hy; destruct Hy as (b & <- & Hb); destruct (Hf v b Hv Hb) as (_ & _ & K & _); exact K).
  assert (forall v, In v (nodes g) -> exists t, exact_total g v t /\ TR t (iv (sumf (map (f v) (nodes g))))) as HX.
  { intros v Hv. destruct (rows g RR f n Hf v Hv) as (ds & D1 & D2). exists (esum ds). assert (exact_total g v (esum ds)) as ET by (exists ds; auto). split; [exact ET|].
    apply (HT v ds (map (f v) (nodes g))); auto.
    - intros x Hx. destruct (F2_In_r _ _ _ x D1 Hx) as (b' & _ & K). exact (dist_nneg g _ _ _ G K).
    - exact (Gy v Hv).
    - apply map_length. }
  assert (forall v, In v (nodes g) -> iv (sumf (map (f v) (nodes g))) = Inf -> exists t, exact_total g v t /\ TR t Inf) as HI by (intros v Hv E; rewrite <- E; apply HX, Hv).
  destruct (gtree_spec g sumf ord f (reachable_wf _ R) Ho Ef) as [[H1 H2]|(l1 & s & l2 & p & En & H1 & H2 & H3 & H4 & H5)].
  - intros a b Ha Hb. destruct (Hf a b Ha Hb) as (_ & _ & K & _). exact K.
  - intros a Ha. apply (Hs _ (Gy a Ha)).
  - left. split; [|exact H2]. intros x Hx. apply HI; auto.
  - right. assert (In s (nodes g)) as Hin by (rewrite En; apply in_app_iff; cbn; auto). destruct (HX s Hin) as (T & T1 & T2).
    exists l1, s, l2, T, (iv (sumf (map (f s) (nodes g)))), p. splits; auto.
    + intros x Hx. apply HI; auto. rewrite En. apply in_app_iff. cbn. auto.
    + intros p1 x p2 y p3 dx dy Ep Hx Hy.
      assert (In x (nodes g) /\ In y (nodes g)) as [Hxn Hyn] by (split; (eapply Permutation_in; [exact H4|]); rewrite Ep; rewrite !in_app_iff; cbn; rewrite ?in_app_iff; cbn; auto).
      destruct (Hf s x Hin Hxn) as (dx' & E1 & _ & N1). destruct (Hf s y Hin Hyn) as (dy' & E2 & _ & N2).
      rewrite (dist_fun _ _ _ _ _ Hx E1), (dist_fun _ _ _ _ _ Hy E2). exists (iv (f s x)), (iv (f s y)). splits; auto. exact (ordered_pair (fun z => iv (f s z)) p H5 p1 x p2 y p3 Ep). Qed.

(** it starts at the last node whose total does not overflow (its exact total is finite; the totals of the nodes after it are infinite,
    or beyond the largest float up to 2n roundings) and lists all nodes in the order of their exact distance from it up to n
    roundings; KeyError if there is no such node *)
Theorem C100_order_from_last_finite_partial g sumf ord : sums_near sumf -> reachable g -> good_edges f64_good g -> (forall n l, Permutation (ord n l) l) ->
  (forall x, contains g x = true -> exists t, exact_total g x t /\ near_ext (2 * Z.of_nat (length (nodes g))) t Inf) /\ (forall k, gshortest_tree f64 sumf ord k g = Err KeyError) \/
  exists l1 s l2 t p, nodes g = l1 ++ s :: l2 /\ exact_total g s (Fin t) /\
    (forall x, In x l2 -> exists t', exact_total g x t' /\ near_ext (2 * Z.of_nat (length (nodes g))) t' Inf) /\
    returns (fun k => gshortest_tree f64 sumf ord k g) (Ok p) /\ Permutation p (nodes g) /\
    forall p1 x p2 y p3 dx dy, p = p1 ++ x :: p2 ++ y :: p3 -> dist (fin_edge g) s x dx -> dist (fin_edge g) s y dy ->
      almost_le (Z.of_nat (length (nodes g))) dx dy.
Proof. intros Hs R G Ho. set (n := Z.of_nat (length (nodes g))). assert (0 <= n) as Hn by lia.
  destruct (tree_gen g (fun _ => True) near_ext near_rounding (near_ext (2 * n)) sumf ord R G (fun _ _ _ _ => Logic.I) Hs Ho) as [[H1 H2]|(l1 & s & l2 & T & Tf & p & En & H1 & H2 & H3 & H4 & H5 & H6 & H7)].
  - intros v ds row Hv ET F NN Gr El. replace (2 * n) with (n + n) by lia.
    apply (near_comp n n (esum ds) (esum (map iv row))); auto; [apply esum_nneg, NN|apply near_sum; auto|]. destruct (Hs row Gr) as [_ K]. rewrite El in K. exact K.
  - left. split; [|exact H2]. intros x Hx. apply H1, contains_In, Hx.
  - right. destruct T as [t|]; [|cbn [near_ext] in H3; congruence]. exists l1, s, l2, t, p. splits; auto.
    intros p1 x p2 y p3 dx dy Ep Hx Hy. destruct (H7 p1 x p2 y p3 dx dy Ep Hx Hy) as (Dx & Dy & N1 & N2 & L). apply (near_le_almost _ dx Dx dy Dy); auto. Qed.
(** on a grid without overflow of the 53 bits everything is exact *)
Theorem C100_grid_order g sumf ord j : sums_near sumf -> sums_grid sumf j -> reachable g -> good_edges f64_good g -> (forall n l, Permutation (ord n l) l) ->
  0 <= j < 2045 -> multiples j g -> (forall v t, In v (nodes g) -> exact_total g v (Fin t) -> t <= 2 ^ 53 * 2 ^ j) ->
  (forall x, contains g x = true -> exact_total g x Inf) /\ (forall k, gshortest_tree f64 sumf ord k g = Err KeyError) \/
  exists l1 s l2 t p, nodes g = l1 ++ s :: l2 /\ exact_total g s (Fin t) /\ (forall x, In x l2 -> exact_total g x Inf) /\
    returns (fun k => gshortest_tree f64 sumf ord k g) (Ok p) /\ Permutation p (nodes g) /\
    forall p1 x p2 y p3 dx dy, p = p1 ++ x :: p2 ++ y :: p3 -> dist (fin_edge g) s x dx -> dist (fin_edge g) s y dy -> ext_le dx dy.
Proof. intros Hs Hs2 R G Ho Hj HM HB.
  destruct (tree_gen g (mult j) (exact_rel j) (exact_rounding j Hj) (fun t tf => tf = t) sumf ord R G (multiples_mult j g HM) Hs Ho) as [[H1 H2]|(l1 & s & l2 & T & Tf & p & En & H1 & H2 & H3 & H4 & H5 & H6 & H7)].
  - intros v ds row Hv ET F NN Gr El. destruct (esum ds) as [t|] eqn:Et.
    + specialize (HB v t Hv ET). assert (forall d D, In d ds -> exact_rel j (Z.of_nat (length (nodes g))) d D -> D = d) as K.
      { intros d D Hd K. pose proof (esum_ge ds d NN Hd) as L. rewrite Et in L. destruct d as [d|]; [|contradiction L]. cbn in L. apply K. lia. }
      assert (map iv row = ds) as Er by (clear - K F; induction F as [|d D l l' HdD _ IH]; [reflexivity|]; f_equal; [apply (K d D); cbn; auto|apply IH; intros; apply K; cbn; auto]).
      apply (Hs2 row t Gr); auto.
      * intros x z Hx Ez. assert (In (Fin z) ds) as Hz by (rewrite <- Er, <- Ez; apply in_map, Hx). destruct (F2_In_l _ _ _ _ F Hz) as (D & _ & (m & _ & ->) & _). exists m. reflexivity.
      * unfold exact_sum. rewrite Er. exact Et.
    + destruct (Hs row Gr) as [_ K]. assert (exact_sum row = Inf) as EI.
      { assert (In Inf (map iv row)) as HI'. { apply esum_inf in Et. destruct (F2_In_l _ _ _ _ F Et) as (D & HD & K2). cbn [exact_rel] in K2. subst D. exact HD. }
        unfold exact_sum. clear - HI'. induction (map iv row) as [|x l IH]; [destruct HI'|]. destruct HI' as [->|H]; [reflexivity|]. cbn. rewrite IH by exact H. destruct x; reflexivity. }
      rewrite EI in K. exact K.
  - left. split; [|exact H2]. intros x Hx. destruct (H1 x) as (t & K1 & <-); [apply contains_In, Hx|exact K1].
  - right. subst Tf. destruct T as [t|]; [|congruence]. assert (In s (nodes g)) as Hin by (rewrite En; apply in_app_iff; cbn; auto).
    pose proof (HB s t Hin H1) as HBs. exists l1, s, l2, t, p. splits; auto.
    + intros x Hx. destruct (H4 x Hx) as (t' & K1 & <-). exact K1.
    + intros p1 x p2 y p3 dx dy Ep Hx Hy. destruct (H7 p1 x p2 y p3 dx dy Ep Hx Hy) as (Dx & Dy & N1 & N2 & L).
      assert (forall z d D, In z (nodes g) -> dist (fin_edge g) s z d -> exact_rel j (Z.of_nat (length (nodes g))) d D -> D = d) as K.
      { intros z d D Hz Hd K. destruct H1 as (ds & F & Et). destruct (F2_In_l _ _ _ z F Hz) as (d' & Hd1 & Hd2). rewrite (dist_fun _ _ _ _ _ Hd Hd2) in *.
        assert (ext_le d' (esum ds)) as L'. { apply esum_ge; [|exact Hd1]. intros u Hu. destruct (F2_In_r _ _ _ u F Hu) as (b' & _ & K'). exact (dist_nneg g _ _ _ G K'). }
        unfold esum in L'. rewrite <- Et in L'. destruct d' as [d'|]; [|contradiction L']. cbn in L'. apply K. lia. }
      assert (In x (nodes g) /\ In y (nodes g)) as [Hxn Hyn] by (split; (eapply Permutation_in; [exact H6|]); rewrite Ep; rewrite !in_app_iff; cbn; rewrite ?in_app_iff; cbn; auto).
      rewrite (K x dx Dx Hxn Hx N1), (K y dy Dy Hyn Hy N2) in L. exact L. Qed.
(** a graph without nodes *)
Theorem C100_empty g sumf ord k : nodes g = [] -> gshortest_tree f64 sumf ord k g = Err KeyError.
Proof. intros E. unfold gshortest_tree, gall_pairs_shortest_paths, gadjacency_matrix. rewrite E. reflexivity. Qed.
End M.

(** the start is not the best one: on 1 - 2 - 3 with 0.5 everywhere (C98) the best start is 2 (total 1.0), but the answer starts from 3
    (total 1.5) *)
Theorem C100_best_start_refuted : reachable g_mid /\ good_edges f64_good g_mid /\ multiples 1073 g_mid /\
  (forall n, gshortest_tree f64 naive_sum (fun _ l => l) (5 + n) g_mid = Ok [3; 2; 1]%nat) /\
  gminsum f64 naive_sum g_mid = Ok [2]%nat /\
  exists (T : nat -> ext), (forall v, In v (nodes g_mid) -> exact_total g_mid v (T v)) /\ ~ ext_le (T 3%nat) (T 2%nat).
Proof. destruct mid_ok as (R & G & Hne & HM). assert (0 <= 1073 < 2045) as Hj by lia. split; [exact R|]. split; [exact G|]. split; [exact HM|]. split; [intros n; vm_compute; reflexivity|]. split; [vm_compute; reflexivity|].
  destruct (C98_naive_sum 1073 Hj) as [S1 S2]. destruct (C98_grid_minsum g_mid naive_sum 1073 S1 S2 R G Hne Hj HM mid_totals) as (r & T & E & _ & HT & HI).
  assert (gminsum f64 naive_sum g_mid = Ok [2]%nat) as E' by (vm_compute; reflexivity). rewrite E' in E. inversion E as [Er]. rewrite <- Er in HI. exists T. split; [exact HT|].
  assert (nodes g_mid = [1; 2; 3]%nat) as En by (vm_compute; reflexivity). rewrite En in *. intros C.
  destruct (proj1 (HI 2%nat) (or_introl eq_refl)) as [_ H2]. assert (In 3%nat [2%nat]) as [K|[]]; [|discriminate K]. apply HI. split; [cbn; auto|]. intros y Hy. eapply ext_le_trans; [exact C|apply H2, Hy]. Qed.
(** the hypotheses of the theorems hold for a graph: the answer lists the nodes from 3 *)
Example ex_tree_grid : exists l1 s l2 t p, nodes g_mid = l1 ++ s :: l2 /\ exact_total g_mid s (Fin t) /\ returns (fun k => gshortest_tree f64 naive_sum (fun _ l => l) k g_mid) (Ok p) /\ p = [3; 2; 1]%nat /\
  forall p1 x p2 y p3 dx dy, p = p1 ++ x :: p2 ++ y :: p3 -> dist (fin_edge g_mid) s x dx -> dist (fin_edge g_mid) s y dy -> ext_le dx dy.
Proof. destruct mid_ok as (R & G & Hne & HM). assert (0 <= 1073 < 2045) as Hj by lia. destruct (C98_naive_sum 1073 Hj) as [S1 S2].
  destruct (C100_grid_order g_mid naive_sum (fun _ l => l) 1073 S1 S2 R G (fun _ l => Permutation_refl l) Hj HM mid_totals) as [[_ C]|(l1 & s & l2 & t & p & H1 & H2 & H3 & H4 & H5 & H6)].
  - exfalso. specialize (C 8%nat). vm_compute in C. discriminate C.
  - exists l1, s, l2, t, p. splits; auto. assert (gshortest_tree f64 naive_sum (fun _ l => l) 8 g_mid = Ok [3; 2; 1]%nat) as E by (vm_compute; reflexivity).
    assert (Ok [3; 2; 1]%nat = Ok p) as K; [|inversion K; reflexivity]. rewrite <- E. apply (returns_of _ _ 8 H4). rewrite E. discriminate. Qed.
(** all totals infinite: 1 -> 2 only *)
Definition g_arrow : graph nat unit spec_float := ok_or empty_graph (run [OpAddNode 3 None; OpAddEdge 1 2 f05 false]%nat).
Example ex_no_start : reachable g_arrow /\ forall n, gshortest_tree f64 naive_sum (fun _ l => l) n g_arrow = Err KeyError.
Proof. split; [exists [OpAddNode 3 None; OpAddEdge 1 2 f05 false]%nat; vm_compute; reflexivity|]. intros n. vm_compute. reflexivity. Qed.
