(** C98: minsum and minmax when edge values are floats. *)
From Coq Require Import SpecFloat.
From Verif Require Import Prelude PreludeFacts Base BaseFacts BaseFacts2 BaseFacts3 Spec SpecFacts Loop SpFacts Fw FwFacts GSp GSpec GSpFacts Float64 FloatSpec FwFloat PropsFloat PropsFloat2 GFw GFwSpec CentreFloat.
Local Open Scope Z_scope.

Section M.
Context {A O : Type} {EA : EqDec A}.
Implicit Types (g : graph A O spec_float).
Lemma dist_nneg g a b X : good_edges f64_good g -> dist (fin_edge g) a b X -> nneg X.
Proof. intros G H. destruct X as [z|]; [|exact Logic.I]. destruct H as [[p Hp] _]. exact (fin_wpath_nneg g G _ _ _ _ Hp). Qed.
Lemma F2_In_l {B C} (R : B -> C -> Prop) l m x : Forall2 R l m -> In x l -> exists y, In y m /\ R x y.
Proof. induction 1 as [|a b l m Hab _ IH]; intros H; [destruct H|]. destruct H as [<-|H]; [exists b; cbn; auto|]. destruct (IH H) as (y & H1 & H2). exists y. cbn; auto. Qed.
Lemma F2_In_r {B C} (R : B -> C -> Prop) l m y : Forall2 R l m -> In y m -> exists x, In x l /\ R x y.
Proof. induction 1 as [|a b l m Hab _ IH]; intros H; [destruct H|]. destruct H as [<-|H]; [exists a; cbn; auto|]. destruct (IH H) as (x & H1 & H2). exists x. cbn; auto. Qed.
(** the entries of a row against the exact distances *)
Lemma rows g (RR : Z -> ext -> ext -> Prop) (f : A -> A -> spec_float) (n : Z) : 
  (forall a b, In a (nodes g) -> In b (nodes g) -> exists X, dist (fin_edge g) a b X /\ Float64.fgood 53 1024 (f a b) /\ RR n X (iv (f a b))) ->
  forall v, In v (nodes g) -> exists ds, Forall2 (fun y d => dist (fin_edge g) v y d) (nodes g) ds /\ Forall2 (RR n) ds (map iv (map (f v) (nodes g))).
Proof. intros H v Hv. destruct (F2_choice (fun y d => dist (fin_edge g) v y d /\ RR n d (iv (f v y))) (nodes g)) as [ds Hds].
  - intros y Hy. destruct (H v y Hv Hy) as (X & H1 & _ & H3). eauto.
  - exists ds. clear - Hds. induction Hds as [|y d l ds [H1 H2] _ [IH1 IH2]]; cbn; split; constructor; auto. Qed.
Lemma choose_nodes (R : A -> ext -> Prop) l : (forall v, In v l -> exists t, R v t) -> exists T : A -> ext, forall v, In v l -> R v (T v).
Proof. intros H. induction l as [|v l IH]; [exists (fun _ => Inf); intros v []|]. destruct IH as [T HT]; [intros; apply H; cbn; auto|]. destruct (H v) as [t Ht]; [cbn; auto|].
  exists (fun u => if eq_dec u v then t else T u). intros u Hu. destruct (eq_dec u v) as [->|D]; [exact Ht|]. destruct Hu as [<-|Hu]; [congruence|]. apply HT, Hu. Qed.

(** *** minmax *)
Lemma minmax_gen g (eOK : ext -> Prop) RR (HR : rounding eOK RR) (Q : Z -> ext -> ext -> Prop) : reachable g -> good_edges f64_good g -> nodes g <> [] ->
  (forall a b w, edge g a b = Some w -> eOK (iv w)) ->
  (forall v t ds Ds d m, In v (nodes g) -> (forall x, In x ds -> nneg x) -> Forall2 (RR (Z.of_nat (length (nodes g)))) ds Ds -> exact_max g v t -> In t ds -> (forall d, In d ds -> ext_le d t) ->
     In d ds -> RR (Z.of_nat (length (nodes g))) d m -> (forall D, In D Ds -> ext_le D m) -> Q (Z.of_nat (length (nodes g))) t m) ->
  exists r (T h : A -> ext), gminmax f64 g = Ok r /\ NoDup r /\ r <> [] /\ (forall v, In v (nodes g) -> exact_max g v (T v) /\ Q (Z.of_nat (length (nodes g))) (T v) (h v)) /\
    forall x, In x r <-> In x (nodes g) /\ forall y, In y (nodes g) -> ext_le (h x) (h y).
Proof. intros R G Hne HE HQ. destruct (fw_float g R G eOK RR HR HE) as (f & Ef & Hf). set (n := Z.of_nat (length (nodes g))) in *.
  pose (h := fun v => match gpy_max f64 (map (f v) (nodes g)) with Ok m => m | _ => S754_infinity false end).
  assert (forall v, In v (nodes g) -> gpy_max f64 (map (f v) (nodes g)) = Ok (h v) /\ In (h v) (map (f v) (nodes g)) /\ (forall y, In y (map (f v) (nodes g)) -> ext_le (iv y) (iv (h v)))) as Hh.
  { intros v Hv. assert (forall y, In y (map (f v) (nodes g)) -> f64_good y) as Gy by (intros y Hy; apply in_map_iff in Hy; destruct Hy as (b & <- & Hb); destruct (Hf v b Hv Hb) as (_ & _ & K & _); exact K).
    unfold h. destruct (map (f v) (nodes g)) as [|x l] eqn:E; [exfalso; apply Hne; destruct (nodes g); [reflexivity|discriminate E]|]. cbn [gpy_max]. split; [reflexivity|]. exact (gmax_spec l x Gy). }
  destruct (gcentre_spec g (gpy_max f64) f h (reachable_wf _ R) Hne Ef) as (r & E & HN & Hr & HI).
  { intros v Hv. destruct (Hh v Hv) as (H1 & H2 & _). split; [exact H1|]. apply in_map_iff in H2. destruct H2 as (b & <- & Hb). destruct (Hf v b Hv Hb) as (_ & _ & K & _). exact K. }
  destruct (choose_nodes (fun v t => exact_max g v t /\ Q n t (iv (h v))) (nodes g)) as [T HT].
  { intros v Hv. destruct (rows g RR f n Hf v Hv) as (ds & D1 & D2). destruct (ext_greatest ds) as (t & T1 & T2); [inversion D1; congruence|].
    assert (exact_max g v t) as ET by (exists ds; auto). exists t. split; [exact ET|]. destruct (Hh v Hv) as (_ & H2 & H3). apply in_map_iff in H2. destruct H2 as (b & Eb & Hb).
    assert (exists d, In d ds /\ RR n d (iv (h v))) as (d & Hd1 & Hd2).
    { destruct (F2_In_r _ _ _ (iv (h v)) D2) as (d & K1 & K2); [apply in_map, in_map_iff; eauto|eauto]. }
    apply (HQ v t ds (map iv (map (f v) (nodes g))) d); auto.
    - intros x Hx. destruct (F2_In_r _ _ _ x D1 Hx) as (b' & _ & K). exact (dist_nneg g _ _ _ G K).
    - intros D HD. apply in_map_iff in HD. destruct HD as (w & <- & Hw). auto. }
  exists r, T, (fun v => iv (h v)). splits; auto. Qed.
(** minmax returns, among the nodes, only such whose exact maximal distance is least up to rounding *)
Theorem C98_minmax_floats_partial g : reachable g -> good_edges f64_good g -> nodes g <> [] ->
  exists r (T : A -> ext), gminmax f64 g = Ok r /\ NoDup r /\ r <> [] /\ incl r (nodes g) /\ (forall v, In v (nodes g) -> exact_max g v (T v)) /\
    forall x y, In x r -> In y (nodes g) -> almost_le (Z.of_nat (length (nodes g))) (T x) (T y).
Proof. intros R G Hne. set (n := Z.of_nat (length (nodes g))).
  destruct (minmax_gen g (fun _ => True) near_ext near_rounding near_ext R G Hne (fun _ _ _ _ => Logic.I)) as (r & T & h & E & HN & Hr & HT & HI).
  { intros v t ds Ds d m Hv HNN HF _ Ht Hle Hd Hm HD. destruct (F2_In_l _ _ _ t HF Ht) as (D & HD1 & HD2). apply (near_between _ d t m D); auto; lia. }
  exists r, T. splits; auto.
  - intros x Hx. apply HI, Hx.
  - intros v Hv. apply HT, Hv.
  - intros x y Hx Hy. destruct (proj1 (HI x) Hx) as [Hx1 Hx2]. apply (near_le_almost _ (T x) (h x) (T y) (h y)); [lia|apply HT, Hx1|apply HT, Hy|apply Hx2, Hy]. Qed.
(** on a grid without overflow of the 53 bits it is exactly the nodes with the least maximal distance *)
Theorem C98_grid_minmax g j : reachable g -> good_edges f64_good g -> nodes g <> [] -> 0 <= j < 2045 -> multiples j g ->
  (forall v t, In v (nodes g) -> exact_max g v (Fin t) -> t <= 2 ^ 53 * 2 ^ j) ->
  exists r (T : A -> ext), gminmax f64 g = Ok r /\ NoDup r /\ (forall v, In v (nodes g) -> exact_max g v (T v)) /\
    forall x, In x r <-> In x (nodes g) /\ forall y, In y (nodes g) -> ext_le (T x) (T y).
Proof. intros R G Hne Hj HM HB. 
  destruct (minmax_gen g (mult j) (exact_rel j) (exact_rounding j Hj) (fun _ t m => m = t) R G Hne (multiples_mult j g HM)) as (r & T & h & E & HN & Hr & HT & HI).
  { intros v t ds Ds d m Hv HNN HF ET Ht Hle Hd Hm HD. destruct (F2_In_l _ _ _ t HF Ht) as (D & HD1 & HD2). specialize (HD D HD1). destruct t as [t|]; [|cbn [exact_rel] in HD2; subst D; destruct m; [contradiction HD|reflexivity]].
    specialize (HB v t Hv ET). specialize (Hle d Hd). destruct d as [d|]; [|contradiction Hle]. cbn [ext_le] in Hle. destruct Hm as (_ & K & _). destruct HD2 as (_ & K2 & _). rewrite (K2 HB) in HD.
    rewrite K in * by lia. f_equal. cbn in HD. lia. }
  exists r, T. splits; auto.
  - intros v Hv. apply HT, Hv.
  - intros x. rewrite HI. split; intros [H1 H2]; (split; [exact H1|]); intros y Hy; specialize (H2 y Hy); destruct (HT x H1) as [_ E1]; destruct (HT y Hy) as [_ E2]; rewrite E1, E2 in *; exact H2. Qed.

(** *** minsum *)
Lemma minsum_gen g (eOK : ext -> Prop) RR (HR : rounding eOK RR) sumf : reachable g -> good_edges f64_good g -> nodes g <> [] -> sums_near sumf ->
  (forall a b w, edge g a b = Some w -> eOK (iv w)) ->
  exists r (T : A -> ext) (h : A -> spec_float), gminsum f64 sumf g = Ok r /\ NoDup r /\ r <> [] /\
    (forall v, In v (nodes g) -> exact_total g v (T v) /\ exists ds row, T v = esum ds /\ Forall2 (RR (Z.of_nat (length (nodes g)))) ds (map iv row) /\ (forall x, In x ds -> nneg x) /\
       (forall x, In x row -> f64_good x) /\ length row = length (nodes g) /\ h v = sumf row) /\
    forall x, In x r <-> In x (nodes g) /\ forall y, In y (nodes g) -> ext_le (iv (h x)) (iv (h y)).
Proof. intros R G Hne Hs HE. destruct (fw_float g R G eOK RR HR HE) as (f & Ef & Hf). set (n := Z.of_nat (length (nodes g))) in *.
  assert (forall v, In v (nodes g) -> forall y, In y (map (f v) (nodes g)) -> f64_good y) as Gy by (intros v Hv y Hy; apply in_map_iff in Hy; destruct Hy as (b & <- & Hb); destruct (Hf v b Hv Hb) as (_ & _ & K & _); exact K).
  destruct (gcentre_spec g (fun l => Ok (sumf l)) f (fun v => sumf (map (f v) (nodes g))) (reachable_wf _ R) Hne Ef) as (r & E & HN & Hr & HI).
  { intros v Hv. split; [reflexivity|]. apply (Hs _ (Gy v Hv)). }
  destruct (choose_nodes (fun v t => exact_total g v t /\ exists ds row, t = esum ds /\ Forall2 (RR n) ds (map iv row) /\ (forall x, In x ds -> nneg x) /\
       (forall x, In x row -> f64_good x) /\ length row = length (nodes g) /\ sumf (map (f v) (nodes g)) = sumf row) (nodes g)) as [T HT].
  { intros v Hv. destruct (rows g RR f n Hf v Hv) as (ds & D1 & D2). exists (esum ds). split; [exists ds; auto|]. exists ds, (map (f v) (nodes g)). splits; auto.
    - intros x Hx. destruct (F2_In_r _ _ _ x D1 Hx) as (b' & _ & K). exact (dist_nneg g _ _ _ G K).
    - exact (Gy v Hv).
    - apply map_length. }
  exists r, T, (fun v => sumf (map (f v) (nodes g))). splits; auto. Qed.
(** minsum returns, among the nodes, only such whose exact total distance is least up to rounding *)
Theorem C98_minsum_floats_partial g sumf : sums_near sumf -> reachable g -> good_edges f64_good g -> nodes g <> [] ->
  exists r (T : A -> ext), gminsum f64 sumf g = Ok r /\ NoDup r /\ r <> [] /\ incl r (nodes g) /\ (forall v, In v (nodes g) -> exact_total g v (T v)) /\
    forall x y, In x r -> In y (nodes g) -> almost_le (2 * Z.of_nat (length (nodes g))) (T x) (T y).
Proof. intros Hs R G Hne. set (n := Z.of_nat (length (nodes g))). assert (0 <= n) as Hn by lia.
  destruct (minsum_gen g (fun _ => True) near_ext near_rounding sumf R G Hne Hs (fun _ _ _ _ => Logic.I)) as (r & T & h & E & HN & Hr & HT & HI). fold n in HT.
  assert (forall v, In v (nodes g) -> near_ext (2 * n) (T v) (iv (h v))) as Near.
  { intros v Hv. destruct (HT v Hv) as (_ & ds & row & E1 & F & NN & Gr & El & Eh). rewrite E1, Eh. replace (2 * n) with (n + n) by lia.
    apply (near_comp n n (esum ds) (esum (map iv row))); auto; [apply esum_nneg, NN|apply near_sum; auto|]. destruct (Hs row Gr) as [_ K]. rewrite El in K. exact K. }
  exists r, T. splits; auto.
  - intros x Hx. apply HI, Hx.
  - intros v Hv. apply HT, Hv.
  - intros x y Hx Hy. destruct (proj1 (HI x) Hx) as [Hx1 Hx2]. apply (near_le_almost _ (T x) (iv (h x)) (T y) (iv (h y))); [lia|apply Near, Hx1|apply Near, Hy|apply Hx2, Hy]. Qed.
(** on a grid without overflow of the 53 bits it is exactly the nodes with the least total *)
Theorem C98_grid_minsum g sumf j : sums_near sumf -> sums_grid sumf j -> reachable g -> good_edges f64_good g -> nodes g <> [] -> 0 <= j < 2045 -> multiples j g ->
  (forall v t, In v (nodes g) -> exact_total g v (Fin t) -> t <= 2 ^ 53 * 2 ^ j) ->
  exists r (T : A -> ext), gminsum f64 sumf g = Ok r /\ NoDup r /\ (forall v, In v (nodes g) -> exact_total g v (T v)) /\
    forall x, In x r <-> In x (nodes g) /\ forall y, In y (nodes g) -> ext_le (T x) (T y).
Proof. intros Hs Hs2 R G Hne Hj HM HB.
  destruct (minsum_gen g (mult j) (exact_rel j) (exact_rounding j Hj) sumf R G Hne Hs (multiples_mult j g HM)) as (r & T & h & E & HN & Hr & HT & HI).
  assert (forall v, In v (nodes g) -> iv (h v) = T v) as Eq.
  { intros v Hv. destruct (HT v Hv) as (ET & ds & row & E1 & F & NN & Gr & El & Eh). rewrite Eh. destruct (T v) as [t|] eqn:Et.
    - specialize (HB v t Hv ET). assert (forall d D, In d ds -> exact_rel j (Z.of_nat (length (nodes g))) d D -> D = d) as K.
      { intros d D Hd K. pose proof (esum_ge ds d NN Hd) as L. rewrite <- E1 in L. destruct d as [d|]; [|contradiction L]. cbn in L. apply K. lia. }
      assert (map iv row = ds) as Er by (clear - K F; induction F as [|d D l l' HdD _ IH]; [reflexivity|]; f_equal; [apply (K d D); cbn; auto|apply IH; intros; apply K; cbn; auto]).
      apply (Hs2 row t Gr); auto.
      + intros x z Hx Ez. assert (In (Fin z) ds) as Hz by (rewrite <- Er, <- Ez; apply in_map, Hx). destruct (F2_In_l _ _ _ _ F Hz) as (D & _ & (m & _ & ->) & _). exists m. reflexivity.
      + unfold exact_sum. rewrite Er. symmetry. exact E1.
    - destruct (Hs row Gr) as [_ K]. assert (exact_sum row = Inf) as EI.
      { assert (In Inf (map iv row)) as HI'. { symmetry in E1. apply esum_inf in E1. destruct (F2_In_l _ _ _ _ F E1) as (D & HD & K2). cbn [exact_rel] in K2. subst D. exact HD. }
        unfold exact_sum. clear - HI'. induction (map iv row) as [|x l IH]; [destruct HI'|]. destruct HI' as [->|H]; [reflexivity|]. cbn. rewrite IH by exact H. destruct x; reflexivity. }
      rewrite EI in K. exact K. }
  exists r, T. splits; auto.
  - intros v Hv. apply HT, Hv.
  - intros x. rewrite HI. split; intros [H1 H2]; (split; [exact H1|]); intros y Hy; specialize (H2 y Hy); rewrite !Eq in * by assumption; exact H2. Qed.
(** a graph without nodes *)
Theorem C98_empty g sumf : nodes g = [] -> gminsum f64 sumf g = Err ValueError /\ gminmax f64 g = Err ValueError.
Proof. intros E. unfold gminsum, gminmax, gcentre, gall_pairs_shortest_paths, gadjacency_matrix. rewrite E. cbn. auto. Qed.
End M.

(** *** sum() adding from left to right meets both requirements *)
Definition naive_sum (l : list spec_float) : spec_float := fold_left (SFadd 53 1024) l (S754_zero false).
Theorem C98_naive_sum j : 0 <= j < 2045 -> sums_near naive_sum /\ sums_grid naive_sum j.
Proof. intros Hj. assert (f64_good (S754_zero false)) as G0 by (split; reflexivity). assert (forall l, ext_add (Fin 0) (exact_sum l) = exact_sum l) as E0 by (intros l; destruct (exact_sum l); reflexivity). split.
  - intros l Gl. destruct (fold_rounding _ _ near_rounding l (S754_zero false) 0 (Fin 0)) as [K1 K2]; [lia|exact G0|cbn; lia|apply near_0|intros x Hx; split; [apply Gl, Hx|exact Logic.I]|].
    split; [exact K1|]. rewrite E0 in K2. exact K2.
  - intros l s Gl Dl Es HB. destruct (fold_rounding _ _ (exact_rounding j Hj) l (S754_zero false) 0 (Fin 0)) as [K1 K2]; [lia|exact G0|cbn; lia|apply (r_base _ _ (exact_rounding j Hj)), (r_zero _ _ (exact_rounding j Hj))| |].
    + intros x Hx. split; [apply Gl, Hx|]. pose proof (iv_rep x (Gl x Hx)) as Rx. destruct (iv x) as [z|] eqn:Ez; [|exact Logic.I]. destruct (Dl x z Hx Ez) as [m ->]. exists m. split; [|reflexivity].
      destruct Rx as [Rx _]. assert (0 < 2 ^ j) by (apply Z.pow_pos_nonneg; lia). nia.
    + rewrite E0, Es in K2. destruct K2 as (_ & K & _). apply K, HB. Qed.

(** *** four nodes with the same exact total: minsum finds only some of them *)
Definition ops_k4 : list (op nat unit spec_float) := [OpAddEdge 1 2 f01 true; OpAddEdge 3 4 f01 true; OpAddEdge 1 3 f02 true; OpAddEdge 2 4 f02 true; OpAddEdge 1 4 f03 true; OpAddEdge 2 3 f03 true]%nat.
Definition g_k4 : graph nat unit spec_float := ok_or empty_graph (run ops_k4).
Lemma k4_ok : reachable g_k4 /\ good_edges f64_good g_k4 /\ nodes g_k4 <> [].
Proof. assert (reachable g_k4) as R by (exists ops_k4; vm_compute; reflexivity). splits; [exact R|apply good_check; [apply reachable_wf, R|vm_compute; reflexivity]|vm_compute; discriminate]. Qed.
Lemma F2_map_r {B C} (R : B -> C -> Prop) (w : B -> C) l : (forall x, In x l -> R x (w x)) -> Forall2 R l (map w l).
Proof. induction l as [|x l IH]; intros H; cbn; constructor; [apply H|apply IH; intros; apply H]; cbn; auto. Qed.
Definition D4 (a b : nat) : Z := if Nat.eq_dec a b then 0 else match fin_edge g_k4 a b with Some z => z | None => 0 end.
Lemma k4_dist a b : In a (nodes g_k4) -> In b (nodes g_k4) -> dist (fin_edge g_k4) a b (Fin (D4 a b)).
Proof. intros Ha Hb. destruct k4_ok as (R & _).
  assert (forallb (fun u => forallb (fun v => forallb (fun w => D4 u w <=? D4 u v + D4 v w) (nodes g_k4)) (nodes g_k4)) (nodes g_k4) = true) as C by (vm_compute; reflexivity).
  assert (forall u v w, In u (nodes g_k4) -> In v (nodes g_k4) -> In w (nodes g_k4) -> D4 u w <= D4 u v + D4 v w) as Tri.
  { intros u v w Hu Hv Hw. apply Z.leb_le. exact (proj1 (forallb_forall _ _) (proj1 (forallb_forall _ _) (proj1 (forallb_forall _ _) C u Hu) v Hv) w Hw). }
  assert (forallb (fun u => forallb (fun v => (u =? v)%nat || match fin_edge g_k4 u v with Some _ => true | None => false end) (nodes g_k4)) (nodes g_k4) = true) as C2 by (vm_compute; reflexivity).
  assert (forallb (fun u => match fin_edge g_k4 u u with Some _ => false | None => true end) (nodes g_k4) = true) as C3 by (vm_compute; reflexivity).
  assert (forall u v z, fin_edge g_k4 u v = Some z -> In u (nodes g_k4) /\ In v (nodes g_k4) /\ D4 u v = z) as Ed.
  { intros u v z H. assert (In u (nodes g_k4) /\ In v (nodes g_k4)) as [Hu Hv].
    { unfold fin_edge in H. destruct (edge g_k4 u v) as [w|] eqn:Ew; [|discriminate H]. exact (edge_nodes _ _ _ _ (reachable_wf _ R) Ew). }
    split; [exact Hu|split; [exact Hv|]]. unfold D4. destruct (Nat.eq_dec u v) as [->|D]; [|rewrite H; reflexivity]. pose proof (proj1 (forallb_forall _ _) C3 v Hv) as K. cbv beta in K. rewrite H in K. discriminate K. }
  split.
  - destruct (Nat.eq_dec a b) as [->|D].
    + exists [b]. unfold D4. destruct (Nat.eq_dec b b); [constructor|congruence].
    + pose proof (proj1 (forallb_forall _ _) (proj1 (forallb_forall _ _) C2 a Ha) b Hb) as K. cbv beta in K. rewrite (proj2 (Nat.eqb_neq a b) D) in K. cbn [orb] in K.
      destruct (fin_edge g_k4 a b) as [z|] eqn:Ez; [|discriminate K]. exists [a; b]. destruct (Ed _ _ _ Ez) as (_ & _ & ->). rewrite <- (Z.add_0_r z). econstructor; [exact Ez|constructor].
  - intros p z Hp. clear Hb C C2 C3. revert Ha. induction Hp as [u|u v p w x d He Hp IH]; intros Hu.
    + unfold D4. destruct (Nat.eq_dec u u); [lia|congruence].
    + destruct (Ed _ _ _ He) as (_ & Hv & <-). specialize (IH Hv). assert (In w (nodes g_k4)) as Hw by (clear - Hp Ed Hv; induction Hp as [|? ? ? ? ? ? H1 ? IH]; [exact Hv|apply IH, (Ed _ _ _ H1)]). specialize (Tri u v w Hu Hv Hw). lia. Qed.
(** the exact totals of the four nodes of K4 are all the same, and minsum returns two of the nodes *)
Theorem C98_minsum_ties_refuted : reachable g_k4 /\ good_edges f64_good g_k4 /\ nodes g_k4 = [1; 2; 3; 4]%nat /\
  (exists t, forall v, In v (nodes g_k4) -> exact_total g_k4 v (Fin t)) /\ gminsum f64 naive_sum g_k4 = Ok [3; 4]%nat.
Proof. destruct k4_ok as (R & G & _). splits; [exact R|exact G|vm_compute; reflexivity| |vm_compute; reflexivity].
  exists (fold_right Z.add 0 (map (D4 1%nat) (nodes g_k4))). intros v Hv. exists (map (fun y => Fin (D4 v y)) (nodes g_k4)). split.
  - apply F2_map_r. intros y Hy. apply k4_dist; [exact Hv|exact Hy].
  - assert (forall l, fold_right ext_add (Fin 0) (map (fun y => Fin (D4 v y)) l) = Fin (fold_right Z.add 0 (map (D4 v) l))) as -> by (induction l as [|y l IH]; [reflexivity|]; cbn [map fold_right]; rewrite IH; reflexivity).
    f_equal. assert (forallb (fun v => fold_right Z.add 0 (map (D4 1%nat) (nodes g_k4)) =? fold_right Z.add 0 (map (D4 v) (nodes g_k4))) (nodes g_k4) = true) as C by (vm_compute; reflexivity).
    apply Z.eqb_eq. exact (proj1 (forallb_forall _ _) C v Hv). Qed.
(** what the nearness theorem says of K4 *)
Example ex_minsum_near : exists r (T : nat -> ext), gminsum f64 naive_sum g_k4 = Ok r /\ (forall v, In v (nodes g_k4) -> exact_total g_k4 v (T v)) /\ forall x y, In x r -> In y (nodes g_k4) -> almost_le 8 (T x) (T y).
Proof. destruct k4_ok as (R & G & Hne). destruct (C98_minsum_floats_partial g_k4 naive_sum (proj1 (C98_naive_sum 0 ltac:(lia))) R G Hne) as (r & T & H1 & _ & _ & _ & H2 & H3). exists r, T. splits; [exact H1|exact H2|exact H3]. Qed.
(** *** a graph on a grid: multiples of 0.5, the middle of the path 1 - 2 - 3 *)
Definition f05 : spec_float := S754_finite false 4503599627370496 (-53).
Definition ops_mid : list (op nat unit spec_float) := [OpAddEdge 1 2 f05 true; OpAddEdge 2 3 f05 true]%nat.
Definition g_mid : graph nat unit spec_float := ok_or empty_graph (run ops_mid).
Lemma fin_nodes {A O} {EA : EqDec A} (g : graph A O spec_float) u v z : wf g -> fin_edge g u v = Some z -> In u (nodes g) /\ In v (nodes g).
Proof. intros W H. unfold fin_edge in H. destruct (edge g u v) as [w|] eqn:Ew; [|discriminate H]. exact (edge_nodes _ _ _ _ W Ew). Qed.
Lemma mid_ok : reachable g_mid /\ good_edges f64_good g_mid /\ nodes g_mid <> [] /\ multiples 1073 g_mid.
Proof. assert (reachable g_mid) as R by (exists ops_mid; vm_compute; reflexivity). splits; [exact R|apply good_check; [apply reachable_wf, R|vm_compute; reflexivity]|vm_compute; discriminate|].
  intros u v z H. destruct (fin_nodes _ _ _ _ (reachable_wf _ R) H) as [Hu Hv]. assert (nodes g_mid = [1; 2; 3]%nat) as En by (vm_compute; reflexivity). rewrite En in Hu, Hv.
  exists 1. split; [lia|]. assert (Some z = Some (1 * 2 ^ 1073)) as K; [|inversion K; reflexivity]. rewrite <- H.
  destruct Hu as [<-|[<-|[<-|[]]]], Hv as [<-|[<-|[<-|[]]]]; revert H; vm_compute; intros H; try discriminate H; reflexivity. Qed.
Lemma mid_walk a b : In a (nodes g_mid) -> In b (nodes g_mid) -> exists p z, wpath (fin_edge g_mid) a p b z /\ z <= 2 * 2 ^ 1073.
Proof. assert (nodes g_mid = [1; 2; 3]%nat) as -> by (vm_compute; reflexivity).
  assert (fin_edge g_mid 1%nat 2%nat = Some (2 ^ 1073) /\ fin_edge g_mid 2%nat 1%nat = Some (2 ^ 1073) /\ fin_edge g_mid 2%nat 3%nat = Some (2 ^ 1073) /\ fin_edge g_mid 3%nat 2%nat = Some (2 ^ 1073)) as (E1 & E2 & E3 & E4) by (vm_compute; auto).
  assert (0 < 2 ^ 1073) as P0 by (apply Z.pow_pos_nonneg; lia). revert E1 E2 E3 E4. generalize (fin_edge g_mid) as E. generalize dependent (2 ^ 1073). intros w P0 E E1 E2 E3 E4.
  intros Ha Hb. destruct Ha as [<-|[<-|[<-|[]]]], Hb as [<-|[<-|[<-|[]]]]; eexists; eexists;
  (split; [first [apply wpath_one | eapply wpath_cons; [first [exact E1|exact E4]|apply wpath_one] | eapply wpath_cons; [exact E2|apply wpath_one] | eapply wpath_cons; [exact E3|apply wpath_one] | eapply wpath_cons; [exact E1|eapply wpath_cons; [exact E3|apply wpath_one]] | eapply wpath_cons; [exact E4|eapply wpath_cons; [exact E2|apply wpath_one]]]|lia]). Qed.
Lemma mid_dist a b z : In a (nodes g_mid) -> In b (nodes g_mid) -> dist (fin_edge g_mid) a b (Fin z) -> z <= 2 * 2 ^ 1073.
Proof. intros Ha Hb [_ H]. destruct (mid_walk a b Ha Hb) as (p & y & Hp & Hy). specialize (H p y Hp). eapply Z.le_trans; [exact H|exact Hy]. Qed.
Lemma sum_bound {B} (Q : B -> ext -> Prop) b l ds : Forall2 Q l ds -> (forall y z, In y l -> Q y (Fin z) -> z <= b) -> forall t, fold_right ext_add (Fin 0) ds = Fin t -> t <= Z.of_nat (length l) * b.
Proof. induction 1 as [|y d l ds Hd _ IH]; intros HQ t E; cbn [fold_right] in E; [inversion E; cbn; lia|]. destruct d as [d|]; [|discriminate E]. destruct (fold_right ext_add (Fin 0) ds) as [u|]; [|discriminate E]. cbn [ext_add] in E. inversion E; subst t.
  specialize (IH (fun y z H => HQ y z (or_intror H)) u eq_refl). pose proof (HQ y d (or_introl eq_refl) Hd). cbn [length]. nia. Qed.
Lemma mid_totals v t : In v (nodes g_mid) -> exact_total g_mid v (Fin t) -> t <= 2 ^ 53 * 2 ^ 1073.
Proof. intros Hv (ds & F & E). assert (t <= Z.of_nat (length (nodes g_mid)) * (2 * 2 ^ 1073)) as K.
  { apply (sum_bound _ (2 * 2 ^ 1073) (nodes g_mid) ds F); [|symmetry; exact E]. intros y z Hy H. exact (mid_dist v y z Hv Hy H). }
  replace (length (nodes g_mid)) with 3%nat in K by (vm_compute; reflexivity). assert (0 < 2 ^ 1073) as P0 by (apply Z.pow_pos_nonneg; lia). revert K P0. generalize (2 ^ 1073). intros w. clear. lia. Qed.
Lemma mid_maxima v t : In v (nodes g_mid) -> exact_max g_mid v (Fin t) -> t <= 2 ^ 53 * 2 ^ 1073.
Proof. intros Hv (ds & F & Ht & _). destruct (F2_In_r _ _ _ _ F Ht) as (y & Hy & H). pose proof (mid_dist v y t Hv Hy H) as K. assert (0 < 2 ^ 1073) as P0 by (apply Z.pow_pos_nonneg; lia). revert K P0. generalize (2 ^ 1073). intros w. clear. lia. Qed.
Example ex_grid : (exists (T : nat -> ext), (forall v, In v (nodes g_mid) -> exact_total g_mid v (T v)) /\ forall x, In x [2]%nat <-> In x (nodes g_mid) /\ forall y, In y (nodes g_mid) -> ext_le (T x) (T y)) /\
  (exists (T : nat -> ext), (forall v, In v (nodes g_mid) -> exact_max g_mid v (T v)) /\ forall x, In x [2]%nat <-> In x (nodes g_mid) /\ forall y, In y (nodes g_mid) -> ext_le (T x) (T y)).
Proof. destruct mid_ok as (R & G & Hne & HM). assert (0 <= 1073 < 2045) as Hj by lia. split.
  - destruct (C98_naive_sum 1073 Hj) as [S1 S2]. destruct (C98_grid_minsum g_mid naive_sum 1073 S1 S2 R G Hne Hj HM mid_totals) as (r & T & E & _ & HT & HI). assert (gminsum f64 naive_sum g_mid = Ok [2]%nat) as E' by (vm_compute; reflexivity). rewrite E' in E. inversion E as [Er]. exists T. split; [exact HT|rewrite Er; exact HI].
  - destruct (C98_grid_minmax g_mid 1073 R G Hne Hj HM mid_maxima) as (r & T & E & _ & HT & HI). assert (gminmax f64 g_mid = Ok [2]%nat) as E' by (vm_compute; reflexivity). rewrite E' in E. inversion E as [Er]. exists T. split; [exact HT|rewrite Er; exact HI]. Qed.
(** ... and the nearness theorem of minmax on K4 *)
Example ex_minmax_near : exists r (T : nat -> ext), gminmax f64 g_k4 = Ok r /\ r <> [] /\ (forall v, In v (nodes g_k4) -> exact_max g_k4 v (T v)) /\ forall x y, In x r -> In y (nodes g_k4) -> almost_le 4 (T x) (T y).
Proof. destruct k4_ok as (R & G & Hne). destruct (C98_minmax_floats_partial g_k4 R G Hne) as (r & T & H1 & _ & H0 & _ & H2 & H3). exists r, T. split; [exact H1|]. split; [exact H0|]. split; [exact H2|exact H3]. Qed.
