(** minsum and minmax on floats: facts. *)
From Coq Require Import SpecFloat.
From Verif Require Import Prelude PreludeFacts Base BaseFacts BaseFacts2 BaseFacts3 Spec SpecFacts Loop SpFacts Fw FwFacts GSp GSpec GSpFacts Float64 FloatSpec FwFloat PropsFloat2 GFw GFwSpec.
Local Open Scope Z_scope.

Lemma compare_gt x y : f64_good x -> f64_good y -> SFcompare x y = Some Gt -> SFltb y x = true.
Proof. intros Gx Gy. unfold SFltb. destruct x as [sx|sx| |sx mx ex], y as [sy|sy| |sy my ey]; try (exfalso; exact (proj2 Gx)); try (exfalso; exact (proj2 Gy));
    repeat match goal with G : f64_good (S754_infinity ?s) |- _ => destruct G as [_ G]; cbn in G; subst s end; cbn [SFcompare]; try discriminate; try reflexivity; try (destruct sx; (reflexivity || discriminate)); try (destruct sy; (reflexivity || discriminate)).
  destruct sx, sy; try discriminate; try reflexivity; rewrite (Z.compare_antisym ex ey); destruct (ex ?= ey); cbn [CompOpp]; try discriminate; try reflexivity;
    rewrite !Pos.compare_cont_spec in *; rewrite (Pos.compare_antisym mx my); destruct (mx ?= my)%positive; cbn; try discriminate; try reflexivity. Qed.
Lemma feqb_iv x y : f64_good x -> f64_good y -> SFeqb x y = ext_eqb (iv x) (iv y).
Proof. intros Gx Gy. pose proof (ltb_spec 53 1024 ltac:(lia) x y Gx Gy) as L1. pose proof (ltb_spec 53 1024 ltac:(lia) y x Gy Gx) as L2. pose proof (eqb_spec 53 1024 x y Gx Gy) as E. pose proof (compare_gt x y Gx Gy) as CG.
  assert (SFcompare x y <> None) as NN by (destruct x, y; try (exfalso; exact (proj2 Gx)); try (exfalso; exact (proj2 Gy)); cbn; discriminate).
  unfold SFeqb, SFltb in *. destruct (SFcompare x y) as [[| |]|]; [| | |congruence].
  - specialize (E eq_refl). rewrite E in L2. destruct (iv x), (iv y); cbn in *; try discriminate; auto. symmetry. apply Z.eqb_eq. symmetry in L1, L2. apply Z.ltb_ge in L1, L2. lia.
  - destruct (iv x), (iv y); cbn in *; try discriminate; auto. symmetry. apply Z.eqb_neq. symmetry in L1. apply Z.ltb_lt in L1. lia.
  - rewrite (CG eq_refl) in L2. destruct (iv x), (iv y); cbn in *; try discriminate; auto. symmetry. apply Z.eqb_neq. symmetry in L2. apply Z.ltb_lt in L2. lia. Qed.

(** min() and max() *)
Lemma gmin_spec l : forall x, (forall y, In y (x :: l) -> f64_good y) -> let m := fold_left (fun m y => if a_ltb f64 y m then y else m) l x in In m (x :: l) /\ iv m = fold_left ext_min (map iv l) (iv x).
Proof. induction l as [|u l IH]; intros x Hg; cbn [fold_left map]; [split; [left; reflexivity|reflexivity]|].
  assert (f64_good x) as Gx by (apply Hg; left; reflexivity). assert (f64_good u) as Gu by (apply Hg; right; left; reflexivity). change (a_ltb f64 u x) with (SFltb u x).
  assert (iv (if SFltb u x then u else x) = ext_min (iv x) (iv u)) as E. { rewrite (ltb_spec 53 1024 ltac:(lia) u x Gu Gx). unfold ext_min. destruct (ext_ltb (iv u) (iv x)); reflexivity. }
  rewrite <- E. destruct (IH (if SFltb u x then u else x)) as [H1 H2]; [intros y [<-|Hy]; [destruct (SFltb u x); assumption|apply Hg; right; right; exact Hy]|]. split; [|exact H2].
  destruct H1 as [H1|H1]; [rewrite <- H1; destruct (SFltb u x); [right; left; reflexivity|left; reflexivity]|right; right; exact H1]. Qed.
Lemma gmax_spec l : forall x, (forall y, In y (x :: l) -> f64_good y) -> let m := fold_left (fun m y => if a_ltb f64 m y then y else m) l x in In m (x :: l) /\ forall y, In y (x :: l) -> ext_le (iv y) (iv m).
Proof. induction l as [|u l IH]; intros x Hg; cbn [fold_left]; [split; [left; reflexivity|intros y [<-|[]]; apply ext_le_refl]|].
  assert (f64_good x) as Gx by (apply Hg; left; reflexivity). assert (f64_good u) as Gu by (apply Hg; right; left; reflexivity). change (a_ltb f64 x u) with (SFltb x u).
  set (z := if SFltb x u then u else x). assert (ext_le (iv x) (iv z) /\ ext_le (iv u) (iv z) /\ (z = x \/ z = u)) as (E1 & E2 & E3).
  { unfold z. rewrite (ltb_spec 53 1024 ltac:(lia) x u Gx Gu). destruct (ext_ltb (iv x) (iv u)) eqn:E; splits; auto using ext_le_refl; destruct (iv x), (iv u); cbn in *; try discriminate; auto; [apply Z.ltb_lt in E; lia|apply Z.ltb_ge in E; lia]. }
  clearbody z. destruct (IH z) as [H1 H2]; [intros y [<-|Hy]; [destruct E3 as [->| ->]; assumption|apply Hg; right; right; exact Hy]|]. split.
  - destruct H1 as [H1|H1]; [rewrite <- H1; destruct E3 as [->| ->]; cbn; auto|right; right; exact H1].
  - intros y [<-|[<-|Hy]]; [eapply ext_le_trans; [exact E1|apply H2; left; reflexivity]|eapply ext_le_trans; [exact E2|apply H2; left; reflexivity]|apply H2; right; exact Hy]. Qed.

Section C.
Context {A O : Type} {EA : EqDec A}.
Implicit Types (g : graph A O spec_float).
Lemma gmap_rows_ok (F : list spec_float -> res spec_float) (row : A -> dict A spec_float) (h : A -> spec_float) l :
  (forall v, In v l -> F (dvals (row v)) = Ok (h v)) -> gmap_rows F (map (fun v => (v, row v)) l) = Ok (map (fun v => (v, h v)) l).
Proof. induction l as [|v l IH]; intros H; cbn; [reflexivity|]. rewrite H by (cbn; auto). cbn. rewrite IH by (intros; apply H; cbn; auto). reflexivity. Qed.
Lemma gcentre_spec g (F : list spec_float -> res spec_float) (f : A -> A -> spec_float) (h : A -> spec_float) : wf g -> nodes g <> [] ->
  gall_pairs_shortest_paths f64 g = gmat (nodes g) f -> (forall v, In v (nodes g) -> F (map (f v) (nodes g)) = Ok (h v) /\ f64_good (h v)) ->
  exists r, gcentre f64 F g = Ok r /\ NoDup r /\ r <> [] /\ forall x, In x r <-> In x (nodes g) /\ forall y, In y (nodes g) -> ext_le (iv (h x)) (iv (h y)).
Proof. intros W Hne E HF. unfold gcentre. rewrite E. unfold gmat.
  rewrite (gmap_rows_ok F (fun v1 => map (fun v3 => (v3, f v1 v3)) (nodes g)) h).
  2:{ intros v Hv. unfold dvals. rewrite map_map. cbn. apply HF, Hv. }
  cbn [bind]. assert (forall v, In v (nodes g) -> f64_good (h v)) as HG by (intros v Hv; apply HF, Hv). destruct (nodes g) as [|v0 vs] eqn:En; [congruence|]. cbn [map dvals snd gpy_min bind].
  fold (dvals (map (fun v => (v, h v)) vs)). assert (dvals (map (fun v => (v, h v)) vs) = map h vs) as -> by (unfold dvals; rewrite map_map; reflexivity).
  destruct (gmin_spec (map h vs) (h v0)) as [H1 H2]; [intros y Hy; change (h v0 :: map h vs) with (map h (v0 :: vs)) in Hy; apply in_map_iff in Hy; destruct Hy as (v & <- & Hv); apply HG, Hv|].
  set (m := fold_left _ (map h vs) (h v0)) in *. clearbody m. change (h v0 :: map h vs) with (map h (v0 :: vs)) in H1. apply in_map_iff in H1. destruct H1 as (vm & <- & Hvm).
  destruct (fold_min_spec (map iv (map h vs)) (iv (h v0))) as [_ H3]. rewrite <- H2 in H3. rewrite map_map in H3. change (iv (h v0) :: map (fun x => iv (h x)) vs) with (map (fun x => iv (h x)) (v0 :: vs)) in H3.
  eexists. split; [reflexivity|].
  change ((v0, h v0) :: map (fun v => (v, h v)) vs) with (map (fun v => (v, h v)) (v0 :: vs)).
  assert (map fst (filter (fun q => a_eqb f64 (snd q) (h vm)) (map (fun v => (v, h v)) (v0 :: vs))) = filter (fun v => SFeqb (h v) (h vm)) (v0 :: vs)) as ->.
  { clear. induction (v0 :: vs) as [|v l IH]; [reflexivity|]. cbn [map filter snd]. change (a_eqb f64 (h v) (h vm)) with (SFeqb (h v) (h vm)). destruct (SFeqb (h v) (h vm)); cbn [map fst]; congruence. }
  assert (forall x, In x (filter (fun v => SFeqb (h v) (h vm)) (v0 :: vs)) <-> In x (v0 :: vs) /\ forall y, In y (v0 :: vs) -> ext_le (iv (h x)) (iv (h y))) as HI.
  { intros x. rewrite filter_In. split.
    - intros [Hx Hm]. rewrite feqb_iv in Hm by auto. apply ext_eqb_eq in Hm. split; [exact Hx|]. intros y Hy. rewrite Hm. apply H3. apply in_map_iff. exists y. auto.
    - intros [Hx Hm]. split; [exact Hx|]. rewrite feqb_iv by auto. apply ext_eqb_eq. apply ext_le_antisym; [apply Hm, Hvm|]. apply H3. apply in_map_iff. exists x. auto. }
  splits; [apply NoDup_filter'; rewrite <- En; apply W| |exact HI]. intros C.
  assert (In vm (filter (fun v => SFeqb (h v) (h vm)) (v0 :: vs))) as Hin by (apply filter_In; split; [exact Hvm|rewrite feqb_iv by auto; apply ext_eqb_eq; reflexivity]).
  rewrite C in Hin. exact Hin. Qed.
End C.

(** errors of several steps *)
Lemma near_comp k m X D D' : 0 <= k -> 0 <= m -> nneg X -> near_ext k X D -> near_ext m D D' -> near_ext (k + m) X D'.
Proof. intros Hk Hm HX N1 N2. destruct (pows k Hk) as (P1 & P2 & P3 & P4). destruct (pows m Hm) as (S1 & S2 & S3 & S4).
  destruct X as [x|]; cbn [near_ext nneg] in *; [|subst D; exact N2].
  assert (forall a, 0 <= a -> a ^ (k + m) = a ^ k * a ^ m) as EP by (intros; apply Z.pow_add_r; lia).
  destruct D as [d|]; cbn [near_ext] in N2.
  - assert (0 <= d) as Hd by (assert (0 <= x * (P - 1) ^ k) by (apply Z.mul_nonneg_nonneg; lia); abs k; nia).
    destruct D' as [d'|]; cbn [near_ext]; rewrite !EP by lia.
    + abs k. set (R := P ^ m) in *. set (R1 := (P + 1) ^ m) in *. set (R2 := (P - 1) ^ m) in *. clearbody R R1 R2. split.
      * apply Z.le_trans with (d * Q * R2); nia.
      * apply Z.le_trans with (d * R1 * Q); [nia|]. apply Z.le_trans with (d * Q * R1); [lia|]. nia.
    + abs k. set (R := P ^ m) in *. set (R1 := (P + 1) ^ m) in *. set (R2 := (P - 1) ^ m) in *. clearbody R R1 R2.
      apply Z.le_trans with (d * R1 * Q); [nia|]. apply Z.le_trans with (d * Q * R1); [lia|]. nia.
  - subst D'. cbn [near_ext]. rewrite !EP by lia. abs k. set (R := P ^ m) in *. set (R1 := (P + 1) ^ m) in *. set (R2 := (P - 1) ^ m) in *. clearbody R R1 R2.
    apply Z.le_trans with (x * Q1 * R); [nia|]. assert (0 <= x * Q1) by nia. nia. Qed.
Definition esum (l : list ext) : ext := fold_right ext_add (Fin 0) l.
Lemma esum_nneg l : (forall x, In x l -> nneg x) -> nneg (esum l).
Proof. induction l as [|x l IH]; intros H; cbn; [lia|]. pose proof (H x (or_introl eq_refl)) as Hx. assert (nneg (esum l)) as Hl by (apply IH; intros; apply H; cbn; auto). unfold esum in Hl. destruct x, (fold_right ext_add (Fin 0) l); cbn in *; auto; lia. Qed.
Lemma near_add_exact k X D Y E : 0 <= k -> nneg X -> nneg Y -> near_ext k X D -> near_ext k Y E -> near_ext k (ext_add X Y) (ext_add D E).
Proof. intros Hk HX HY N1 N2. destruct (pows k Hk) as (P1 & P2 & P3 & P4).
  destruct X as [x|], Y as [y|]; cbn [near_ext nneg ext_add] in *; subst; cbn [ext_add]; [|destruct D; reflexivity|reflexivity|reflexivity].
  destruct D as [d|], E as [e|]; cbn [ext_add]; abs k; try split; nia. Qed.
Lemma near_sum k : 0 <= k -> forall Xs Ds, Forall2 (near_ext k) Xs Ds -> (forall x, In x Xs -> nneg x) -> near_ext k (esum Xs) (esum Ds).
Proof. intros Hk Xs Ds H. induction H as [|X D Xs Ds HX _ IH]; intros HN; cbn [esum fold_right].
  - cbn [near_ext]. lia.
  - apply near_add_exact; [exact Hk|apply HN; cbn; auto|apply esum_nneg; intros; apply HN; cbn; auto|exact HX|apply IH; intros; apply HN; cbn; auto]. Qed.
Lemma near_le_almost k X D Y E : 0 <= k -> near_ext k X D -> near_ext k Y E -> ext_le D E -> almost_le k X Y.
Proof. intros Hk N1 N2 L. destruct (pows k Hk) as (P1 & P2 & P3 & P4). destruct Y as [y|]; cbn [almost_le near_ext] in *; [|exact Logic.I].
  destruct E as [e|]; [|left; exact N2]. right. destruct X as [x|]; cbn [near_ext] in N1; [|subst D; exact L].
  destruct D as [d|]; [|contradiction L]. cbn [ext_le] in L. abs k. nia. Qed.
Lemma near_between k X T D E : 0 <= k -> nneg X -> near_ext k X D -> ext_le X T -> near_ext k T E -> ext_le E D -> near_ext k T D.
Proof. intros Hk HX N1 L N2 L2. destruct (pows k Hk) as (P1 & P2 & P3 & P4). destruct T as [t|]; cbn [near_ext] in *; [|subst E; destruct D; [contradiction L2|reflexivity]].
  destruct X as [x|]; [|contradiction L]. cbn [near_ext nneg ext_le] in *. destruct D as [d|], E as [e|]; cbn [near_ext ext_le] in *; try contradiction; abs k; try split; nia. Qed.

Lemma F2_map {B C D} (R : C -> D -> Prop) (u : B -> C) (w : B -> D) l : (forall x, In x l -> R (u x) (w x)) -> Forall2 R (map u l) (map w l).
Proof. induction l as [|x l IH]; intros H; cbn; constructor; [apply H|apply IH; intros; apply H]; cbn; auto. Qed.
Lemma F2_choice {B C} (R : B -> C -> Prop) (l : list B) : (forall x, In x l -> exists y, R x y) -> exists ys, Forall2 R l ys.
Proof. induction l as [|x l IH]; intros H; [exists []; constructor|]. destruct (H x) as [y Hy]; [cbn; auto|]. destruct IH as [ys Hys]; [intros; apply H; cbn; auto|]. exists (y :: ys). constructor; auto. Qed.
(** the greatest of finitely many values *)
Lemma ext_greatest (l : list ext) : l <> [] -> exists t, In t l /\ forall d, In d l -> ext_le d t.
Proof. destruct l as [|x l]; [congruence|]. intros _. destruct (fold_max_spec l x) as [H1 H2]. eauto. Qed.
Lemma esum_ge l x : (forall x, In x l -> nneg x) -> In x l -> ext_le x (esum l).
Proof. induction l as [|y l IH]; intros H Hx; [destruct Hx|]. cbn [esum fold_right]. fold (esum l). assert (nneg (esum l)) as Hl by (apply esum_nneg; intros; apply H; cbn; auto). pose proof (H y (or_introl eq_refl)) as Hy.
  destruct Hx as [->|Hx]; [destruct x, (esum l); cbn in *; auto; lia|]. specialize (IH (fun x h => H x (or_intror h)) Hx). destruct x, y, (esum l); cbn in *; auto; lia. Qed.
Lemma esum_inf l : esum l = Inf -> In Inf l.
Proof. induction l as [|y l IH]; cbn [esum fold_right]; [discriminate|]. fold (esum l). destruct y as [y|]; [|left; reflexivity]. destruct (esum l) as [z|]; [discriminate|]. intros _. right. auto. Qed.

(** the naive sum() *)
Section N.
Context (eOK : ext -> Prop) (RR : Z -> ext -> ext -> Prop) (HR : rounding eOK RR).
Lemma r_weaks k m X D : 0 <= k -> 0 <= m -> nneg X -> RR k X D -> RR (k + m) X D.
Proof. intros Hk Hm HX H. revert m Hm. apply natlike_ind; [rewrite Z.add_0_r; exact H|]. intros m Hm IH. replace (k + Z.succ m) with (k + m + 1) by lia. apply (r_weak _ _ HR); auto; lia. Qed.
Lemma fold_rounding l : forall v k X, 0 <= k -> f64_good v -> nneg X -> RR k X (iv v) -> (forall x, In x l -> f64_good x /\ eOK (iv x)) ->
  let s := fold_left (SFadd 53 1024) l v in f64_good s /\ RR (k + Z.of_nat (length l)) (ext_add X (exact_sum l)) (iv s).
Proof. induction l as [|u l IH]; intros v k X Hk Gv HX H Hl; cbn [fold_left length].
  - split; [exact Gv|]. rewrite Z.add_0_r. unfold exact_sum. cbn. destruct X; cbn; [rewrite Z.add_0_r|]; exact H.
  - destruct (Hl u (or_introl eq_refl)) as [Gu Eu]. destruct (add_spec 53 1024 ltac:(lia) ltac:(lia) v u Gv Gu) as [Gs Es].
    assert (nneg (iv u)) as Nu by (pose proof (iv_rep u Gu) as Ru; destruct (iv u); [apply Ru|exact Logic.I]).
    destruct (IH (SFadd 53 1024 v u) (k + 1) (ext_add X (iv u))) as [K1 K2]; [lia|exact Gs|destruct X, (iv u); cbn in *; auto; lia| |intros; apply Hl; cbn; auto|].
    + rewrite Es. apply (r_add _ _ HR); auto using iv_rep. pose proof (r_weaks 0 k (iv u) (iv u) (Z.le_refl 0) Hk Nu (r_base _ _ HR _ Eu)) as K. exact K.
    + split; [exact K1|]. replace (k + Z.of_nat (S (length l))) with (k + 1 + Z.of_nat (length l)) by lia.
      replace (ext_add X (exact_sum (u :: l))) with (ext_add (ext_add X (iv u)) (exact_sum l)); [exact K2|]. unfold exact_sum. cbn [map fold_right]. destruct X, (iv u), (fold_right ext_add (Fin 0) (map iv l)); cbn; auto. f_equal. lia. Qed.
End N.
