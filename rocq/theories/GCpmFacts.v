(** Proofs about critical_path over any arithmetic: the schedule satisfies the equations of the method, and where the
    arithmetic keeps the order, every value is the extreme value of a chain. *)
From Verif Require Import Prelude PreludeFacts Base BaseFacts BaseFacts2 BaseFacts3 Spec SpecFacts Loop SearchFacts BaseAlgFacts Topo TopoFacts CpmFacts GSp GCpm.

Section Eqs.
Context {A W V : Type} {EA : EqDec A} (ar : arith W) (sub : W -> W -> W).
Notation graph := (graph A W V).
Implicit Types (g : graph) (x y a b : A) (d : dict A (gtask W)) (order : list A).
Definition efd d x : W := match dget x d with Some t => gt_ef t | None => a_zero ar end.
Definition lsd d x : W := match dget x d with Some t => gt_ls t | None => a_zero ar end.
Definition cpl_of d order : W := fold_left (fun c x => if a_ltb ar (efd d x) c then c else efd d x) order (a_zero ar).
Definition early g d x (t : gtask W) : Prop :=
  node g x = Some (gt_dur t) /\ gt_es t = gmax ar (a_zero ar) (map (efd d) (nodes_to g x)) /\ gt_ef t = a_add ar (gt_es t) (gt_dur t).
Definition late g (cpl : W) d x (t : gtask W) : Prop :=
  gt_lf t = gmin ar cpl (map (lsd d) (nodes_from g x)) /\ gt_ls t = sub (gt_lf t) (gt_dur t).
Definition eqs g order (cpl : W) d : Prop :=
  dkeys d = order /\ (forall x t, dget x d = Some t -> early g d x t /\ late g cpl d x t) /\ cpl = cpl_of d order.

Lemma glookup_ok d l : (forall x, In x l -> In x (dkeys d)) ->
  exists r, glookup_all d l = Ok r /\ map gt_ef r = map (efd d) l /\ map gt_ls r = map (lsd d) l.
Proof. induction l as [|x l IH]; intros H; cbn [glookup_all map]; [exists []; auto|]. destruct (dget_key x d) as (t & Et); [apply H; cbn; auto|].
  destruct IH as (r & -> & H1 & H2); [intros; apply H; cbn; auto|]. unfold efd at 1, lsd at 1. rewrite Et. exists (t :: r). cbn [bind map]. rewrite H1, H2. auto. Qed.
Lemma cpl_ext d d' order : (forall x, In x order -> efd d x = efd d' x) -> cpl_of d order = cpl_of d' order.
Proof. unfold cpl_of. generalize (a_zero ar). induction order as [|x l IH]; intros c H; cbn [fold_left]; [reflexivity|]. rewrite (H x) by (cbn; auto). apply IH. intros; apply H; cbn; auto. Qed.

Lemma gforward g order : wf g -> (forall x, In x (nodes g) -> node g x <> None) -> NoDup order -> incl order (nodes g) -> preds_first (has_edge g) order ->
  exists d cpl, foldM (gcp_forward ar g) order ([], a_zero ar) = Ok (d, cpl) /\ dkeys d = order /\ cpl = cpl_of d order /\ forall x t, dget x d = Some t -> early g d x t.
Proof. intros W0 HP Hnd Hin Hpf.
  destruct (foldM_inv_prefix (fun pre (s : dict A (gtask W) * W) => dkeys (fst s) = pre /\ snd s = cpl_of (fst s) pre /\ forall x t, dget x (fst s) = Some t -> early g (fst s) x t)
    (gcp_forward ar g) order ([], a_zero ar)) as ([d cpl] & Hs & HI); [| |exists d, cpl; auto].
  - cbn [fst snd]. splits; [reflexivity|reflexivity|discriminate].
  - intros pre x post [d cpl] E (K1 & K2 & K3). cbn [fst snd] in *. unfold gcp_forward.
    assert (forall y, has_edge g y x -> In y pre) as Hpre by (intros y Hy; eapply Hpf; eauto).
    destruct (glookup_ok d (nodes_to g x)) as (preds & -> & HF & _); [intros y Hy; rewrite K1; apply Hpre, (In_to g y x W0), Hy|]. cbn [bind]. rewrite HF.
    assert (In x (nodes g)) as Hx by (apply Hin; rewrite E; apply in_app_iff; cbn; auto).
    destruct (node g x) as [dur|] eqn:En; [|destruct (HP x Hx En)]. eexists. split; [reflexivity|]. cbn [fst snd].
    assert (~ In x pre) as Hnx by (rewrite E in Hnd; apply NoDup_app_iff in Hnd; destruct Hnd as (_ & _ & Hd); intros C; apply (Hd x C); cbn; auto).
    set (es := gmax ar (a_zero ar) (map (efd d) (nodes_to g x))). set (T := mkGT dur es (a_add ar es dur) (a_zero ar) (a_zero ar)).
    assert (forall y, In y pre -> efd (dset x T d) y = efd d y) as Hef by (intros y Hy; unfold efd; rewrite dget_dset; destruct (eq_dec y x) as [->|]; [destruct (Hnx Hy)|reflexivity]).
    assert (efd (dset x T d) x = a_add ar es dur) as Hex by (unfold efd; rewrite dget_dset; destruct (eq_dec x x); [reflexivity|congruence]).
    splits.
    + rewrite dset_notin by (rewrite K1; exact Hnx). unfold dkeys in *. rewrite map_app, K1. reflexivity.
    + unfold cpl_of. rewrite fold_left_app. cbn [fold_left]. fold (cpl_of (dset x T d) pre). rewrite (cpl_ext (dset x T d) d pre Hef), Hex, <- K2. reflexivity.
    + intros y t Et. rewrite dget_dset in Et. assert (forall z, In z pre \/ z = x -> map (efd (dset x T d)) (nodes_to g z) = map (efd d) (nodes_to g z)) as HM.
      { intros z Hz. apply map_ext_in. intros u Hu. apply Hef. apply (In_to g u z W0) in Hu. destruct Hz as [Hz| ->]; [|auto]. apply in_split in Hz. destruct Hz as (l1 & l2 & ->).
        apply in_app_iff. left. eapply (Hpf l1 z (l2 ++ x :: post)); [rewrite E, <- app_assoc; reflexivity|exact Hu]. }
      destruct (eq_dec y x) as [->|Hyx].
      * injection Et as <-. unfold early. rewrite (HM x) by auto. cbn [T gt_dur gt_es gt_ef]. splits; auto.
      * unfold early. rewrite (HM y) by (left; rewrite <- K1; eapply dget_Some_key; eauto). apply K3, Et. Qed.

Lemma gbackward g order d0 cpl : wf g -> Permutation order (nodes g) -> preds_first (has_edge g) order ->
  dkeys d0 = order -> cpl = cpl_of d0 order -> (forall x t, dget x d0 = Some t -> early g d0 x t) ->
  exists d, foldM (gcp_backward ar sub g cpl) (rev order) d0 = Ok d /\ eqs g order cpl d.
Proof. intros W0 Hperm Hpf K1 K2 K3.
  assert (NoDup order) as Hnd by (eapply Permutation_NoDup; [symmetry; exact Hperm|apply W0]).
  assert (forall x, In x order <-> In x (nodes g)) as Ho by (intros x; split; apply Permutation_in; [|symmetry]; exact Hperm).
  destruct (foldM_inv_prefix (fun pre d => dkeys d = order /\ (forall x, efd d x = efd d0 x) /\ (forall x t, dget x d = Some t -> early g d0 x t) /\
      (forall x t, In x pre -> dget x d = Some t -> late g cpl d x t)) (gcp_backward ar sub g cpl) (rev order) d0) as (d & Hd & B1 & B2 & B3 & B4).
  - splits; auto. intros x t [].
  - intros pre x post d E (B1 & B2 & B3 & B4). unfold gcp_backward.
    assert (forall y, In y (nodes g) -> In y (dkeys d)) as Hk by (intros y Hy; rewrite B1; apply Ho, Hy).
    assert (forall a b, has_edge g a b -> In b order) as Hin by (intros a b Hab; apply Ho, (has_edge_nodes g a b W0 Hab)).
    pose proof (succs_later (has_edge g) order pre x post Hnd Hpf Hin E) as Hpre.
    destruct (glookup_ok d (nodes_from g x)) as (succs & -> & _ & HF); [intros y Hy; apply Hk, (has_edge_nodes g x y W0), (In_from g x y W0), Hy|]. cbn [bind]. rewrite HF.
    assert (In x (nodes g)) as Hx by (apply Ho, in_rev; rewrite E; apply in_app_iff; cbn; auto).
    destruct (dget_key x d (Hk x Hx)) as (t & Et). rewrite Et. eexists. split; [reflexivity|].
    set (lf := gmin ar cpl (map (lsd d) (nodes_from g x))). set (T := mkGT (gt_dur t) (gt_es t) (gt_ef t) (sub lf (gt_dur t)) lf).
    assert (~ In x pre) as Hnx. { apply NoDup_rev in Hnd. rewrite E in Hnd. apply NoDup_app_iff in Hnd. destruct Hnd as (_ & _ & Hd). intros C. apply (Hd x C). cbn; auto. }
    assert (forall y, In y pre -> lsd (dset x T d) y = lsd d y) as Hls by (intros y Hy; unfold lsd; rewrite dget_dset; destruct (eq_dec y x) as [->|]; [destruct (Hnx Hy)|reflexivity]).
    assert (forall z, In z pre \/ z = x -> map (lsd (dset x T d)) (nodes_from g z) = map (lsd d) (nodes_from g z)) as HM.
    { intros z Hz. apply map_ext_in. intros u Hu. apply Hls. apply (In_from g z u W0) in Hu. destruct Hz as [Hz| ->]; [|auto]. apply in_split in Hz. destruct Hz as (l1 & l2 & ->).
      apply in_app_iff. left. eapply (succs_later (has_edge g) order l1 z (l2 ++ x :: post) Hnd Hpf Hin); [rewrite E, <- app_assoc; reflexivity|exact Hu]. }
    splits.
    + rewrite dkeys_dset_in by (apply Hk, Hx). exact B1.
    + intros y. rewrite <- B2. unfold efd. rewrite dget_dset. destruct (eq_dec y x) as [->|]; [rewrite Et; reflexivity|reflexivity].
    + intros y u. rewrite dget_dset. destruct (eq_dec y x) as [->|]; [|apply B3]. intros Eu. injection Eu as <-. exact (B3 _ _ Et).
    + intros y u Hy. rewrite dget_dset. destruct (eq_dec y x) as [->|Hne].
      * intros Eu. injection Eu as <-. unfold late. rewrite (HM x) by auto. cbn [T gt_dur gt_lf gt_ls]. auto.
      * intros Eu. apply in_app_iff in Hy. destruct Hy as [Hy|[<-|[]]]; [|congruence]. unfold late. rewrite (HM y) by auto. apply B4; auto.
  - exists d. split; [exact Hd|]. hnf. splits; [exact B1| |rewrite K2; apply cpl_ext; intros; symmetry; apply B2].
    intros x t Et. split.
    + unfold early. rewrite (map_ext_in (efd d) (efd d0)) by auto. apply B3, Et.
    + apply B4; [|exact Et]. apply -> in_rev. rewrite <- B1. eapply dget_Some_key; eauto. Qed.

Theorem gcritical_path_eqs cl srt g : wf g -> (forall l, Permutation (srt l) l) -> (forall x, In x (nodes g) -> node g x <> None) -> acyclic (has_edge g) ->
  exists cpl d order, returns (fun n => gcritical_path_of ar sub cl srt n g) (Ok (cpl, d)) /\ eqs g order cpl d /\
    NoDup order /\ Permutation order (nodes g) /\ preds_first (has_edge g) order.
Proof. intros W0 Hs HP Hac. destruct (topological_sort_of_spec cl srt g W0 Hs) as (order & err & Hr & Hnd & Hin & Hpf & Hc).
  destruct Hc as [(-> & _ & Hperm)|(_ & x & _ & _ & Hx)]; [|destruct (Hac x Hx)].
  destruct (gforward g order W0 HP Hnd Hin Hpf) as (d0 & cpl & EF & F1 & F2 & F3). destruct (gbackward g order d0 cpl W0 Hperm Hpf F1 F2 F3) as (d & EB & HE).
  exists cpl, d, order. splits; auto. unfold gcritical_path_of. refine (returns_bind _ _ (order, None) (Ok (cpl, d)) Hr _). cbn [fst snd]. rewrite EF. cbn [bind fst snd]. rewrite EB. apply returns_const. discriminate. Qed.
Theorem gcritical_path_cyclic cl srt g x : wf g -> (forall l, Permutation (srt l) l) -> reach1 (has_edge g) x x ->
  returns (fun n => gcritical_path_of ar sub cl srt n g) (Err AttributeError).
Proof. intros W0 Hs Hx. destruct (topological_sort_of_spec cl srt g W0 Hs) as (order & err & Hr & Hnd & Hin & Hpf & Hc).
  destruct Hc as [(_ & Hac & _)|(-> & _)]; [destruct (Hac x Hx)|].
  unfold gcritical_path_of. refine (returns_bind _ _ (order, Some AttributeError) (Err AttributeError) Hr _). apply returns_const. discriminate. Qed.
End Eqs.

(** ** values along chains *)
Section Chain.
Context {A W : Type} (lt : W -> W -> bool) (op : W -> W -> W) (start : W) (good dgood : W -> Prop).
(** [lt x y = false]: x is not before y, so x is at least as extreme as y *)
Definition gbest (s : W) (l : list W) : W := match l with [] => s | x :: t => fold_left (fun m y => if lt m y then y else m) t x end.
Record chain_laws : Prop := mkCL {
  c_start : good start;
  c_op : forall x w, good x -> dgood w -> good (op x w);
  c_asym : forall x y, good x -> good y -> lt x y = true -> lt y x = false;
  c_trans : forall x y z, good x -> good y -> good z -> lt y x = false -> lt z y = false -> lt z x = false;
  c_mono : forall x y w, good x -> good y -> dgood w -> lt y x = false -> lt (op y w) (op x w) = false;
  c_infl : forall x w, good x -> dgood w -> lt (op x w) x = false }.
Context (CL : chain_laws).
Lemma c_refl x : good x -> lt x x = false.
Proof. intros H. destruct (lt x x) eqn:E; [|reflexivity]. pose proof (c_asym CL x x H H E). congruence. Qed.
Lemma fold_best t : forall x, (forall y, In y (x :: t) -> good y) ->
  In (fold_left (fun m y => if lt m y then y else m) t x) (x :: t) /\ forall y, In y (x :: t) -> lt (fold_left (fun m y => if lt m y then y else m) t x) y = false.
Proof. induction t as [|u t IH]; intros x G; cbn [fold_left].
  - split; [cbn; auto|]. intros y [<-|[]]. apply c_refl, G. cbn; auto.
  - destruct (IH (if lt x u then u else x)) as [H1 H2]; [intros y [<-|Hy]; [destruct (lt x u); apply G; cbn; auto|apply G; cbn; auto]|]. set (r := fold_left _ _ _) in *. split.
    + destruct H1 as [H1|H1]; [|cbn; auto]. rewrite <- H1. destruct (lt x u); cbn; auto.
    + assert (good x) as Gx by (apply G; cbn; auto). assert (good u) as Gu by (apply G; cbn; auto).
      assert (good r) as Gr by (destruct H1 as [H1|H1]; [rewrite <- H1; destruct (lt x u); auto|apply G; cbn; auto]).
      pose proof (H2 _ (or_introl eq_refl)) as H3. intros y [<-|[<-|Hy]]; [| |apply H2; cbn; auto]; destruct (lt x u) eqn:E; try exact H3.
      * apply (c_trans CL) with u; auto. apply (c_asym CL); auto.
      * apply (c_trans CL) with x; auto. Qed.
Lemma gbest_spec s l : (forall y, In y l -> good y) -> (l = [] /\ gbest s l = s) \/ (In (gbest s l) l /\ forall y, In y l -> lt (gbest s l) y = false).
Proof. destruct l as [|x t]; [left; auto|right]. apply fold_best, H. Qed.

Context (R : A -> A -> Prop) (order : list A) (nbrs : A -> list A) (val pre dur : A -> W).
Definition csum (p : list A) : W := fold_left (fun s z => op s (dur z)) p start.
Lemma csum_snoc p z : csum (p ++ [z]) = op (csum p) (dur z).
Proof. unfold csum. rewrite fold_left_app. reflexivity. Qed.
Context (HN : forall x y, In y (nbrs x) <-> R y x) (Hpf : preds_first R order).
Context (Hpre : forall x, In x order -> pre x = gbest start (map val (nbrs x))) (Hval : forall x, In x order -> val x = op (pre x) (dur x)) (Hdur : forall x, In x order -> dgood (dur x)).
Definition chain_post x : Prop :=
  good (pre x) /\ good (val x) /\ lt (pre x) start = false /\
  ((forall y, ~ R y x) /\ pre x = start \/ exists y, R y x /\ pre x = val y) /\
  (forall y, R y x -> lt (pre x) (val y) = false) /\
  (exists a p, path R a p x /\ val x = csum p) /\ (forall a p, path R a p x -> lt (val x) (csum p) = false).
Lemma csum_good p : (forall z, In z p -> In z order) -> good (csum p).
Proof. induction p as [|z p IH] using rev_ind; intros H; [apply CL|]. rewrite csum_snoc. apply (c_op CL); [apply IH; intros; apply H, in_app_iff; auto|]. apply Hdur, H, in_app_iff. cbn; auto. Qed.
Lemma chain_before a p y : In y order -> path R a p y -> forall z, In z p -> In z order.
Proof. intros Hy Hp. remember y as y0 in Hp. revert y Hy Heqy0. pattern p. revert y0 Hp. assert (forall n p y0, length p = n -> path R a p y0 -> In y0 order -> forall z, In z p -> In z order) as K.
  { induction n as [|n IH]; intros q y0 L Hq Hy z Hz; [destruct q; [destruct Hz|discriminate]|].
    destruct (exists_last (l := q)) as (q' & c & ->); [destruct q; [discriminate|discriminate]|]. destruct q' as [|h q'].
    - cbn in Hz. destruct Hz as [<-|[]]. apply path_inv1 in Hq. destruct Hq as [_ <-]. exact Hy.
    - apply path_snoc_inv in Hq; [|discriminate]. destruct Hq as [-> (u & Hq & Hu)]. apply in_app_iff in Hz. destruct Hz as [Hz|[<-|[]]]; [|exact Hy].
      rewrite app_length in L. cbn [length] in L. apply (IH (h :: q') u); auto; [cbn [length]; lia|]. apply in_split in Hy. destruct Hy as (l1 & l2 & E). rewrite E. apply in_app_iff. left. eapply Hpf; eauto. }
  intros y0 Hp y Hy ->. eapply K; eauto. Qed.
Theorem chain_all x : In x order -> chain_post x.
Proof. assert (forall n l1 x l2, length l1 <= n -> order = l1 ++ x :: l2 -> chain_post x) as K.
  2:{ intros Hx. apply in_split in Hx. destruct Hx as (l1 & l2 & E). eapply K; eauto. }
  induction n as [n IH] using lt_wf_ind. intros l1 z l2 L E. assert (In z order) as Hz by (rewrite E; apply in_app_iff; cbn; auto).
  assert (forall y, R y z -> chain_post y /\ In y order) as HP.
  { intros y Hy. pose proof (Hpf _ _ _ E y Hy) as Hl. apply in_split in Hl. destruct Hl as (k1 & k2 & El). rewrite El, app_length in L. cbn [length] in L. assert (order = k1 ++ y :: (k2 ++ z :: l2)) as Eo by (rewrite E, El, <- app_assoc; reflexivity).
    split; [|rewrite Eo; apply in_app_iff; cbn; auto]. apply (IH (length k1)) with (l1 := k1) (l2 := k2 ++ z :: l2); [lia|lia|exact Eo]. }
  assert (forall v, In v (map val (nbrs z)) -> good v) as HG.
  { intros v Hv. apply in_map_iff in Hv. destruct Hv as (y & <- & Hy). apply HN, HP in Hy. apply Hy. }
  assert (((forall y, ~ R y z) /\ pre z = start \/ exists y, R y z /\ pre z = val y) /\ (forall y, R y z -> lt (pre z) (val y) = false)) as [H1 H2].
  { rewrite (Hpre z Hz). destruct (gbest_spec start _ HG) as [[E1 E2]|[E1 E2]].
    - apply map_eq_nil in E1. rewrite E2. assert (forall y, ~ R y z) as No by (intros y Hy; apply HN in Hy; rewrite E1 in Hy; destruct Hy). split; [left; auto|]. intros y Hy. destruct (No y Hy).
    - split; [right|].
      + apply in_map_iff in E1. destruct E1 as (y & E1 & Hy). exists y. split; [apply HN, Hy|congruence].
      + intros y Hy. apply E2, in_map, HN, Hy. }
  assert (good (pre z)) as G1 by (destruct H1 as [[_ ->]|(y & Hy & ->)]; [apply CL|apply (HP y Hy)]).
  assert (good (val z)) as G2 by (rewrite (Hval z Hz); apply (c_op CL); auto).
  assert (lt (pre z) start = false) as H3.
  { destruct H1 as [[_ ->]|(y & Hy & ->)]; [apply c_refl, CL|]. destruct (HP y Hy) as [(Y1 & Y2 & Y3 & _) Yo]. rewrite (Hval y Yo). apply (c_trans CL) with (pre y); auto; [apply CL|apply (c_op CL); auto|apply (c_infl CL); auto]. }
  hnf. splits; auto.
  - destruct H1 as [[_ E1]|(y & Hy & E1)].
    + exists z, [z]. split; [constructor|]. rewrite (Hval z Hz), E1. reflexivity.
    + destruct (HP y Hy) as [(_ & _ & _ & _ & _ & (a & p & Hp & Ep) & _) _]. exists a, (p ++ [z]). split; [eapply path_snoc; eauto|]. rewrite csum_snoc, (Hval z Hz), E1, Ep. reflexivity.
  - intros a p Hp. destruct (exists_last (l := p)) as (q & c & ->); [destruct (path_head _ _ _ _ Hp) as (t & ->); discriminate|].
    destruct q as [|h q].
    + apply path_inv1 in Hp. destruct Hp as [-> ->]. cbn [app]. change (csum [c]) with (op start (dur c)). rewrite (Hval c Hz). apply (c_mono CL); auto. all: try apply CL.
    + apply path_snoc_inv in Hp; [|discriminate]. destruct Hp as [-> (y & Hp & Hy)]. rewrite csum_snoc, (Hval c Hz). destruct (HP y Hy) as [(_ & Y2 & _ & _ & _ & _ & Y7) Yo].
      assert (good (csum (h :: q))) as Gc by (apply csum_good; eapply chain_before; eauto).
      apply (c_mono CL); auto. apply (c_trans CL) with (val y); auto. apply (Y7 a), Hp. Qed.
End Chain.
