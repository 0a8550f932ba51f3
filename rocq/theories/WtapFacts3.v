(** Proofs about wtap_solver: local optimality, bounds, errors *)
From Coq Require Import QArith Qcanon Sorted.
From Verif Require Import Prelude PreludeFacts Base BaseFacts BaseFacts2 BaseFacts3 Spec SpecFacts Loop SearchFacts BaseAlgFacts MaxFlowFacts Jam JamFacts3 AssignFacts WtapSpec Wtap WtapFacts WtapFacts2.
Local Open Scope Qc_scope.

Lemma foldM_snoc {X S} (f : S -> X -> res S) l x : forall s s2, foldM f (l ++ [x]) s = Ok s2 -> exists s1, foldM f l s = Ok s1 /\ f s1 x = Ok s2.
Proof. induction l as [|y l IH]; cbn; intros s s2 H.
  - exists s. split; [reflexivity|]. destruct (f s x) as [s'| |]; cbn in H; congruence.
  - destruct (f s y) as [s'| |] eqn:E; cbn in *; try discriminate. apply IH, H. Qed.

Section Facts3.
Context {A O : Type} {EA : EqDec A}.
Notation graph := (graph A O Qc).
Implicit Types (asg prob : graph).

(** ** bounds *)
Definition proper prob (tv : dict A Qc) : Prop := (forall x y p, edge prob x y = Some p -> 0 <= p /\ p <= 1) /\ (forall t v, In (t, v) tv -> 0 <= v).
Lemma survives_range (m : list (A * A * Qc)) t : (forall e, In e m -> 0 <= snd e /\ snd e <= 1) -> 0 <= survives m t /\ survives m t <= 1.
Proof. induction m as [|[[w t'] p] m IH]; intros H; cbn [survives]; [split; [discriminate|apply Qcle_refl]|]. destruct IH as [H1 H2]; [intros; apply H; right; assumption|]. destruct (eq_dec t' t); [|auto].
  destruct (H _ (or_introl eq_refl)) as [P1 P2]. cbn in P1, P2. assert (0 <= 1 - p) as Q1. { replace (1 - p) with (1 + - p) by ring. apply -> Qcle_minus_iff. exact P2. } split.
  - replace (Q2Qc 0) with (0 * survives m t) by ring. apply Qcmult_le_compat_r; assumption.
  - apply (Qcle_trans _ (1 * survives m t)); [|replace (1 * survives m t) with (survives m t) by ring; exact H2]. apply Qcmult_le_compat_r; [|exact H1]. apply Qcle_minus_iff. replace (1 + - (1 - p)) with p by ring. exact P1. Qed.
Lemma value_le (tv : list (A * Qc)) (m : list (A * A * Qc)) : (forall e, In e m -> 0 <= snd e /\ snd e <= 1) -> (forall t v, In (t, v) tv -> 0 <= v) ->
  0 <= surviving_value tv m /\ surviving_value tv m <= qsum (map snd tv).
Proof. intros Hm. induction tv as [|[t v] tv IH]; intros H; cbn [surviving_value map snd]; [split; apply Qcle_refl|]. rewrite qsum_cons. destruct IH as [H1 H2]; [intros t' v' K; apply (H t' v'); right; exact K|]. destruct (survives_range m t Hm) as [S1 S2]. assert (0 <= v) as Hv by (apply (H t v); left; reflexivity). split.
  - apply add_nonneg; [|exact H1]. rewrite Qcmult_comm. replace (Q2Qc 0) with (0 * v) by ring. apply Qcmult_le_compat_r; assumption.
  - apply Qcplus_le_compat; [|exact H2]. rewrite Qcmult_comm. apply (Qcle_trans _ (1 * v)); [apply Qcmult_le_compat_r; assumption|]. replace (1 * v) with v by ring. apply Qcle_refl. Qed.

Section S.
Context (prob : graph) (Wp : wf prob) (tv : dict A Qc) (Htv : NoDup (dkeys tv)) (weapons : list A).
Context (Ht : forall w t p, In w weapons -> edge prob w t = Some p -> In t (dkeys tv)) (Hw : forall w, In w weapons -> exists t, has_edge prob w t).
Context (srt : list (Qc * A) -> list (Qc * A)) (Hsrt : forall l, Permutation (srt l) l /\ StronglySorted (fun x y => fst x <= fst y) (srt l)).
Notation Inv := (Inv prob weapons).
Notation val := (val tv).
Notation full := (full weapons).

Lemma Inv_engages asg : Inv asg -> full asg -> engages_all prob weapons (edges asg).
Proof. intros (R & H1 & H2) Hf. pose proof (reachable_wf _ R) as W. unfold engages_all. splits.
  - pose proof (NoDup_edges asg W) as HN. assert (forall e, In e (edges asg) -> edge asg (fst (fst e)) (snd (fst e)) = Some (snd e)) as He by (intros [[x y] v] H; apply (In_edges asg x y v W), H).
    clear - HN He H2. induction (edges asg) as [|[[x y] v] l IH]; cbn in *; [constructor|]. apply NoDup_cons_iff in HN. destruct HN as [N1 N2]. constructor; [|apply IH; auto].
    intros C. apply in_map_iff in C. destruct C as ([[x' y'] v'] & E & C). cbn in E. subst x'. apply N1. apply in_map_iff. exists (x, y', v'). split; [|exact C]. unfold ekey. cbn. f_equal. apply (H2 x); eexists; [apply (He _ (or_intror C))|apply (He _ (or_introl eq_refl))].
  - intros w. split.
    + intros H. destruct (Hf w H) as [t [p He]]. apply in_map_iff. exists (w, t, p). split; [reflexivity|]. apply (In_edges asg w t p W), He.
    + intros H. apply in_map_iff in H. destruct H as ([[x t] p] & E & H). cbn in E. subst x. apply (In_edges asg w t p W) in H. apply (H1 _ _ _ H).
  - intros w t p H. apply (In_edges asg w t p W) in H. apply (H1 _ _ _ H). Qed.
Lemma rd_redirected asg asg' w t p : wf asg -> wf asg' -> rd asg w t p asg' -> redirected (edges asg) w t p (edges asg').
Proof. intros W W' H. split; [apply (NoDup_map_inv ekey), NoDup_edges, W'|]. intros x y q. rewrite (In_edges asg' x y q W'), (In_edges asg x y q W), H. destruct (eq_dec x w) as [->|Hx]; [destruct (eq_dec y t) as [->|Hy]|]; split; intros K.
  - injection K as <-. auto.
  - destruct K as [(_ & _ & ->)|[C _]]; congruence.
  - discriminate.
  - destruct K as [(_ & C & _)|[C _]]; congruence.
  - right. auto.
  - destruct K as [(C & _)|[_ K]]; [congruence|exact K]. Qed.
Lemma redirected_fun (m : list (A * A * Qc)) w t p m1 m2 : redirected m w t p m1 -> redirected m w t p m2 -> Permutation m1 m2.
Proof. intros [N1 H1] [N2 H2]. apply NoDup_Permutation; auto. intros [[x y] q]. rewrite H1, H2. reflexivity. Qed.
Lemma redirected_val asg w t p m : Inv asg -> In w weapons -> edge prob w t = Some p -> redirected (edges asg) w t p m -> exists a, Inv a /\ rd asg w t p a /\ surviving_value tv m = val a.
Proof. intros HI Hww Hp Hm. destruct (engage_spec prob weapons asg w t p HI Hww Hp) as (a & _ & I1 & Hr). exists a. splits; auto. apply value_perm. apply (redirected_fun (edges asg) w t p); [exact Hm|]. apply rd_redirected; [apply reachable_wf, HI|apply reachable_wf, I1|exact Hr]. Qed.

(** the last weapon in the list cannot do better *)
Lemma last_best r ws w : weapons = ws ++ [w] -> final prob tv weapons srt r -> forall c asg, r = Ok (c, asg) ->
  forall t p m, edge prob w t = Some p -> redirected (edges asg) w t p m -> c <= surviving_value tv m.
Proof. intros Ew ([[s1 s2] s3] & a & c' & i & (HI & Hk & Hnd & Hnn & Hcase) & E & -> & _) c asg Q. injection Q as <- <-. intros t p m Hp Hm. rewrite Ew in E at 1. apply foldM_snoc in E. destruct E as ([[b1 b2] b3] & E1 & E2).
  assert (In w weapons) as Hww by (rewrite Ew; apply in_app_iff; right; left; reflexivity).
  destruct (pass_spec prob Wp tv Htv weapons Ht Hw srt Hsrt ws s1 s2 s3) as (a' & d' & i' & E' & I1 & _); auto. { intros x Hx. rewrite Ew. apply in_app_iff. left. exact Hx. }
  rewrite E1 in E'. injection E' as <- <- <-. destruct (weapon_spec prob tv Htv weapons Ht srt Hsrt b1 b2 b3 w Wp I1 Hww (Hw w Hww)) as (a2 & t2 & p2 & E3 & I2 & Hp2 & Hr2 & Hbest). rewrite E2 in E3. injection E3 as -> -> _.
  destruct (redirected_val a2 w t p m I2 Hww Hp Hm) as (a3 & I3 & Hr3 & ->). apply (Hbest t p a3 Hp); [apply reachable_wf, I3|]. intros x y. rewrite Hr3, Hr2. destruct (eq_dec x w); reflexivity. Qed.

(** without ties a pass without improvements changes nothing *)
Definition no_ties : Prop := forall m w t1 p1 t2 p2 m1 m2, engages_all prob weapons m -> In w weapons -> t1 <> t2 ->
  edge prob w t1 = Some p1 -> edge prob w t2 = Some p2 -> redirected m w t1 p1 m1 -> redirected m w t2 p2 m2 -> surviving_value tv m1 <> surviving_value tv m2.
Lemma still_pass : no_ties -> forall ws asg imp asg' cur' imp', incl ws weapons -> NoDup ws -> Inv asg -> full asg -> (forall x, In x (map snd imp) -> 0 <= x) ->
  foldM (one_weapon srt prob tv) ws (asg, val asg, imp) = Ok (asg', cur', imp') -> (forall w, In w ws -> dget w imp' = Some 0) ->
  (forall x y, edge asg' x y = edge asg x y) /\ forall w t p a, In w ws -> edge prob w t = Some p -> Inv a -> rd asg w t p a -> val asg <= val a.
Proof. intros HT. induction ws as [|w ws IH]; intros asg imp asg' cur' imp' Hi HN HI Hf Hnn E Hz; cbn [foldM] in E.
  - injection E as <- <- <-. split; [reflexivity|intros w t p a []].
  - assert (In w weapons) as Hww by (apply Hi; left; reflexivity). apply NoDup_cons_iff in HN. destruct HN as [Hnw HN].
    destruct (weapon_spec prob tv Htv weapons Ht srt Hsrt asg (val asg) imp w Wp HI Hww (Hw w Hww)) as (a1 & t & p & E1 & I1 & Hp & Hr & Hbest). rewrite E1 in E. cbn [bind] in E.
    destruct (Hf w Hww) as [t0 [p0 H0]]. assert (edge prob w t0 = Some p0) as Hp0 by (apply HI, H0). pose proof (rd_self prob weapons asg w t0 p0 HI H0) as Hself.
    assert (incl ws weapons) as Hi' by (intros x Hx; apply Hi; right; exact Hx).
    assert (forall x, In x (map snd (dset w (max0 (val asg - val a1)) imp)) -> 0 <= x) as Hnn'.
    { intros x Hx. apply in_map_iff in Hx. destruct Hx as ([k v] & <- & Hx). cbn. clear - Hx Hnn. induction imp as [|[k0 v0] imp IH]; cbn in Hx.
      * destruct Hx as [Q|[]]. injection Q as <- <-. apply max0_nonneg.
      * destruct (eq_dec w k0); (destruct Hx as [Q|Hx]; [injection Q as <- <-|]); auto using max0_nonneg.
        -- apply Hnn. right. apply (in_map snd) in Hx. exact Hx.
        -- apply Hnn. left. reflexivity.
        -- apply IH; [|exact Hx]. intros x Hx'. apply Hnn. right. exact Hx'. }
    assert (max0 (val asg - val a1) = 0) as Hm0.
    { destruct (pass_spec prob Wp tv Htv weapons Ht Hw srt Hsrt ws a1 (val a1) (dset w (max0 (val asg - val a1)) imp) Hi' I1 Hnn') as (a2 & c2 & i2 & E2 & _ & _ & _ & _ & _ & _ & K & _). rewrite E in E2. injection E2 as <- <- <-.
      specialize (K w Hnw). rewrite (Hz w (or_introl eq_refl)), dget_dset in K. destruct (eq_dec w w); [|congruence]. injection K as K. symmetry. exact K. }
    assert (val a1 = val asg) as Ev.
    { destruct (Qc_eq_dec (val a1) (val asg)) as [|Hne]; [assumption|]. exfalso. assert (val a1 < val asg) as Hlt by (apply Qc_le_lt_eq; [|exact Hne]; apply (Hbest t0 p0 asg Hp0); [apply reachable_wf, HI|exact Hself]).
      apply sub_pos, max0_pos in Hlt. contradiction. }
    assert (t = t0) as ->.
    { destruct (eq_dec t t0) as [|Hne]; [assumption|]. exfalso. apply (HT (edges asg) w t p t0 p0 (edges a1) (edges asg)); auto.
      - apply Inv_engages; assumption.
      - apply rd_redirected; [apply reachable_wf, HI|apply reachable_wf, I1|exact Hr].
      - apply rd_redirected; [apply reachable_wf, HI|apply reachable_wf, HI|exact Hself]. }
    assert (forall x y, edge a1 x y = edge asg x y) as Ee. { intros x y. rewrite Hr, Hself. replace p with p0 by congruence. reflexivity. }
    rewrite <- Ev in E.
    destruct (IH a1 (dset w (max0 (val a1 - val a1)) imp) asg' cur' imp') as [K1 K2]; auto.
    + intros x Hx. destruct (Hf x Hx) as [y [q H]]. exists y, q. rewrite Ee. exact H.
    + rewrite <- Ev in Hnn'. exact Hnn'.
    + intros x Hx. apply Hz. right. exact Hx.
    + split; [intros x y; rewrite K1; apply Ee|]. intros x t' p' a [<-|Hx] Hp' Ia Hra.
      * rewrite <- Ev. apply (Hbest t' p' a Hp'); [apply reachable_wf, Ia|exact Hra].
      * rewrite <- Ev. apply (K2 x t' p' a Hx Hp' Ia). intros u v. rewrite Hra. destruct (eq_dec u x); [reflexivity|]. symmetry. apply Ee. Qed.
Lemma all_best r : no_ties -> proper prob tv -> NoDup weapons -> weapons <> [] -> final prob tv weapons srt r -> forall c asg, r = Ok (c, asg) ->
  forall w t p m, In w weapons -> edge prob w t = Some p -> redirected (edges asg) w t p m -> c <= surviving_value tv m.
Proof. intros HT [HP1 HP2] HN Hne Hfin. pose proof Hfin as ([[s1 s2] s3] & a & c' & i & (HI & Hk & Hnd & Hnn & Hcase) & E & -> & Hz). intros c asg Q. injection Q as <- <-. intros w t p m Hww Hp Hm.
  destruct (pass_spec prob Wp tv Htv weapons Ht Hw srt Hsrt weapons s1 s2 s3 (fun x H => H) HI Hnn) as (a1 & c1 & i1 & E1 & I1 & K1 & K2 & K3 & K4 & K5 & K6 & K7). rewrite E in E1. injection E1 as <- <- <-.
  assert (forall x, In x weapons -> dget x i = Some 0) as Hzero.
  { intros x Hx. assert (In x (dkeys i)) as Hxi by (apply K3; auto). destruct (dget_key _ _ Hxi) as [v Hv]. rewrite Hv. f_equal. apply (qsum_zero (map snd i) K5 Hz). apply dget_In in Hv. apply (in_map snd) in Hv. exact Hv. }
  destruct Hcase as [[Hf ->]|(-> & -> & ->)].
  - destruct (still_pass HT weapons s1 s3 a c' i (fun x H => H) HN HI Hf Hnn E Hzero) as [Ee Hb]. rewrite (K2 (or_introl Hne)). destruct (redirected_val a w t p m I1 Hww Hp Hm) as (a3 & I3 & Hr3 & ->).
    rewrite (val_ext tv a s1); [|apply reachable_wf, I1|apply reachable_wf, HI|exact Ee]. apply (Hb w t p a3 Hww Hp I3). intros x y. rewrite Hr3. destruct (eq_dec x w); [reflexivity|apply Ee].
  - exfalso. clear m Hm t p Hp w Hww. assert (exists w ws, weapons = w :: ws) as (w & ws & Ews) by (destruct weapons as [|w ws]; [congruence|eauto]). assert (In w weapons) as Hww by (rewrite Ews; left; reflexivity). rewrite Ews in HN at 1. apply NoDup_cons_iff in HN. destruct HN as [Hnw HN].
    rewrite Ews in E. cbn [foldM] in E.
    destruct (weapon_spec prob tv Htv weapons Ht srt Hsrt empty_graph (qsum (map snd tv) + 1) [] w Wp HI Hww (Hw w Hww)) as (b & t & p & E1 & Ib & _). rewrite E1 in E. cbn [bind] in E.
    destruct (pass_spec prob Wp tv Htv weapons Ht Hw srt Hsrt ws b (val b) (dset w (max0 (qsum (map snd tv) + 1 - val b)) [])) as (a2 & c2 & i2 & E2 & _ & _ & _ & _ & _ & _ & K & _).
    + intros x Hx. rewrite Ews. right. exact Hx.
    + exact Ib.
    + intros x [<-|[]]. apply max0_nonneg.
    + rewrite E in E2. injection E2 as <- <- <-. specialize (K w Hnw). rewrite (Hzero w Hww), dget_dset in K. destruct (eq_dec w w); [|congruence]. injection K as K. assert (max0 (qsum (map snd tv) + 1 - val b) <> 0) as Hpos; [|congruence].
      apply max0_pos, sub_pos. destruct (value_le tv (edges b)) as [_ Hle].
      * intros [[x y] q] Hi. destruct Ib as (Rb & H1 & _). apply (HP1 x y). apply H1. apply (In_edges b x y q (reachable_wf _ Rb)), Hi.
      * exact HP2.
      * apply (Qcle_lt_trans _ (qsum (map snd tv))); [exact Hle|]. apply Qclt_minus_iff. replace (qsum (map snd tv) + 1 + - qsum (map snd tv)) with 1 by ring. reflexivity. Qed.
End S.
End Facts3.
