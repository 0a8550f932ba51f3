(** Proofs about wtap_solver: one weapon *)
From Coq Require Import QArith Qcanon Sorted.
From Verif Require Import Prelude PreludeFacts Base BaseFacts BaseFacts2 BaseFacts3 Spec SpecFacts Loop SearchFacts BaseAlgFacts MaxFlowFacts WtapSpec Wtap.
Local Open Scope Qc_scope.

Section Facts.
Context {A O : Type} {EA : EqDec A}.
Notation graph := (graph A O Qc).

(** ** The surviving value *)
Lemma survives_perm m m' t : Permutation m m' -> survives m t = survives m' t.
Proof. intros H. induction H as [|[[w t'] p] m m' _ IH|[[w t'] p] [[w2 t2] p2] m|]; cbn.
  - reflexivity.
  - rewrite IH. reflexivity.
  - destruct (eq_dec t2 t), (eq_dec t' t); ring.
  - congruence. Qed.
Lemma value_perm tv m m' : Permutation m m' -> surviving_value tv m = surviving_value tv m'.
Proof. intros H. induction tv as [|[t v] tv IH]; cbn; [reflexivity|]. rewrite IH, (survives_perm m m' t H). reflexivity. Qed.
Lemma edges_perm (a b : graph) : wf a -> wf b -> (forall x y, edge a x y = edge b x y) -> Permutation (edges a) (edges b).
Proof. intros Wa Wb H. apply NoDup_Permutation; [apply (NoDup_map_inv ekey), NoDup_edges, Wa|apply (NoDup_map_inv ekey), NoDup_edges, Wb|].
  intros [[x y] v]. rewrite (In_edges a x y v Wa), (In_edges b x y v Wb), H. reflexivity. Qed.

Definition prod (l : list Qc) : Qc := fold_left (fun p q => p * (1 - q)) l 1.
Lemma prod_app l p : prod (l ++ [p]) = prod l * (1 - p).
Proof. unfold prod. rewrite fold_left_app. reflexivity. Qed.

Context (prob : graph) (tv : dict A Qc) (Htv : NoDup (dkeys tv)) (weapons : list A).
Context (Ht : forall w t p, In w weapons -> edge prob w t = Some p -> In t (dkeys tv)).
Implicit Types (asg : graph).

Lemma collect_spec es : (forall w t p, In (w, t, p) es -> edge prob w t = Some p /\ In t (dkeys tv)) -> forall sv : dict A (list Qc), dkeys sv = dkeys tv ->
  exists sv', foldM (fun (sv : dict A (list Qc)) e => let '(w, t, _) := e in
           match edge prob w t with None => Err TypeError | Some p =>
           match dget t sv with None => Err KeyError | Some l => Ok (dset t (l ++ [p]) sv) end end) es sv = Ok sv' /\ dkeys sv' = dkeys tv /\
    forall t l, dget t sv = Some l -> exists l', dget t sv' = Some l' /\ prod l' = prod l * survives es t.
Proof. induction es as [|[[w t] p] es IH]; intros H sv Hk; cbn [foldM].
  - exists sv. splits; auto. intros t l Hl. exists l. split; [exact Hl|cbn; ring].
  - destruct (H w t p (or_introl eq_refl)) as [H1 H2]. rewrite H1. rewrite <- Hk in H2. destruct (dget_key _ _ H2) as [l0 Hl0]. rewrite Hl0. cbn [bind].
    destruct (IH (fun w t p K => H w t p (or_intror K)) (dset t (l0 ++ [p]) sv)) as (sv' & E & K1 & K2); [rewrite dkeys_dset_in; assumption|]. exists sv'. splits; auto.
    intros t0 l Hl. specialize (K2 t0). rewrite dget_dset in K2. cbn [survives]. destruct (eq_dec t0 t) as [->|Hne].
    + destruct (K2 _ eq_refl) as (l' & Hl' & E'). exists l'. split; [exact Hl'|]. rewrite E', prod_app. rewrite Hl0 in Hl. injection Hl as ->. destruct (eq_dec t t); [ring|congruence].
    + destruct (K2 _ Hl) as (l' & Hl' & E'). exists l'. split; [exact Hl'|]. rewrite E'. destruct (eq_dec t t0); [congruence|reflexivity]. Qed.
Lemma total_spec m : forall (tv1 : list (A * Qc)) (sv : list (A * list Qc)) acc, map fst sv = map fst tv1 -> (forall t v, In (t, v) tv1 -> dget t tv = Some v) ->
  (forall t l, In (t, l) sv -> prod l = survives m t) ->
  foldM (fun acc x => match dget (fst x) tv with None => Err KeyError | Some v => Ok (acc + prod (snd x) * v) end) sv acc = Ok (acc + surviving_value tv1 m).
Proof. induction tv1 as [|[t v] tv1 IH]; intros [|[t' l] sv] acc E H1 H2; cbn in E; try discriminate; cbn [foldM surviving_value].
  - f_equal. ring.
  - injection E as -> E. cbn [fst snd]. rewrite (H1 t v (or_introl eq_refl)). cbn [bind]. rewrite IH; auto.
    + f_equal. rewrite (H2 t l (or_introl eq_refl)). ring.
    + intros t0 v0 K. apply H1. right. exact K.
    + intros t0 l0 K. apply H2. right. exact K. Qed.
Lemma damages_spec asg : wf asg -> (forall w t p, edge asg w t = Some p -> edge prob w t = Some p /\ In t (dkeys tv)) -> damages prob asg tv = Ok (surviving_value tv (edges asg)).
Proof. intros W H. unfold damages, collect. destruct (collect_spec (edges asg)) with (sv := map (fun x : A * Qc => (fst x, @nil Qc)) tv) as (sv & E & K1 & K2).
  - intros w t p K. apply H. apply (In_edges asg w t p W), K.
  - unfold dkeys. rewrite map_map. reflexivity.
  - rewrite E. cbn [bind]. refine (eq_trans (total_spec (edges asg) tv sv 0 _ _ _) _).
    + exact K1.
    + intros t v K. apply (dget_In_iff t v tv Htv), K.
    + intros t l K. assert (In t (dkeys tv)) as Hk by (rewrite <- K1; apply (in_map fst) in K; exact K). destruct (K2 t []) as (l' & H1 & H2).
      { clear - Hk. induction tv as [|[t' v] l IH]; [destruct Hk|]. cbn. destruct (eq_dec t t') as [->|]; [reflexivity|]. apply IH. destruct Hk as [Hk|Hk]; [cbn in Hk; congruence|exact Hk]. }
      assert (NoDup (dkeys sv)) as Hs by (rewrite K1; exact Htv). apply (dget_In_iff t l sv Hs) in K. rewrite K in H1. injection H1 as <-. rewrite H2. unfold prod. cbn [fold_left]. ring.
    + f_equal. ring. Qed.

(** ** Redirecting a weapon *)
Definition Inv asg : Prop := reachable asg /\ (forall w t p, edge asg w t = Some p -> edge prob w t = Some p /\ In w weapons) /\ (forall w t t', has_edge asg w t -> has_edge asg w t' -> t = t').
Definition rd asg (w t : A) (p : Qc) (asg' : graph) : Prop := forall x y, edge asg' x y = if eq_dec x w then (if eq_dec y t then Some p else None) else edge asg x y.
Definition val asg : Qc := surviving_value tv (edges asg).
Lemma val_ext a b : wf a -> wf b -> (forall x y, edge a x y = edge b x y) -> val a = val b.
Proof. intros. apply value_perm, edges_perm; assumption. Qed.
Lemma engagement_some asg w t : wf asg -> engagement w asg = Some t -> has_edge asg w t.
Proof. intros W H. unfold engagement in H. destruct (contains asg w); [|discriminate]. destruct (edges_from asg w) as [|[[x y] p] l] eqn:E; [discriminate|]. injection H as ->.
  assert (In (x, t, p) (edges_from asg w)) as Hi by (rewrite E; left; reflexivity). apply (In_edges_from asg w _ W) in Hi. destruct Hi as (b & v & Q & Hi). injection Q as -> -> ->. exists v. exact Hi. Qed.
Lemma engagement_none asg w : wf asg -> engagement w asg = None -> forall t, edge asg w t = None.
Proof. intros W H t. destruct (edge asg w t) as [p|] eqn:E; [|reflexivity]. exfalso. unfold engagement in H. assert (contains asg w = true) as C. { apply contains_In. apply (has_edge_nodes asg w t W). exists p. exact E. }
  rewrite C in H. destruct (edges_from asg w) as [|[[x y] q] l] eqn:E1; [|discriminate]. assert (In (w, t, p) (edges_from asg w)) as Hi by (apply (In_edges_from asg w _ W); eauto). rewrite E1 in Hi. destruct Hi. Qed.
Lemma Inv_rd asg asg' w t p : Inv asg -> reachable asg' -> In w weapons -> edge prob w t = Some p -> rd asg w t p asg' -> Inv asg'.
Proof. intros (R & H1 & H2) R' Hw Hp Hr. split; [exact R'|]. split.
  - intros x y q H. rewrite Hr in H. destruct (eq_dec x w) as [->|]; [destruct (eq_dec y t) as [->|]; [|discriminate]; injection H as <-; auto|apply H1, H].
  - intros x y y' [q H] [q' H']. rewrite Hr in H, H'. destruct (eq_dec x w) as [->|].
    + destruct (eq_dec y t), (eq_dec y' t); congruence.
    + apply (H2 x); eexists; eassumption. Qed.
Lemma engage_spec asg w t p : Inv asg -> In w weapons -> edge prob w t = Some p -> exists asg', engage prob w t asg = Ok asg' /\ Inv asg' /\ rd asg w t p asg'.
Proof. intros HI Hw Hp. pose proof HI as (R & H1 & H2). pose proof (reachable_wf _ R) as W. unfold engage. destruct (engagement w asg) as [c|] eqn:E.
  - apply (engagement_some asg w c W) in E. destruct (eq_dec c t) as [->|Hne].
    + exists asg. splits; auto. intros x y. destruct (eq_dec x w) as [->|]; [|reflexivity]. destruct E as [q E]. destruct (eq_dec y t) as [->|Hy].
      * rewrite E. destruct (H1 _ _ _ E). congruence.
      * destruct (edge asg w y) as [q'|] eqn:Ey; [|reflexivity]. exfalso. apply Hy. apply (H2 w); eexists; eassumption.
    + destruct (has_edge_nodes asg w c W E) as [Hwn _]. apply contains_In in Hwn. rewrite Hwn. destruct (reachable_del_edge asg w c R) as (a1 & E1 & R1 & Ee1 & _). rewrite E1. cbn [bind]. rewrite Hp.
      destruct (reachable_add_edge a1 w t p R1) as (a2 & E2 & R2 & Ee2 & _). rewrite E2. exists a2. assert (rd asg w t p a2) as Hr.
      { intros x y. rewrite Ee2, Ee1. destruct (eq_dec x w) as [->|]; [|reflexivity]. destruct (eq_dec y t) as [->|]; [reflexivity|]. destruct (eq_dec y c) as [->|Hc]; [reflexivity|].
        destruct (edge asg w y) as [q|] eqn:Ey; [|reflexivity]. exfalso. apply Hc. apply (H2 w); [eexists; eassumption|exact E]. }
      splits; auto. apply (Inv_rd asg a2 w t p); assumption.
  - cbn [bind]. rewrite Hp. destruct (reachable_add_edge asg w t p R) as (a2 & E2 & R2 & Ee2 & _). rewrite E2. exists a2. assert (rd asg w t p a2) as Hr.
    { intros x y. rewrite Ee2. destruct (eq_dec x w) as [->|]; [|reflexivity]. destruct (eq_dec y t) as [->|]; [reflexivity|]. apply (engagement_none asg w W E). }
    splits; auto. apply (Inv_rd asg a2 w t p); assumption. Qed.
Lemma Inv_damages asg : Inv asg -> damages prob asg tv = Ok (val asg).
Proof. intros (R & H1 & _). apply damages_spec; [apply reachable_wf, R|]. intros w t p H. destruct (H1 _ _ _ H) as [K1 K2]. split; [exact K1|]. apply (Ht w t p K2 K1). Qed.

(** v is the value with w engaging t *)
Definition effect asg w t (v : Qc) : Prop := forall p asg', edge prob w t = Some p -> wf asg' -> rd asg w t p asg' -> v = val asg'.
Lemma effects_loop w : In w weapons -> forall l asg0 asg eff, (forall e, In e l -> exists t p, e = (w, t, p) /\ edge prob w t = Some p) ->
  Inv asg -> (forall x y, x <> w -> edge asg x y = edge asg0 x y) -> (forall t v, dget t eff = Some v -> effect asg0 w t v /\ exists p, edge prob w t = Some p) -> NoDup (dkeys eff) ->
  exists asg' eff', foldM (fun (st : graph * dict A Qc) e => let '(asg, eff) := st in let '(_, t, _) := e in
           asg <- engage prob w t asg ;; v <- damages prob asg tv ;; Ok (asg, dset t v eff)) l (asg, eff) = Ok (asg', eff') /\
    Inv asg' /\ (forall x y, x <> w -> edge asg' x y = edge asg0 x y) /\ (forall t v, dget t eff' = Some v -> effect asg0 w t v /\ exists p, edge prob w t = Some p) /\ NoDup (dkeys eff') /\
    (forall t, In t (dkeys eff) \/ (exists p, In (w, t, p) l) -> In t (dkeys eff')).
Proof. intros Hw. induction l as [|e l IH]; intros asg0 asg eff Hl HI He Hf Hn; cbn [foldM].
  - exists asg, eff. splits; auto. intros t [?|(p & [])]. assumption.
  - destruct (Hl e (or_introl eq_refl)) as (t & p & -> & Hp). destruct (engage_spec asg w t p HI Hw Hp) as (a1 & E1 & I1 & Hr1). rewrite E1. cbn [bind]. rewrite (Inv_damages a1 I1). cbn [bind].
    destruct (IH asg0 a1 (dset t (val a1) eff)) as (a2 & eff2 & E2 & I2 & K1 & K2 & K3 & K4).
    + intros e He'. apply Hl. right. exact He'.
    + exact I1.
    + intros x y Hx. rewrite Hr1. destruct (eq_dec x w); [contradiction|]. apply He, Hx.
    + intros t0 v. rewrite dget_dset. destruct (eq_dec t0 t) as [->|]; [|apply Hf]. intros Q. injection Q as <-. split; [|eauto]. intros p' a' Hp' W' Hr'. apply val_ext; [apply reachable_wf, I1|exact W'|].
      intros x y. rewrite Hr1, Hr'. destruct (eq_dec x w) as [->|Hx]; [replace p' with p by congruence; reflexivity|apply He, Hx].
    + apply NoDup_dset, Hn.
    + exists a2, eff2. splits; auto. intros t0 [H|(q & [H|H])]; apply K4; [left|left|right]; [apply In_dkeys_dset; auto|injection H as <- _; apply In_dkeys_dset; auto|eauto]. Qed.

Context (srt : list (Qc * A) -> list (Qc * A)) (Hsrt : forall l, Permutation (srt l) l /\ StronglySorted (fun x y => fst x <= fst y) (srt l)).
Lemma weapon_spec asg cur imp w : wf prob -> Inv asg -> In w weapons -> (exists t, has_edge prob w t) ->
  exists asg' t p, one_weapon srt prob tv (asg, cur, imp) w = Ok (asg', val asg', dset w (max0 (cur - val asg')) imp) /\ Inv asg' /\ edge prob w t = Some p /\ rd asg w t p asg' /\
    forall t' p' asg'', edge prob w t' = Some p' -> wf asg'' -> rd asg w t' p' asg'' -> val asg' <= val asg''.
Proof. intros Wp HI Hw [t0 [p0 Hp0]]. unfold one_weapon, effects.
  destruct (effects_loop w Hw (edges_from prob w) asg asg []) as (a1 & eff & E & I1 & K1 & K2 & K3 & K4).
  - intros e He. apply (In_edges_from prob w _ Wp) in He. destruct He as (t & p & -> & H). eauto.
  - exact HI.
  - reflexivity.
  - intros t v H. discriminate.
  - constructor.
  - rewrite E. cbn [bind fst snd]. destruct (Hsrt (map (fun x : A * Qc => (snd x, fst x)) eff)) as [HP HS].
    assert (forall t' p', edge prob w t' = Some p' -> exists v', In (v', t') (srt (map (fun x : A * Qc => (snd x, fst x)) eff)) /\ dget t' eff = Some v') as Hall.
    { intros t' p' Hp'. assert (In t' (dkeys eff)) as Hk. { apply K4. right. exists p'. apply (In_edges_from prob w _ Wp). eauto. }
      destruct (dget_key _ _ Hk) as [v' Hv']. exists v'. split; [|exact Hv']. apply (Permutation_in _ (Permutation_sym HP)). apply in_map_iff. exists (t', v'). split; [reflexivity|]. apply dget_In, Hv'. }
    destruct (srt (map (fun x : A * Qc => (snd x, fst x)) eff)) as [|[v t] rest] eqn:Es; [destruct (Hall t0 p0 Hp0) as (? & [] & _)|].
    assert (dget t eff = Some v) as Hv. { apply (dget_In_iff t v eff K3). assert (In (v, t) (map (fun x : A * Qc => (snd x, fst x)) eff)) as Hi by (apply (Permutation_in _ HP); left; reflexivity).
      apply in_map_iff in Hi. destruct Hi as ([t1 v1] & Q & Hi). cbn in Q. injection Q as -> ->. exact Hi. }
    destruct (K2 t v Hv) as [He [p Hp]]. destruct (engage_spec a1 w t p I1 Hw Hp) as (a2 & E2 & I2 & Hr2). rewrite E2. cbn [bind]. rewrite Hv.
    assert (rd asg w t p a2) as Hr. { intros x y. rewrite Hr2. destruct (eq_dec x w) as [->|Hx]; [reflexivity|apply K1, Hx]. }
    assert (v = val a2) as Ev. { apply (He p a2 Hp); [apply reachable_wf, I2|exact Hr]. } exists a2, t, p. rewrite <- Ev. splits; auto.
    intros t' p' a'' Hp' W'' Hr''. destruct (Hall t' p' Hp') as (v' & Hi & Hv'). destruct (K2 t' v' Hv') as [He' _]. rewrite <- (He' p' a'' Hp' W'' Hr'').
    apply StronglySorted_inv in HS. destruct HS as [_ HS]. rewrite Forall_forall in HS. destruct Hi as [Q|Hi]; [injection Q as -> _; apply Qcle_refl|apply (HS _ Hi)]. Qed.
End Facts.
