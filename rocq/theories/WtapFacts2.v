(** Proofs about wtap_solver: passes *)
From Coq Require Import QArith Qcanon Sorted.
From Verif Require Import Prelude PreludeFacts Base BaseFacts BaseFacts2 BaseFacts3 Spec SpecFacts Loop SearchFacts BaseAlgFacts MaxFlowFacts Jam JamFacts3 AssignFacts WtapSpec Wtap WtapFacts.
Local Open Scope Qc_scope.

Lemma Qc_le_lt_eq (x y : Qc) : x <= y -> x <> y -> x < y.
Proof. intros H1 H2. destruct (Qcle_lt_or_eq _ _ H1); [assumption|contradiction]. Qed.
Lemma max0_nonneg x : 0 <= max0 x.
Proof. unfold max0. destruct (Qclt_le_dec 0 x); [apply Qclt_le_weak; assumption|apply Qcle_refl]. Qed.
Lemma max0_pos x : max0 x <> 0 <-> 0 < x.
Proof. unfold max0. destruct (Qclt_le_dec 0 x) as [H|H]; split; auto; intros H1.
  - intros E. rewrite E in H. apply (Qcle_not_lt 0 0); [apply Qcle_refl|exact H].
  - congruence.
  - exfalso. apply (Qcle_not_lt x 0 H H1). Qed.
Lemma sub_pos (x y : Qc) : 0 < x - y <-> y < x.
Proof. split; intros H.
  - apply Qclt_minus_iff. replace (x + - y) with (x - y) by ring. exact H.
  - apply Qclt_minus_iff in H. replace (x - y) with (x + - y) by ring. exact H. Qed.
Lemma qsum_acc l : forall a, fold_left Qcplus l a = a + qsum l.
Proof. unfold qsum. induction l as [|x l IH]; cbn; intros a; [ring|]. rewrite (IH (a + x)), (IH (0 + x)). ring. Qed.
Lemma qsum_cons x l : qsum (x :: l) = x + qsum l.
Proof. unfold qsum at 1. cbn [fold_left]. rewrite qsum_acc. ring. Qed.
Lemma add_nonneg (x y : Qc) : 0 <= x -> 0 <= y -> 0 <= x + y.
Proof. intros H1 H2. replace (Q2Qc 0) with (0 + 0) by ring. apply Qcplus_le_compat; assumption. Qed.
Lemma qsum_nonneg l : (forall x, In x l -> 0 <= x) -> 0 <= qsum l.
Proof. induction l as [|x l IH]; intros H; [apply Qcle_refl|]. rewrite qsum_cons. apply add_nonneg; [apply H; left; reflexivity|apply IH; intros; apply H; right; assumption]. Qed.
Lemma qsum_zero l : (forall x, In x l -> 0 <= x) -> qsum l = 0 -> forall x, In x l -> x = 0.
Proof. induction l as [|y l IH]; intros H E x Hx; [destruct Hx|]. rewrite qsum_cons in E. assert (0 <= y) as Hy by (apply H; left; reflexivity). assert (forall x, In x l -> 0 <= x) as Hl by (intros; apply H; right; assumption). pose proof (qsum_nonneg l Hl) as Hs.
  assert (y = 0) as Ey. { apply Qcle_antisym; [|exact Hy]. replace y with (y + qsum l - qsum l) by ring. rewrite E. replace (0 - qsum l) with (- qsum l) by ring. replace (Q2Qc 0) with (- (Q2Qc 0)) by ring. apply Qcopp_le_compat, Hs. }
  subst y. replace (0 + qsum l) with (qsum l) in E by ring. destruct Hx as [<-|Hx]; [reflexivity|]. apply IH; assumption. Qed.
Lemma qsum_nonzero l : qsum l <> 0 -> exists x, In x l /\ x <> 0.
Proof. induction l as [|x l IH]; intros H; [exfalso; apply H; reflexivity|]. destruct (Qc_eq_dec x 0) as [->|Hx].
  - destruct IH as (y & Hy & H'); [intros E; apply H; rewrite qsum_cons, E; ring|]. exists y. split; [right; exact Hy|exact H'].
  - exists x. split; [left; reflexivity|exact Hx]. Qed.

Section Pass.
Context {A O : Type} {EA : EqDec A}.
Notation graph := (graph A O Qc).
Context (prob : graph) (Wp : wf prob) (tv : dict A Qc) (Htv : NoDup (dkeys tv)) (weapons : list A).
Context (Ht : forall w t p, In w weapons -> edge prob w t = Some p -> In t (dkeys tv)) (Hw : forall w, In w weapons -> exists t, has_edge prob w t).
Context (srt : list (Qc * A) -> list (Qc * A)) (Hsrt : forall l, Permutation (srt l) l /\ StronglySorted (fun x y => fst x <= fst y) (srt l)).
Notation Inv := (Inv prob weapons).
Notation val := (val tv).
Implicit Types (asg : graph).
Definition engaged asg w : Prop := exists t, has_edge asg w t.
Definition full asg : Prop := forall w, In w weapons -> engaged asg w.

(** an engaged weapon has its own target among the alternatives *)
Lemma rd_self asg w t p : Inv asg -> edge asg w t = Some p -> rd asg w t p asg.
Proof. intros (R & H1 & H2) He x y. destruct (eq_dec x w) as [->|]; [|reflexivity]. destruct (eq_dec y t) as [->|Hy]; [exact He|]. destruct (edge asg w y) as [q|] eqn:E; [|reflexivity]. exfalso. apply Hy. apply (H2 w); eexists; eassumption. Qed.
Lemma engaged_rd asg w t p asg' x : rd asg w t p asg' -> engaged asg x \/ x = w -> engaged asg' x.
Proof. intros Hr H. destruct (eq_dec x w) as [->|Hx].
  - exists t, p. rewrite Hr. destruct (eq_dec w w); [destruct (eq_dec t t)|]; congruence.
  - destruct H as [[y [q H]]|H]; [|congruence]. exists y, q. rewrite Hr. destruct (eq_dec x w); [congruence|exact H]. Qed.

Lemma pass_spec : forall ws asg cur imp, incl ws weapons -> Inv asg -> (forall x, In x (map snd imp) -> 0 <= x) ->
  exists asg' cur' imp', foldM (one_weapon srt prob tv) ws (asg, cur, imp) = Ok (asg', cur', imp') /\ Inv asg' /\
    (forall w, engaged asg w \/ In w ws -> engaged asg' w) /\ (ws <> [] \/ cur = val asg -> cur' = val asg') /\
    (forall w, In w (dkeys imp') <-> In w (dkeys imp) \/ In w ws) /\ (NoDup (dkeys imp) -> NoDup (dkeys imp')) /\ (forall x, In x (map snd imp') -> 0 <= x) /\ (forall w, ~ In w ws -> dget w imp' = dget w imp) /\
    (full asg -> cur = val asg -> cur' <= cur /\ forall w v, In w ws -> dget w imp' = Some v -> v <> 0 -> cur' < cur).
Proof. induction ws as [|w ws IH]; intros asg cur imp Hi HI Himp.
  - exists asg, cur, imp. cbn. splits; auto; try tauto. intros _ _. split; [apply Qcle_refl|intros w v []].
  - assert (In w weapons) as Hww by (apply Hi; left; reflexivity). cbn [foldM].
    destruct (weapon_spec prob tv Htv weapons Ht srt Hsrt asg cur imp w Wp HI Hww (Hw w Hww)) as (a1 & t & p & E1 & I1 & Hp & Hr & Hbest). rewrite E1. cbn [bind].
    destruct (IH a1 (val a1) (dset w (max0 (cur - val a1)) imp)) as (a2 & c2 & i2 & E2 & I2 & K1 & K2 & K3 & K4 & K5 & K6 & K7).
    + intros x Hx. apply Hi. right. exact Hx.
    + exact I1.
    + intros x Hx. apply in_map_iff in Hx. destruct Hx as ([k v] & <- & Hx). cbn. clear - Hx Himp. induction imp as [|[k0 v0] imp IH]; cbn in Hx.
      * destruct Hx as [Q|[]]. injection Q as <- <-. apply max0_nonneg.
      * destruct (eq_dec w k0); (destruct Hx as [Q|Hx]; [injection Q as <- <-|]); auto using max0_nonneg.
        -- apply Himp. right. apply (in_map snd) in Hx. exact Hx.
        -- apply Himp. left. reflexivity.
        -- apply IH; [|exact Hx]. intros x Hx'. apply Himp. right. exact Hx'.
    + exists a2, c2, i2. splits; auto.
      * intros x Hx. destruct (in_dec eq_dec x ws) as [Hxs|Hxs]; [apply K1; auto|]. apply K1. left. apply (engaged_rd asg w t p a1 x Hr). destruct Hx as [?|[->|?]]; auto. contradiction.
      * intros x. rewrite K3, In_dkeys_dset. cbn [In]. split; [intros [[->|?]|?]|intros [?|[->|?]]]; auto.
      * intros ND. apply K4, NoDup_dset, ND.
      * intros x Hx. rewrite K6 by (intros C; apply Hx; right; exact C). rewrite dget_dset. destruct (eq_dec x w) as [->|]; [exfalso; apply Hx; left; reflexivity|reflexivity].
      * intros Hf Hc. assert (val a1 <= cur) as H1. { destruct (Hf w Hww) as [t0 [p0 H0]]. rewrite Hc. apply (Hbest t0 p0 asg); [apply HI, H0|apply reachable_wf, HI|apply rd_self; assumption]. }
        destruct K7 as [H2 H3]; [intros x Hx; apply (engaged_rd asg w t p a1 x Hr); auto|reflexivity|]. split; [apply (Qcle_trans _ (val a1)); assumption|]. intros x v [<-|Hx] Hv Hne.
        -- destruct (in_dec eq_dec w ws) as [Hxs|Hxs]; [apply (Qclt_le_trans _ (val a1)); [apply (H3 w v); assumption|exact H1]|].
           rewrite (K6 w Hxs), dget_dset in Hv. destruct (eq_dec w w); [|congruence]. injection Hv as <-. apply max0_pos in Hne. apply (proj1 (sub_pos _ _)) in Hne. apply (Qcle_lt_trans _ (val a1)); assumption.
        -- apply (Qclt_le_trans _ (val a1)); [apply (H3 x v); assumption|exact H1]. Qed.

(** ** All full assignments *)
Definition options : list (list (A * A * Qc)) := product (map (edges_from prob) (set_of weapons)).
Definition values : list Qc := map (surviving_value tv) options.
Lemma edges_option asg : Inv asg -> full asg -> exists m, In m options /\ Permutation (edges asg) m.
Proof. intros (R & H1 & H2) Hf. pose proof (reachable_wf _ R) as W.
  assert (exists m, Forall2 (fun e w => (In e (edges_from prob w) /\ In e (edges asg)) /\ fst (fst e) = w) m (set_of weapons)) as [m Hm].
  { assert (forall w, In w (set_of weapons) -> In w weapons) as Hs by (intros w; apply In_set_of). induction (set_of weapons) as [|w ws IH]; [exists []; constructor|]. destruct IH as [m Hm]; [intros x Hx; apply Hs; right; exact Hx|].
    destruct (Hf w (Hs w (or_introl eq_refl))) as [t [p He]]. exists ((w, t, p) :: m). apply Forall2_cons; [|exact Hm]. splits; [|apply (In_edges asg w t p W), He|reflexivity]. apply (In_edges_from prob w _ Wp). exists t, p. split; [reflexivity|apply H1, He]. }
  exists m. split.
  - apply In_product. clear - Hm. induction Hm as [|e w m ws H Hm IH]; cbn; constructor; [apply H|exact IH].
  - apply NoDup_Permutation.
    + apply (NoDup_map_inv ekey), NoDup_edges, W.
    + apply (NoDup_map_inv (fun e => fst (fst e))). replace (map (fun e : A * A * Qc => fst (fst e)) m) with (set_of weapons); [apply NoDup_set_of|]. clear - Hm. induction Hm as [|e w m ws H Hm IH]; cbn; [reflexivity|]. rewrite <- IH, (proj2 H). reflexivity.
    + intros [[w t] p]. split; intros H.
      * apply (In_edges asg w t p W) in H. destruct (H1 _ _ _ H) as [_ Hww]. apply In_set_of in Hww.
        assert (exists e, In e m /\ In e (edges asg) /\ fst (fst e) = w) as ([[w' t'] p'] & K1 & K2 & K3). { clear - Hm Hww. induction Hm as [|e x m ws H Hm IH]; [destruct Hww|]. destruct Hww as [->|Hww]; [exists e; split; [left; reflexivity|split; apply H]|]. destruct (IH Hww) as (e' & K1 & K2). exists e'. split; [right; exact K1|exact K2]. }
        cbn in K3. subst w'. apply (In_edges asg w t' p' W) in K2. assert (t' = t) as -> by (apply (H2 w); eexists; eassumption). assert (p' = p) as -> by congruence. exact K1.
      * clear - Hm H. induction Hm as [|e x m ws K Hm IH]; [destruct H|]. destruct H as [->|H]; [apply K|apply IH, H]. Qed.
Lemma val_values asg : Inv asg -> full asg -> In (val asg) values.
Proof. intros H1 H2. destruct (edges_option asg H1 H2) as (m & K1 & K2). unfold WtapFacts.val. rewrite (value_perm tv _ m K2). apply in_map, K1. Qed.

(** ** The loop *)
Definition below (c v : Qc) : bool := if Qclt_le_dec v c then true else false.
Definition fullb asg : bool := forallb (fun w => match engagement w asg with Some _ => true | None => false end) weapons.
Lemma fullb_spec asg : Inv asg -> fullb asg = true <-> full asg.
Proof. intros (R & _ & _). pose proof (reachable_wf _ R) as W. unfold fullb. rewrite forallb_forall. split; intros H w Hi; specialize (H w Hi).
  - destruct (engagement w asg) as [t|] eqn:E; [|discriminate]. exists t. apply (engagement_some asg w t W E).
  - destruct (engagement w asg) as [t|] eqn:E; [reflexivity|]. destruct H as [t [p H]]. rewrite (engagement_none asg w W E t) in H. discriminate. Qed.
Definition LInv (st : graph * Qc * dict A Qc) : Prop :=
  let '(asg, cur, imp) := st in Inv asg /\ incl (dkeys imp) weapons /\ NoDup (dkeys imp) /\ (forall x, In x (map snd imp) -> 0 <= x) /\ ((full asg /\ cur = val asg) \/ (asg = empty_graph /\ cur = qsum (map snd tv) + 1 /\ imp = [])).
Definition work (st : graph * Qc * dict A Qc) : nat :=
  if fullb (fst (fst st)) then length (filter (below (snd (fst st))) values) else S (length values).
(** the last pass started in a state of the loop and made no improvement *)
Definition final (r : res (Qc * graph)) : Prop :=
  exists st asg cur imp, LInv st /\ foldM (one_weapon srt prob tv) weapons st = Ok (asg, cur, imp) /\ r = Ok (cur, asg) /\ qsum (map snd imp) = 0.
Lemma Inv_empty : Inv empty_graph.
Proof. hnf. splits; [apply reachable_empty|intros w t p H; discriminate|intros w t t' [p H]; discriminate]. Qed.
Lemma solver_loop : weapons <> [] -> exists r, returns (fun n => loop n (one_pass srt prob tv weapons) (empty_graph, qsum (map snd tv) + 1, [])) r /\ final r.
Proof. intros Hne. apply (loop_returns_nat (one_pass srt prob tv weapons) LInv work final).
  - intros [[asg cur] imp] (HI & Hk & Hnd & Hnn & Hcase). unfold one_pass.
    destruct (pass_spec weapons asg cur imp (fun x H => H) HI Hnn) as (a & c & i & E & I1 & K1 & K2 & K3 & K4 & K5 & K6 & K7). rewrite E.
    assert (c = val a) as Ec by (apply K2; auto). assert (full a) as Fa by (intros w H; apply K1; auto). destruct (Qc_eq_dec (qsum (map snd i)) 0) as [Ez|Ez].
    + split; [discriminate|]. exists (asg, cur, imp), a, c, i. splits; auto. unfold LInv. splits; auto.
    + split.
      * unfold LInv. splits; auto. intros x Hx. apply K3 in Hx. destruct Hx; auto.
      * unfold work. cbn [fst snd]. rewrite (proj2 (fullb_spec a I1) Fa). destruct Hcase as [[Fs Hc]|(-> & Hc & ->)].
        -- rewrite (proj2 (fullb_spec asg HI) Fs). destruct (K7 Fs Hc) as [H1 H2]. assert (c < cur) as Hlt.
           { destruct (qsum_nonzero _ Ez) as (v & Hv & Hn0). apply in_map_iff in Hv. destruct Hv as ([w v'] & Q & Hv). cbn in Q. subst v'. assert (dget w i = Some v) as Hd by (apply (dget_In_iff w v i (K4 Hnd)), Hv).
             apply (H2 w v); auto. assert (In w (dkeys i)) as Hwk by (apply (dget_Some_key w i v Hd)). apply K3 in Hwk. destruct Hwk; auto. }
           apply (filter_lt _ _ _ c).
           ++ intros v _ Hv. unfold below in *. destruct (Qclt_le_dec v c) as [Hv'|]; [|discriminate]. destruct (Qclt_le_dec v cur) as [|Hc']; [reflexivity|]. exfalso. apply (Qcle_not_lt cur v Hc'). apply (Qclt_trans v c cur); assumption.
           ++ rewrite Ec. apply val_values; assumption.
           ++ unfold below. destruct (Qclt_le_dec c cur) as [|C]; [reflexivity|]. exfalso. apply (Qcle_not_lt _ _ C Hlt).
           ++ unfold below. destruct (Qclt_le_dec c c) as [C|]; [|reflexivity]. exfalso. apply (Qcle_not_lt c c); [apply Qcle_refl|exact C].
        -- replace (fullb empty_graph) with false.
           ++ apply Nat.lt_succ_r. clear. induction values as [|x l IH]; cbn; [auto|]. destruct (below c x); cbn; lia.
           ++ symmetry. unfold fullb. clear - Hne. destruct weapons as [|w ws]; [congruence|]. reflexivity.
  - unfold LInv. splits; [apply Inv_empty|intros x []|constructor|intros x []|]. right. auto. Qed.
Lemma final_spec r : weapons <> [] -> final r -> exists asg, r = Ok (val asg, asg) /\ Inv asg /\ full asg.
Proof. intros Hne ([[asg cur] imp] & a & c & i & (HI & Hk & Hnd & Hnn & Hcase) & E & -> & _).
  destruct (pass_spec weapons asg cur imp (fun x H => H) HI Hnn) as (a' & c' & i' & E' & I1 & K1 & K2 & _). rewrite E in E'. injection E' as <- <- <-. exists a. rewrite (K2 (or_introl Hne)). splits; auto. intros w H. apply K1. auto. Qed.
End Pass.
