(** C54, C76: wtap_solver *)
From Coq Require Import QArith Qcanon Sorted.
From Verif Require Import Prelude PreludeFacts Base BaseFacts BaseFacts2 BaseFacts3 Spec SpecFacts Loop BaseAlgFacts MaxFlowFacts AssignFacts WtapSpec Wtap WtapFacts WtapFacts2 WtapFacts3.
Local Open Scope Qc_scope.

Section Props.
Context {A O : Type} {EA : EqDec A}.
Notation graph := (graph A O Qc).
(** list.sort(): a permutation in which the values never decrease, in any order of equal values *)
Definition sorts_asc (srt : list (Qc * A) -> list (Qc * A)) : Prop := forall l, Permutation (srt l) l /\ StronglySorted (fun x y => fst x <= fst y) (srt l).
(** what a call needs: weapons are not targets; every weapon has a target, and every target of a weapon has a value;
    no target with a value is without any probability *)
Definition valid (prob : graph) (weapons : list A) (tv : dict A Qc) : Prop :=
  reachable prob /\ NoDup (dkeys tv) /\ (forall w, In w weapons -> ~ In w (dkeys tv)) /\ (forall w, In w weapons -> exists t, has_edge prob w t) /\
  (forall w t, In w weapons -> has_edge prob w t -> In t (dkeys tv)) /\ (forall t, In t (dkeys tv) -> exists w, has_edge prob w t).

Lemma valid_loop srt prob weapons tv n : valid prob weapons tv -> wtap_solver srt n prob weapons tv = loop n (one_pass srt prob tv weapons) (empty_graph, qsum (map snd tv) + 1, []).
Proof. intros (R & H1 & H2 & H3 & H4 & H5). pose proof (reachable_wf _ R) as W. unfold wtap_solver. replace (existsb (fun w => mem w (dkeys tv)) weapons) with false.
  - replace (existsb (fun t => negb (mem t (map (fun e : A * A * Qc => snd (fst e)) (edges prob)))) (dkeys tv)) with false; [rewrite andb_false_r; reflexivity|].
    symmetry. apply not_true_is_false. intros C. apply existsb_exists in C. destruct C as (t & Ht & C). apply negb_true_iff, mem_notIn in C. apply C. destruct (H5 t Ht) as [w [p He]]. apply in_map_iff. exists (w, t, p). split; [reflexivity|]. apply (In_edges prob w t p W), He.
  - symmetry. apply not_true_is_false. intros C. apply existsb_exists in C. destruct C as (w & Hw & C). apply mem_In in C. apply (H2 w Hw C). Qed.
Lemma valid_final srt prob weapons tv : sorts_asc srt -> valid prob weapons tv -> weapons <> [] ->
  exists asg, returns (fun n => wtap_solver srt n prob weapons tv) (Ok (surviving_value tv (edges asg), asg)) /\ final prob tv weapons srt (Ok (surviving_value tv (edges asg), asg)) /\ Inv prob weapons asg /\ full weapons asg.
Proof. intros Hs HV Hne. pose proof HV as (R & H1 & H2 & H3 & H4 & H5). pose proof (reachable_wf _ R) as W.
  assert (forall w t p, In w weapons -> edge prob w t = Some p -> In t (dkeys tv)) as Ht by (intros w t p K1 K2; apply (H4 w t K1); exists p; exact K2).
  destruct (solver_loop prob W tv H1 weapons Ht H3 srt Hs Hne) as (r & Hr & Hf). destruct (final_spec prob W tv H1 weapons Ht H3 srt Hs r Hne Hf) as (asg & -> & HI & Hfull).
  exists asg. splits; auto. apply (returns_ext _ _ _ (fun n => eq_sym (valid_loop srt prob weapons tv n HV)) Hr). Qed.

(** ** C54: wtap_solver ends, every weapon engages exactly one of its targets, and the value is that of the assignment *)
Theorem C54_wtap_value srt prob weapons tv : sorts_asc srt -> valid prob weapons tv -> weapons <> [] ->
  exists v asg, returns (fun n => wtap_solver srt n prob weapons tv) (Ok (v, asg)) /\ engages_all prob weapons (edges asg) /\ v = surviving_value tv (edges asg).
Proof. intros Hs HV Hne. destruct (valid_final srt prob weapons tv Hs HV Hne) as (asg & Hr & _ & HI & Hf). eexists _, asg. splits; [exact Hr| |reflexivity]. apply Inv_engages; assumption. Qed.
(** with probabilities between 0 and 1 and values that are not negative, it is between 0 and the sum of the values *)
Theorem C54_wtap_bounds srt prob weapons tv : sorts_asc srt -> valid prob weapons tv -> weapons <> [] ->
  (forall x y p, edge prob x y = Some p -> 0 <= p /\ p <= 1) -> (forall t v, In (t, v) tv -> 0 <= v) ->
  exists v asg, returns (fun n => wtap_solver srt n prob weapons tv) (Ok (v, asg)) /\ 0 <= v /\ v <= surviving_value tv [].
Proof. intros Hs HV Hne P1 P2. destruct (C54_wtap_value srt prob weapons tv Hs HV Hne) as (v & asg & Hr & (_ & _ & He) & ->). eexists _, asg. split; [exact Hr|].
  replace (surviving_value tv []) with (qsum (map snd tv)).
  - apply value_le; [|exact P2]. intros [[w t] p] Hi. apply (P1 w t), He, Hi.
  - clear. induction tv as [|[t v] tv IH]; [reflexivity|]. cbn [map snd surviving_value]. rewrite qsum_cons, IH. cbn [survives]. ring. Qed.
(** without weapons the value returned is one more than the value of the targets *)
Theorem C54_wtap_no_weapons_refuted srt (prob : graph) tv : valid prob [] tv ->
  exists v asg, returns (fun n => wtap_solver srt n prob [] tv) (Ok (v, asg)) /\ edges asg = [] /\ v = surviving_value tv (edges asg) + 1.
Proof. intros HV. exists (qsum (map snd tv) + 1), empty_graph. splits.
  - apply (returns_ext (fun n => loop n (one_pass srt prob tv []) (empty_graph, qsum (map snd tv) + 1, []))); [intros n; symmetry; apply valid_loop, HV|].
    hnf. splits; [discriminate| |].
    + exists 1%nat. intros [|n] Hn; [lia|]. reflexivity.
    + intros [|n]; [left|right]; reflexivity.
  - reflexivity.
  - f_equal. cbn [edges]. clear. change (edges empty_graph) with (@nil (A * A * Qc)). induction tv as [|[t v] tv IH]; [reflexivity|]. cbn [map snd surviving_value]. rewrite qsum_cons, IH. cbn [survives]. ring. Qed.
(** inputs that are refused *)
Theorem C54_wtap_refused srt (prob : graph) weapons tv n :
  ((exists w, In w weapons /\ In w (dkeys tv)) -> wtap_solver srt n prob weapons tv = Err ValueError) /\
  (reachable prob -> (forall x y, has_edge prob x y -> In y (dkeys tv)) -> (exists t, In t (dkeys tv) /\ forall x, ~ has_edge prob x t) -> wtap_solver srt n prob weapons tv = Err ValueError).
Proof. unfold wtap_solver. split.
  - intros (w & H1 & H2). replace (existsb (fun w => mem w (dkeys tv)) weapons) with true; [reflexivity|]. symmetry. apply existsb_exists. exists w. split; [exact H1|]. apply mem_In, H2.
  - intros R H1 (t & H2 & H3). pose proof (reachable_wf _ R) as W. destruct (existsb (fun w => mem w (dkeys tv)) weapons); [reflexivity|].
    replace (forallb (fun t => mem t (dkeys tv)) (map (fun e : A * A * Qc => snd (fst e)) (edges prob)) && existsb (fun t => negb (mem t (map (fun e : A * A * Qc => snd (fst e)) (edges prob)))) (dkeys tv))%bool with true; [reflexivity|].
    symmetry. apply andb_true_intro. split.
    + apply forallb_forall. intros y Hy. apply in_map_iff in Hy. destruct Hy as ([[x y'] p] & <- & Hy). cbn. apply mem_In, (H1 x y'). exists p. apply (In_edges prob x y' p W), Hy.
    + apply existsb_exists. exists t. split; [exact H2|]. apply negb_true_iff, mem_notIn. intros C. apply in_map_iff in C. destruct C as ([[x y'] p] & E & C). cbn in E. subst y'. apply (H3 x). exists p. apply (In_edges prob x t p W), C. Qed.
(** a weapon without targets: IndexError *)
Theorem C54_wtap_idle_weapon srt (prob : graph) weapons tv n : sorts_asc srt -> reachable prob -> NoDup (dkeys tv) -> (forall w, In w weapons -> ~ In w (dkeys tv)) ->
  (forall w t, In w weapons -> has_edge prob w t -> In t (dkeys tv)) -> (forall t, In t (dkeys tv) -> exists w, has_edge prob w t) ->
  (exists w, In w weapons /\ forall t, ~ has_edge prob w t) -> wtap_solver srt (S n) prob weapons tv = Err IndexError.
Proof. intros Hs R H1 H2 H4 H5 (w0 & Hw0 & Hn0). pose proof (reachable_wf _ R) as W.
  assert (exists ws w rest, weapons = ws ++ w :: rest /\ (forall x, In x ws -> exists t, has_edge prob x t) /\ edges_from prob w = []) as (ws & w & rest & E & K1 & K2).
  { assert (edges_from prob w0 = []) as E0. { destruct (edges_from prob w0) as [|e l] eqn:E; [reflexivity|]. exfalso. assert (In e (edges_from prob w0)) as Hi by (rewrite E; left; reflexivity). apply (In_edges_from prob w0 _ W) in Hi. destruct Hi as (t & p & _ & Hi). apply (Hn0 t). exists p. exact Hi. }
    clear - Hw0 E0 W. induction weapons as [|x l IH]; [destruct Hw0|]. destruct (edges_from prob x) as [|e r] eqn:Ex; [exists [], x, l; splits; auto; intros y []|].
    destruct Hw0 as [->|Hw0]; [congruence|]. destruct (IH Hw0) as (ws & w & rest & -> & K1 & K2). exists (x :: ws), w, rest. splits; auto. intros y [<-|Hy]; [|apply K1, Hy].
    assert (In e (edges_from prob x)) as Hi by (rewrite Ex; left; reflexivity). apply (In_edges_from prob x _ W) in Hi. destruct Hi as (t & p & _ & Hi). exists t, p. exact Hi. }
  unfold wtap_solver. replace (existsb (fun w => mem w (dkeys tv)) weapons) with false.
  2:{ symmetry. apply not_true_is_false. intros C. apply existsb_exists in C. destruct C as (x & Hx & C). apply mem_In in C. apply (H2 x Hx C). }
  replace (existsb (fun t => negb (mem t (map (fun e : A * A * Qc => snd (fst e)) (edges prob)))) (dkeys tv)) with false.
  2:{ symmetry. apply not_true_is_false. intros C. apply existsb_exists in C. destruct C as (t & Ht & C). apply negb_true_iff, mem_notIn in C. apply C. destruct (H5 t Ht) as [x [p He]]. apply in_map_iff. exists (x, t, p). split; [reflexivity|]. apply (In_edges prob x t p W), He. }
  rewrite andb_false_r. cbn [loop]. unfold one_pass. subst weapons.
  assert (forall w t p, In w ws -> edge prob w t = Some p -> In t (dkeys tv)) as Ht by (intros x t p K3 K4; apply (H4 x t); [apply in_app_iff; left; exact K3|exists p; exact K4]).
  destruct (pass_spec prob W tv H1 ws Ht K1 srt Hs ws empty_graph (qsum (map snd tv) + 1) [] (fun x H => H) (Inv_empty prob ws)) as (a & c & i & E & _); [intros x []|].
  assert (foldM (one_weapon srt prob tv) (ws ++ w :: rest) (empty_graph, qsum (map snd tv) + 1, []) = Err IndexError) as ->; [|reflexivity].
  assert (forall s, foldM (one_weapon srt prob tv) ws s = Ok (a, c, i) -> foldM (one_weapon srt prob tv) (ws ++ w :: rest) s = Err IndexError) as Hgo; [|apply Hgo, E].
  clear E K1 Ht H2 H4 H5 Hw0. induction ws as [|x ws IH]; cbn [foldM app]; intros s E.
  - injection E as ->. unfold one_weapon, effects. rewrite K2. cbn [foldM bind fst snd map]. destruct (Hs []) as [P _]. apply Permutation_sym, Permutation_nil in P. rewrite P. reflexivity.
  - destruct (one_weapon srt prob tv s x) as [s'| |]; cbn [bind] in *; try discriminate. apply IH, E. Qed.

(** ** C76: local optimality: no single weapon could do better with another target.  True without ties *)
Definition unique_values (prob : graph) (weapons : list A) (tv : dict A Qc) : Prop :=
  forall m w t1 p1 t2 p2 m1 m2, engages_all prob weapons m -> In w weapons -> t1 <> t2 -> edge prob w t1 = Some p1 -> edge prob w t2 = Some p2 ->
    redirected m w t1 p1 m1 -> redirected m w t2 p2 m2 -> surviving_value tv m1 <> surviving_value tv m2.
Theorem C76_wtap_local_optimum_partial srt prob weapons tv : sorts_asc srt -> valid prob weapons tv -> weapons <> [] -> NoDup weapons ->
  (forall x y p, edge prob x y = Some p -> 0 <= p /\ p <= 1) -> (forall t v, In (t, v) tv -> 0 <= v) -> unique_values prob weapons tv ->
  exists v asg, returns (fun n => wtap_solver srt n prob weapons tv) (Ok (v, asg)) /\
    forall w t p m, In w weapons -> edge prob w t = Some p -> redirected (edges asg) w t p m -> v <= surviving_value tv m.
Proof. intros Hs HV Hne HN P1 P2 HU. destruct (valid_final srt prob weapons tv Hs HV Hne) as (asg & Hr & Hfin & HI & Hf). pose proof HV as (R & H1 & H2 & H3 & H4 & H5). eexists _, asg. split; [exact Hr|].
  assert (forall w t p, In w weapons -> edge prob w t = Some p -> In t (dkeys tv)) as Ht by (intros w t p K1 K2; apply (H4 w t K1); exists p; exact K2).
  intros w t p m Hw Hp Hm. apply (all_best prob (reachable_wf _ R) tv H1 weapons Ht H3 srt Hs _ HU (conj P1 P2) HN Hne Hfin _ asg eq_refl w t p m); assumption. Qed.
(** and true of the last weapon in the list *)
Theorem C76_wtap_last_weapon_partial srt prob ws w tv : sorts_asc srt -> valid prob (ws ++ [w]) tv ->
  exists v asg, returns (fun n => wtap_solver srt n prob (ws ++ [w]) tv) (Ok (v, asg)) /\
    forall t p m, edge prob w t = Some p -> redirected (edges asg) w t p m -> v <= surviving_value tv m.
Proof. intros Hs HV. assert (ws ++ [w] <> []) as Hne by (destruct ws; discriminate). destruct (valid_final srt prob (ws ++ [w]) tv Hs HV Hne) as (asg & Hr & Hfin & HI & Hf). pose proof HV as (R & H1 & H2 & H3 & H4 & H5). eexists _, asg. split; [exact Hr|].
  assert (forall x t p, In x (ws ++ [w]) -> edge prob x t = Some p -> In t (dkeys tv)) as Ht by (intros x t p K1 K2; apply (H4 x t K1); exists p; exact K2).
  intros t p m. apply (last_best prob (reachable_wf _ R) tv H1 (ws ++ [w]) Ht H3 srt Hs _ ws w eq_refl Hfin _ asg eq_refl). Qed.
End Props.
Close Scope Qc_scope. Close Scope Q_scope.

(** a sort that fits the hypothesis: by value, then by target, as Python does *)
Definition le_pair (x y : Qc * nat) : bool := if Qclt_le_dec (fst x) (fst y) then true else if Qc_eq_dec (fst x) (fst y) then (snd x <=? snd y)%nat else false.
Fixpoint ins_asc (x : Qc * nat) (l : list (Qc * nat)) : list (Qc * nat) := match l with [] => [x] | y :: r => if le_pair x y then x :: l else y :: ins_asc x r end.
Definition sort_asc (l : list (Qc * nat)) : list (Qc * nat) := fold_right ins_asc [] l.
Lemma le_pair_le x y : le_pair x y = true -> (fst x <= fst y)%Qc.
Proof. unfold le_pair. destruct (Qclt_le_dec (fst x) (fst y)) as [H|]; [intros _; apply Qclt_le_weak, H|]. destruct (Qc_eq_dec (fst x) (fst y)) as [E|]; [intros _; rewrite E; apply Qcle_refl|discriminate]. Qed.
Lemma le_pair_ge x y : le_pair x y = false -> (fst y <= fst x)%Qc.
Proof. unfold le_pair. destruct (Qclt_le_dec (fst x) (fst y)) as [H|H]; [discriminate|intros _; exact H]. Qed.
Lemma sort_asc_ok : sorts_asc sort_asc.
Proof. intros l. induction l as [|x l [IH1 IH2]]; [split; constructor|]. change (sort_asc (x :: l)) with (ins_asc x (sort_asc l)). revert IH1 IH2. generalize (sort_asc l) as s. intros s H1 H2. split.
  - apply (Permutation_trans (l' := x :: s)); [|constructor; exact H1]. clear. induction s as [|y s IH]; cbn; [reflexivity|]. destruct (le_pair x y); [reflexivity|]. rewrite IH. constructor.
  - clear H1 l. induction s as [|y s IH]; cbn; [repeat constructor|]. apply StronglySorted_inv in H2. destruct H2 as [H2 H3]. destruct (le_pair x y) eqn:E.
    + apply le_pair_le in E. constructor; [constructor; assumption|]. constructor; [exact E|]. eapply Forall_impl; [|exact H3]. cbn. intros a Ha. apply (Qcle_trans _ (fst y)); assumption.
    + apply le_pair_ge in E. constructor; [apply IH, H2|]. apply Forall_forall. intros z Hz. assert (z = x \/ In z s) as [->|Hz'].
      { clear - Hz. induction s as [|w s IH]; cbn in Hz; [destruct Hz as [<-|[]]; auto|]. destruct (le_pair x w); [destruct Hz as [<-|Hz]; auto|]. destruct Hz as [<-|Hz]; [right; left; reflexivity|]. destruct (IH Hz); [auto|right; right; assumption]. }
      * exact E.
      * rewrite Forall_forall in H3. apply H3, Hz'. Qed.

(** three weapons 1, 2, 3 and targets 11, 12, 13 worth 1, 8, 1 *)
Definition q (n : Z) (d : positive) : Qc := Q2Qc (n # d).
Definition ops_w : list (op nat unit Qc) := [OpAddEdge 1 11 (q 1 1) false; OpAddEdge 1 13 (q 1 1) false; OpAddEdge 2 11 (q 1 1) false; OpAddEdge 2 12 (q 1 2) false; OpAddEdge 3 12 (q 1 1) false; OpAddEdge 3 13 (q 1 4) false].
Definition g_w : graph nat unit Qc := ok_or empty_graph (run ops_w).
Definition tv_w : dict nat Qc := [(11, q 1 1); (12, q 8 1); (13, q 1 1)].
Lemma reach_w : reachable g_w. Proof. exists ops_w. vm_compute. reflexivity. Qed.
Lemma edges_w x y p : edge g_w x y = Some p -> In (x, y) [(1, 11); (1, 13); (2, 11); (2, 12); (3, 12); (3, 13)] /\ (0 <= p)%Qc /\ (p <= 1)%Qc.
Proof. intros H. apply (In_edges g_w _ _ _ (reachable_wf _ reach_w)) in H. assert (forallb (fun e : nat * nat * Qc => existsb (fun k => if eq_dec (fst e) k then true else false) [(1, 11); (1, 13); (2, 11); (2, 12); (3, 12); (3, 13)] && (if Qclt_le_dec (snd e) 0 then false else true) && (if Qclt_le_dec 1 (snd e) then false else true))%bool (edges g_w) = true) as Hf by (vm_compute; reflexivity).
  rewrite forallb_forall in Hf. specialize (Hf _ H). cbn [fst snd] in Hf. apply andb_prop in Hf. destruct Hf as [Hf H3]. apply andb_prop in Hf. destruct Hf as [H1 H2]. splits.
  - apply existsb_exists in H1. destruct H1 as (k & K1 & K2). destruct (eq_dec (x, y) k); [congruence|discriminate].
  - destruct (Qclt_le_dec p 0); [discriminate|assumption].
  - destruct (Qclt_le_dec 1 p); [discriminate|assumption]. Qed.
Lemma valid_w : valid g_w [1; 2; 3] tv_w.
Proof. unfold valid. splits.
  - apply reach_w.
  - cbn. repeat constructor; cbn; intuition lia.
  - intros w Hw C. cbn in *. intuition lia.
  - assert (forall w t, (exists p, edge g_w w t = Some p) -> exists t', has_edge g_w w t') as He by (intros w t H; exists t; exact H). intros w [<-|[<-|[<-|[]]]]; [apply (He 1 11)|apply (He 2 11)|apply (He 3 12)]; eexists; vm_compute; reflexivity.
  - intros w t _ [p H]. apply edges_w in H. destruct H as [H _]. cbn in *. intuition (try congruence).
  - intros t [<-|[<-|[<-|[]]]]; [exists 1|exists 2|exists 1]; eexists; vm_compute; reflexivity. Qed.
(** the greedy passes end with value 1, weapons 1 and 2 on target 11; with weapon 1 on target 13 instead nothing survives *)
Theorem C76_wtap_local_optimum_refuted : exists srt (prob : graph nat unit Qc) weapons tv v asg w t p m, sorts_asc srt /\ valid prob weapons tv /\ NoDup weapons /\
  returns (fun n => wtap_solver srt n prob weapons tv) (Ok (v, asg)) /\ In w weapons /\ edge prob w t = Some p /\ redirected (edges asg) w t p m /\ v = 1%Qc /\ surviving_value tv m = 0%Qc.
Proof. destruct (C54_wtap_value sort_asc g_w [1; 2; 3] tv_w sort_asc_ok valid_w) as (v & asg & Hr & He & Hv); [discriminate|].
  assert (Ok (v, asg) = wtap_solver sort_asc 9 g_w [1; 2; 3] tv_w) as E. { symmetry. apply (returns_of _ _ 9 Hr). vm_compute. discriminate. }
  assert (edges asg = edges (snd (ok_or (v, asg) (wtap_solver sort_asc 9 g_w [1; 2; 3] tv_w)))) as Ee by (rewrite <- E; reflexivity).
  assert (edges (snd (ok_or (v, asg) (wtap_solver sort_asc 9 g_w [1; 2; 3] tv_w))) = [(1, 11, q 1 1); (2, 11, q 1 1); (3, 12, q 1 1)]) as Ee2 by (vm_compute; reflexivity).
  rewrite Ee2 in Ee. clear Ee2. exists sort_asc, g_w, [1; 2; 3], tv_w, v, asg, 1, 13, (q 1 1), [(1, 13, q 1 1); (2, 11, q 1 1); (3, 12, q 1 1)].
  splits; auto using sort_asc_ok, valid_w.
  - repeat constructor; cbn; intuition lia.
  - left. reflexivity.
  - rewrite Ee. split.
    + apply (NoDup_map_inv (fun e => fst (fst e))). cbn. repeat constructor; cbn; intuition lia.
    + intros w t p. cbn [In]. split.
      * intros [H|[H|[H|[]]]]; injection H as <- <- <-; [left; auto|right|right]; (split; [lia|tauto]).
      * intros [(-> & -> & ->)|[H1 [H|[H|[H|[]]]]]]; auto; injection H as <- <- <-; tauto.
  - rewrite Hv, Ee. vm_compute. apply Qc_is_canon. reflexivity. Qed.

(** a case without ties for the positive theorem: weapon 1 alone with targets 11 (3/4 of 8) and 12 (all of 3) *)
Definition ops_w1 : list (op nat unit Qc) := [OpAddEdge 1 11 (q 3 4) false; OpAddEdge 1 12 (q 1 1) false].
Definition g_w1 : graph nat unit Qc := ok_or empty_graph (run ops_w1).
Definition tv_w1 : dict nat Qc := [(11, q 8 1); (12, q 3 1)].
Lemma reach_w1 : reachable g_w1. Proof. exists ops_w1. vm_compute. reflexivity. Qed.
Lemma edges_w1 x y p : edge g_w1 x y = Some p -> (x, y, p) = (1, 11, q 3 4) \/ (x, y, p) = (1, 12, q 1 1).
Proof. intros H. apply (In_edges g_w1 _ _ _ (reachable_wf _ reach_w1)) in H. replace (edges g_w1) with [(1, 11, q 3 4); (1, 12, q 1 1)] in H by (vm_compute; reflexivity). destruct H as [H|[H|[]]]; auto. Qed.
Lemma valid_w1 : valid g_w1 [1] tv_w1.
Proof. unfold valid. splits.
  - apply reach_w1.
  - cbn. repeat constructor; cbn; intuition lia.
  - intros w Hw C. cbn in *. intuition lia.
  - intros w [<-|[]]. exists 11. eexists. vm_compute. reflexivity.
  - intros w t _ [p H]. apply edges_w1 in H. destruct H as [H|H]; injection H as -> -> ->; cbn; auto.
  - intros t [<-|[<-|[]]]; exists 1; eexists; vm_compute; reflexivity. Qed.
Lemma single (m : list (nat * nat * Qc)) t p m' : engages_all g_w1 [1] m -> redirected m 1 t p m' -> Permutation m' [(1, t, p)].
Proof. intros (_ & H & _) [N K]. apply NoDup_Permutation; [exact N|repeat constructor; intros []|]. intros [[x y] r]. rewrite K. cbn [In]. split.
  - intros [(-> & -> & ->)|[H1 H2]]; [auto|]. exfalso. apply (in_map (fun e : nat * nat * Qc => fst (fst e))) in H2. apply H in H2. cbn in H2. destruct H2 as [H2|[]]. lia.
  - intros [E|[]]. injection E as <- <- <-. auto. Qed.
Example ex_wtap : exists v asg, returns (fun n => wtap_solver sort_asc n g_w1 [1] tv_w1) (Ok (v, asg)) /\
    forall w t p m, In w [1] -> edge g_w1 w t = Some p -> redirected (edges asg) w t p m -> (v <= surviving_value tv_w1 m)%Qc.
Proof. apply C76_wtap_local_optimum_partial; auto using sort_asc_ok, valid_w1.
  - discriminate.
  - repeat constructor. intros [].
  - intros x y p H. apply edges_w1 in H. destruct H as [H|H]; injection H as -> -> ->; split; vm_compute; discriminate.
  - intros t v [H|[H|[]]]; injection H as <- <-; vm_compute; discriminate.
  - intros m w t1 p1 t2 p2 m1 m2 Hm [<-|[]] Hne H1 H2 R1 R2. rewrite (value_perm tv_w1 _ _ (single m t1 p1 m1 Hm R1)), (value_perm tv_w1 _ _ (single m t2 p2 m2 Hm R2)).
    apply edges_w1 in H1, H2. destruct H1 as [H1|H1], H2 as [H2|H2]; injection H1 as -> ->; injection H2 as -> ->; try congruence; intros C; apply (f_equal this) in C; vm_compute in C; discriminate. Qed.
Example ex_wtap_none : valid g_w1 [] tv_w1.
Proof. destruct valid_w1 as (H1 & H2 & H3 & H4 & H5 & H6). unfold valid. splits; auto; intros; cbn in *; contradiction. Qed.
(** weapon 9 has no target *)
Example ex_wtap_idle : wtap_solver sort_asc 1 g_w1 [1; 9] tv_w1 = Err IndexError.
Proof. apply (C54_wtap_idle_weapon sort_asc g_w1 [1; 9] tv_w1 0); auto using sort_asc_ok, reach_w1.
  - apply valid_w1.
  - intros w [<-|[<-|[]]] C; cbn in C; intuition lia.
  - intros w t _ [p H]. apply edges_w1 in H. destruct H as [H|H]; injection H as -> -> ->; cbn; auto.
  - apply valid_w1.
  - exists 9. split; [right; left; reflexivity|]. intros t [p H]. apply edges_w1 in H. destruct H as [H|H]; injection H; lia. Qed.
