(** C52, C53: ap_solver *)
From Coq Require Import Sorted.
From Verif Require Import Prelude PreludeFacts Base BaseFacts BaseFacts2 BaseFacts3 Spec SpecFacts Loop BaseAlgFacts MaxFlowFacts AssignSpec Assign AssignFacts AssignFacts2.
Local Open Scope Z_scope.

Section Props.
Context {A O : Type} {EA : EqDec A}.
Notation graph := (graph A O Z).
Implicit Types (g : graph).
(** list.sort(reverse=True): a permutation in which the values never increase, in any order of equal values *)
Definition sorts_desc (srt : list (Z * A) -> list (Z * A)) : Prop := forall l, Permutation (srt l) l /\ StronglySorted (fun x y => fst y <= fst x) (srt l).
(** uuid4().hex gives names that are new each time and that the graph does not know *)
Definition fresh_names g (fresh : nat -> A) : Prop :=
  (forall i j, fresh i = fresh j -> i = j) /\ (forall i, ~ In (fresh i) (nodes g) /\ ~ In (fresh i) (nodes_in_degree g 0)).

(** ** C52: ap_solver always ends with a stable matching of edges of the graph *)
Theorem C52_ap_matching srt fresh g : sorts_desc srt -> fresh_names g fresh -> reachable g -> bipartite g -> (exists x y, has_edge g x y) ->
  exists r g', returns (fun n => ap_solver srt fresh n g) (Ok (r, g')) /\ matching g r /\ stable g r.
Proof. intros H1 [H2 H3] R HB (x & y & v & He). destruct (ap_spec srt H1 fresh g R HB) as (r & g' & K1 & K2 & K3 & _); eauto.
  intros C. apply (In_edges g x y v (reachable_wf _ R)) in He. rewrite C in He. destruct He. Qed.
(** without edges there is no minimum to take *)
Theorem C52_ap_empty srt fresh n g : reachable g -> (forall x y, ~ has_edge g x y) -> ap_solver srt fresh n g = Err ValueError.
Proof. intros R H. apply ap_no_edges. destruct (edges g) as [|[[x y] v] l] eqn:E; [reflexivity|]. exfalso. apply (H x y). exists v. apply (In_edges g x y v (reachable_wf _ R)). rewrite E. left. reflexivity. Qed.

(** ** C53: what is left of optimality: at least half the value of any matching, when values are not negative *)
Definition wt (key : A * A * Z -> A) (m : list (A * A * Z)) (k : A) : Z := total (filter (fun e => if eq_dec (key e) k then true else false) m).
Lemma wt_nonneg key m k : (forall e, In e m -> 0 <= snd e) -> 0 <= wt key m k.
Proof. intros H. unfold wt. induction m as [|e m IH]; cbn; [lia|]. assert (0 <= snd e) by (apply H; left; reflexivity). assert (0 <= total (filter (fun e => if eq_dec (key e) k then true else false) m)) by (apply IH; intros; apply H; right; assumption). destruct (eq_dec (key e) k); cbn; lia. Qed.
Lemma wt_In key m e : (forall e, In e m -> 0 <= snd e) -> In e m -> snd e <= wt key m (key e).
Proof. intros H. induction m as [|e' m IH]; [intros []|]. intros Hi. assert (forall e, In e m -> 0 <= snd e) as Hm by (intros; apply H; right; assumption). pose proof (wt_nonneg key m (key e) Hm) as Hp. assert (0 <= snd e') by (apply H; left; reflexivity).
  unfold wt in *. cbn [filter]. destruct Hi as [->|Hi].
  - destruct (eq_dec (key e) (key e)); [cbn; lia|congruence].
  - specialize (IH Hm Hi). destruct (eq_dec (key e') (key e)); cbn; lia. Qed.
Fixpoint sum_wt key m (ks : list A) : Z := match ks with [] => 0 | k :: ks => wt key m k + sum_wt key m ks end.
Lemma sum_wt_le key m ks : NoDup ks -> (forall e, In e m -> 0 <= snd e) -> sum_wt key m ks <= total m.
Proof. intros HN. induction m as [|e m IH]; intros H.
  - induction ks as [|k ks IHk]; cbn; [lia|]. apply NoDup_cons_iff in HN. specialize (IHk (proj2 HN)). cbn in IHk. lia.
  - assert (forall e, In e m -> 0 <= snd e) as Hm by (intros; apply H; right; assumption). specialize (IH Hm). assert (0 <= snd e) as He by (apply H; left; reflexivity).
    assert (forall ks, ~ In (key e) ks -> sum_wt key (e :: m) ks = sum_wt key m ks) as Hn.
    { intros l. induction l as [|k l IHl]; cbn [sum_wt]; intros Hk; [reflexivity|]. rewrite IHl by (intros C; apply Hk; right; exact C). f_equal. unfold wt. cbn [filter]. destruct (eq_dec (key e) k); [exfalso; apply Hk; left; congruence|reflexivity]. }
    assert (sum_wt key (e :: m) ks <= snd e + sum_wt key m ks); [|cbn [total]; lia]. clear IH. induction ks as [|k ks IHk]; cbn [sum_wt]; [lia|]. apply NoDup_cons_iff in HN. destruct HN as [Hk HN]. specialize (IHk HN).
    unfold wt at 1. cbn [filter]. destruct (eq_dec (key e) k) as [<-|]; [rewrite (Hn ks Hk)|]; cbn [total]; unfold wt; lia. Qed.
Lemma half g r m : stable g r -> matching g r -> matching g m -> (forall x y v, edge g x y = Some v -> 0 <= v) -> total m <= 2 * total r.
Proof. intros HS (Hr & _ & _) (Hm & Ha & Ht) Hp. assert (forall e, In e r -> 0 <= snd e) as Hrp by (intros [[a t] v] H; apply (Hp a t), (Hr a t v H)).
  pose proof (sum_wt_le (fun e => fst (fst e)) r _ Ha Hrp) as H1. pose proof (sum_wt_le (fun e => snd (fst e)) r _ Ht Hrp) as H2. clear Ha Ht.
  enough (total m <= sum_wt (fun e => fst (fst e)) r (map (fun e => fst (fst e)) m) + sum_wt (fun e => snd (fst e)) r (map (fun e => snd (fst e)) m)) by lia. clear H1 H2.
  induction m as [|[[a t] v] m IH]; cbn [total map sum_wt]; [lia|]. specialize (IH (fun a t v H => Hm a t v (or_intror H))).
  assert (edge g a t = Some v) as He by (apply Hm; left; reflexivity). pose proof (wt_nonneg (fun e => fst (fst e)) r a Hrp) as P1. pose proof (wt_nonneg (fun e => snd (fst e)) r t Hrp) as P2. cbn [fst snd] in *.
  destruct (HS a t v He) as [(t' & v' & K1 & K2)|(a' & v' & K1 & K2)].
  - pose proof (wt_In (fun e => fst (fst e)) r _ Hrp K1) as Q. cbn [fst snd] in Q. lia.
  - pose proof (wt_In (fun e => snd (fst e)) r _ Hrp K1) as Q. cbn [fst snd] in Q. lia. Qed.
Theorem C53_ap_half_optimal_partial srt fresh g : sorts_desc srt -> fresh_names g fresh -> reachable g -> bipartite g -> (exists x y, has_edge g x y) ->
  (forall x y v, edge g x y = Some v -> 0 <= v) ->
  exists r g', returns (fun n => ap_solver srt fresh n g) (Ok (r, g')) /\ matching g r /\ forall m, matching g m -> total m <= 2 * total r.
Proof. intros H1 H2 R HB He Hp. destruct (C52_ap_matching srt fresh g H1 H2 R HB He) as (r & g' & K1 & K2 & K3). exists r, g'. splits; auto. intros m Hm. apply (half g); assumption. Qed.
(** the graph keeps its edges, and is the same graph unless there are more agents (nodes without incoming edges) than tasks *)
Theorem C53_ap_input_partial srt fresh g : sorts_desc srt -> fresh_names g fresh -> reachable g -> bipartite g -> (exists x y, has_edge g x y) ->
  exists r g', returns (fun n => ap_solver srt fresh n g) (Ok (r, g')) /\ (forall a t v, edge g a t = Some v -> edge g' a t = Some v) /\
    ((length (nodes_in_degree g 0) <= length (nodes_out_degree g 0))%nat -> g' = g).
Proof. intros H1 [H2 H3] R HB (x & y & v & He). destruct (ap_spec srt H1 fresh g R HB) as (r & g' & K1 & K2 & K3 & K4 & K5); eauto.
  intros C. apply (In_edges g x y v (reachable_wf _ R)) in He. rewrite C in He. destruct He. Qed.
End Props.
Close Scope Z_scope.

(** a sort that fits the hypothesis *)
Fixpoint ins_desc {A} (x : Z * A) (l : list (Z * A)) : list (Z * A) := match l with [] => [x] | y :: r => if (fst y <? fst x)%Z then x :: l else y :: ins_desc x r end.
Definition sort_desc {A} (l : list (Z * A)) : list (Z * A) := fold_right ins_desc [] l.
Lemma sort_desc_ok {A} : sorts_desc (@sort_desc A).
Proof. intros l. induction l as [|x l [IH1 IH2]]; [split; constructor|]. change (sort_desc (x :: l)) with (ins_desc x (sort_desc l)). revert IH1 IH2. generalize (sort_desc l) as s. intros s H1 H2. split.
  - apply (Permutation_trans (l' := x :: s)); [|constructor; exact H1]. clear. induction s as [|y s IH]; cbn; [reflexivity|]. destruct (fst y <? fst x)%Z; [reflexivity|]. rewrite IH. constructor.
  - clear H1 l. induction s as [|y s IH]; cbn; [repeat constructor|]. apply StronglySorted_inv in H2. destruct H2 as [H2 H3]. destruct (fst y <? fst x)%Z eqn:E.
    + apply Z.ltb_lt in E. constructor; [constructor; assumption|]. constructor; [lia|]. eapply Forall_impl; [|exact H3]. cbn. intros a Ha. lia.
    + apply Z.ltb_ge in E. constructor; [apply IH, H2|]. apply Forall_forall. intros z Hz. assert (z = x \/ In z s) as [->|Hz'].
      { clear - Hz. induction s as [|w s IH]; cbn in Hz; [destruct Hz as [<-|[]]; auto|]. destruct (fst w <? fst x)%Z; [destruct Hz as [<-|Hz]; auto|]. destruct Hz as [<-|Hz]; [right; left; reflexivity|]. destruct (IH Hz); [auto|right; right; assumption]. }
      * exact E.
      * rewrite Forall_forall in H3. apply H3, Hz'. Qed.

(** agents 1, 2 and tasks 11, 12; and the same with a third agent *)
Definition ops_ap : list (op nat unit Z) := [OpAddEdge 1 11 10%Z false; OpAddEdge 1 12 9%Z false; OpAddEdge 2 11 9%Z false; OpAddEdge 2 12 0%Z false].
Definition g_ap : graph nat unit Z := ok_or empty_graph (run ops_ap).
Definition ops_ap3 : list (op nat unit Z) := [OpAddEdge 1 11 10%Z false; OpAddEdge 1 12 9%Z false; OpAddEdge 2 11 9%Z false; OpAddEdge 2 12 0%Z false; OpAddEdge 3 12 5%Z false].
Definition g_ap3 : graph nat unit Z := ok_or empty_graph (run ops_ap3).
Definition names (i : nat) : nat := 100 + i.
Lemma names_fresh g : forallb (fun n => n <? 100) (nodes g ++ nodes_in_degree g 0) = true -> @fresh_names nat unit g names.
Proof. intros H. rewrite forallb_forall in H. split; [unfold names; intros; lia|]. intros i. split; intros C; assert (names i < 100) by (apply Nat.ltb_lt, H, in_app_iff; auto); unfold names in *; lia. Qed.
Lemma bip_check (g : graph nat unit Z) : reachable g -> forallb (fun e => forallb (fun e' => negb (snd (fst e) =? fst (fst e'))) (edges g)) (edges g) = true -> bipartite g.
Proof. intros R H x y z [v H1] [w H2]. apply (In_edges g _ _ _ (reachable_wf _ R)) in H1, H2. rewrite forallb_forall in H. specialize (H _ H1). rewrite forallb_forall in H. specialize (H _ H2). cbn in H. rewrite Nat.eqb_refl in H. discriminate. Qed.
Lemma reach_ap : reachable g_ap. Proof. exists ops_ap. vm_compute. reflexivity. Qed.
Lemma reach_ap3 : reachable g_ap3. Proof. exists ops_ap3. vm_compute. reflexivity. Qed.

(** optimality fails: 1 and 2 both want 11; the solver gives 11 to 1 (10) and 12 to 2 (0), the other way round is worth 18 *)
Theorem C53_ap_optimal_refuted : exists srt fresh (g : graph nat unit Z) r g' m, sorts_desc srt /\ fresh_names g fresh /\ reachable g /\ bipartite g /\
  returns (fun n => ap_solver srt fresh n g) (Ok (r, g')) /\ matching g m /\ total r = 10%Z /\ total m = 18%Z.
Proof. pose proof (bip_check g_ap reach_ap ltac:(vm_compute; reflexivity)) as HB. pose proof (names_fresh g_ap ltac:(vm_compute; reflexivity)) as HF.
  destruct (C52_ap_matching sort_desc names g_ap sort_desc_ok HF reach_ap HB) as (r & g' & Hr & _). { exists 1, 11. exists 10%Z. vm_compute. reflexivity. }
  exists sort_desc, names, g_ap, r, g', [(1, 12, 9%Z); (2, 11, 9%Z)].
  assert (Ok (r, g') = ap_solver sort_desc names 20 g_ap) as E. { symmetry. apply (returns_of _ _ 20 Hr). vm_compute. discriminate. }
  splits; auto using sort_desc_ok, reach_ap.
  - unfold matching. splits.
    + intros a t v [H|[H|[]]]; injection H as <- <- <-; vm_compute; reflexivity.
    + cbn. repeat constructor; cbn; intuition lia.
    + cbn. repeat constructor; cbn; intuition lia.
  - assert (r = fst (ok_or ([], g') (ap_solver sort_desc names 20 g_ap))) as -> by (rewrite <- E; reflexivity). vm_compute. reflexivity. Qed.
(** and with more agents than tasks the graph passed in has an additional node and edges afterwards *)
Theorem C53_ap_input_refuted : exists srt fresh (g : graph nat unit Z) r g', sorts_desc srt /\ fresh_names g fresh /\ reachable g /\ bipartite g /\
  returns (fun n => ap_solver srt fresh n g) (Ok (r, g')) /\ length (nodes g) = 5 /\ length (nodes g') = 6 /\ length (edges g') = 8.
Proof. pose proof (bip_check g_ap3 reach_ap3 ltac:(vm_compute; reflexivity)) as HB. pose proof (names_fresh g_ap3 ltac:(vm_compute; reflexivity)) as HF.
  destruct (C52_ap_matching sort_desc names g_ap3 sort_desc_ok HF reach_ap3 HB) as (r & g' & Hr & _). { exists 1, 11. exists 10%Z. vm_compute. reflexivity. }
  exists sort_desc, names, g_ap3, r, g'.
  assert (Ok (r, g') = ap_solver sort_desc names 20 g_ap3) as E. { symmetry. apply (returns_of _ _ 20 Hr). vm_compute. discriminate. }
  assert (g' = snd (ok_or ([], g') (ap_solver sort_desc names 20 g_ap3))) as Eg by (rewrite <- E; reflexivity).
  splits; auto using sort_desc_ok, reach_ap3; rewrite Eg; vm_compute; reflexivity. Qed.

(** a case for the positive theorems: three agents, two tasks; 3 gets the task 12, 2 stays without one *)
Example ex_ap : exists r g', returns (fun n => ap_solver sort_desc names n g_ap3) (Ok (r, g')) /\ matching g_ap3 r /\ stable g_ap3 r /\ r = [(1, 11, 10%Z); (3, 12, 5%Z)].
Proof. pose proof (bip_check g_ap3 reach_ap3 ltac:(vm_compute; reflexivity)) as HB. pose proof (names_fresh g_ap3 ltac:(vm_compute; reflexivity)) as HF.
  destruct (C52_ap_matching sort_desc names g_ap3 sort_desc_ok HF reach_ap3 HB) as (r & g' & Hr & H1 & H2). { exists 1, 11. exists 10%Z. vm_compute. reflexivity. }
  exists r, g'. splits; auto. assert (Ok (r, g') = ap_solver sort_desc names 20 g_ap3) as E. { symmetry. apply (returns_of _ _ 20 Hr). vm_compute. discriminate. }
  assert (r = fst (ok_or ([], g') (ap_solver sort_desc names 20 g_ap3))) as -> by (rewrite <- E; reflexivity). vm_compute. reflexivity. Qed.
Example ex_ap_half : exists r g', returns (fun n => ap_solver sort_desc names n g_ap) (Ok (r, g')) /\ matching g_ap r /\ forall m, matching g_ap m -> (total m <= 2 * total r)%Z.
Proof. apply C53_ap_half_optimal_partial; auto using sort_desc_ok, reach_ap.
  - apply names_fresh. vm_compute. reflexivity.
  - apply (bip_check g_ap reach_ap). vm_compute. reflexivity.
  - exists 1, 11. exists 10%Z. vm_compute. reflexivity.
  - intros x y v H. apply (In_edges g_ap _ _ _ (reachable_wf _ reach_ap)) in H. assert (forallb (fun e => (0 <=? snd e)%Z) (edges g_ap) = true) as Hf by (vm_compute; reflexivity). rewrite forallb_forall in Hf. specialize (Hf _ H). apply Z.leb_le in Hf. exact Hf. Qed.
Example ex_ap_input : (length (nodes_in_degree g_ap 0) <= length (nodes_out_degree g_ap 0))%nat.
Proof. vm_compute. auto. Qed.
