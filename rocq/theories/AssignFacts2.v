(** ap_solver as a whole *)
From Coq Require Import Sorted.
From Verif Require Import Prelude PreludeFacts Base BaseFacts BaseFacts2 BaseFacts3 Spec SpecFacts Loop SearchFacts BaseAlgFacts MaxFlowFacts AssignSpec Assign AssignFacts.
Local Open Scope Z_scope.

Section Ap.
Context {A O : Type} {EA : EqDec A}.
Notation graph := (graph A O Z).
Implicit Types (g : graph).

Lemma sources_agents g x y : wf g -> bipartite g -> has_edge g x y -> In x (nodes_in_degree g 0) /\ ~ In y (nodes_in_degree g 0) /\ In y (nodes_out_degree g 0).
Proof. intros W HB He. destruct (nodes_deg_list (g_indeg g) 0 (fun n => Z.of_nat (length (edges_to g n)))) as [N1 I1].
  { apply W. } { intros n _. unfold edges_to. rewrite map_length. apply W. }
  destruct (nodes_deg_list (g_outdeg g) 0 (fun n => Z.of_nat (length (edges_from g n)))) as [N2 I2].
  { apply W. } { intros n _. unfold edges_from. rewrite map_length. apply W. }
  destruct (has_edge_nodes _ _ _ W He) as [Hx Hy]. unfold nodes_in_degree, nodes_out_degree. splits.
  - apply I1. split; [apply (wf_ink _ W), Hx|]. destruct (edges_to g x) as [|e l] eqn:E; [reflexivity|]. exfalso. assert (In e (edges_to g x)) as Hi by (rewrite E; left; reflexivity).
    apply (In_edges_to g x _ W) in Hi. destruct Hi as (a & v & _ & Hi). apply (HB a x y); [exists v; exact Hi|exact He].
  - intros C. apply I1 in C. destruct C as [_ C]. destruct He as [v He]. assert (In (x, y, v) (edges_to g y)) as Hi by (apply (In_edges_to g y _ W); eauto). destruct (edges_to g y); [destruct Hi|cbn in C; lia].
  - apply I2. split; [apply (wf_outk _ W), Hy|]. destruct (edges_from g y) as [|e l] eqn:E; [reflexivity|]. exfalso. assert (In e (edges_from g y)) as Hi by (rewrite E; left; reflexivity).
    apply (In_edges_from g y _ W) in Hi. destruct Hi as (a & v & _ & Hi). apply (HB x y a); [exact He|exists v; exact Hi]. Qed.
Lemma agents_nodup g : wf g -> NoDup (nodes_in_degree g 0).
Proof. intros W. apply (nodes_deg_list (g_indeg g) 0 (fun n => Z.of_nat (length (edges_to g n)))); [apply W|]. intros n _. unfold edges_to. rewrite map_length. apply W. Qed.

Lemma fold_min_le (l : list Z) : forall v, fold_left Z.min l v <= v /\ forall x, In x l -> fold_left Z.min l v <= x.
Proof. induction l as [|a l IH]; cbn; intros v; [split; [lia|tauto]|]. destruct (IH (Z.min v a)) as [H1 H2]. split; [lia|]. intros x [<-|H]; [lia|auto]. Qed.

(** edges to add for the dummies *)
Definition dummy_edges (AG DU : list A) (v : Z) : list (A * A * Z) := flat_map (fun task => map (fun agent => (agent, task, v)) AG) DU.
Lemma In_dummy_edges AG DU v a t w : In (a, t, w) (dummy_edges AG DU v) <-> In a AG /\ In t DU /\ w = v.
Proof. unfold dummy_edges. rewrite in_flat_map. split.
  - intros (t' & H1 & H2). apply in_map_iff in H2. destruct H2 as (a' & E & H2). injection E as -> -> ->. auto.
  - intros (H1 & H2 & ->). exists t. split; [exact H2|]. apply in_map_iff. eauto. Qed.
Lemma dummy_keys AG DU v : NoDup AG -> NoDup DU -> NoDup (map ekey (dummy_edges AG DU v)).
Proof. intros H1 H2. unfold dummy_edges. induction DU as [|d DU IH]; cbn; [constructor|]. apply NoDup_cons_iff in H2. destruct H2 as [Hd H2]. rewrite map_app. apply NoDup_app_iff. splits.
  - rewrite map_map. unfold ekey. cbn. clear IH. induction AG as [|a AG IH]; cbn; [constructor|]. apply NoDup_cons_iff in H1. destruct H1 as [Ha H1]. constructor; [|apply IH, H1]. intros C. apply in_map_iff in C. destruct C as (x & E & C). injection E as ->. auto.
  - apply IH, H2.
  - intros [x y] C1 C2. rewrite map_map in C1. apply in_map_iff in C1. destruct C1 as (a & E & _). injection E as <- <-. apply in_map_iff in C2. destruct C2 as ([[a' t'] w] & E & C2). injection E as -> ->. apply (In_dummy_edges AG DU v) in C2. apply Hd, C2. Qed.

Context (srt : list (Z * A) -> list (Z * A)) (Hsrt : forall l, Permutation (srt l) l /\ StronglySorted (fun x y => fst y <= fst x) (srt l)).
Context (fresh : nat -> A).

Lemma ap_no_edges n g : edges g = [] -> ap_solver srt fresh n g = Err ValueError.
Proof. intros H. unfold ap_solver. rewrite H. reflexivity. Qed.

Lemma result_facts g g' AG TS DU vn asg un : reachable g -> reachable asg -> Inv g' AG TS ([], asg, un) -> (forall x, In x DU -> ~ In x (nodes g)) ->
  (forall x y v, edge g' x y = Some v -> edge g x y = Some v \/ In y DU /\ v = vn) -> (forall x y v, edge g x y = Some v -> edge g' x y = Some v /\ vn < v /\ In x AG) ->
  let r := map (fun e : A * A * Z => (snd (fst e), fst (fst e), snd e)) (filter (fun e => negb (mem (fst (fst e)) DU)) (edges asg)) in
  matching g r /\ stable g r.
Proof. intros Rg Ra (_ & _ & _ & He & Hu & Hu2 & _ & _ & Hst) HD Hg1 Hg2 r. pose proof (reachable_wf _ Ra) as W. pose proof (reachable_wf _ Rg) as Wg.
  assert (forall a t v, In (a, t, v) r <-> edge asg t a = Some v /\ ~ In t DU) as Hr.
  { intros a t v. unfold r. rewrite in_map_iff. split.
    - intros ([[t0 a0] v0] & E & H). cbn in E. injection E as -> -> ->. apply filter_In in H. destruct H as [H1 H2]. cbn in H2. split; [apply (In_edges asg t a v W), H1|]. intros C. apply negb_true_iff in H2. apply mem_In in C. congruence.
    - intros [H1 H2]. exists (t, a, v). split; [reflexivity|]. apply filter_In. split; [apply (In_edges asg t a v W), H1|]. cbn. apply negb_true_iff. apply mem_notIn. exact H2. }
  assert (forall a t v v', edge asg t a = Some v -> edge asg t a = Some v' -> v = v') as Hf by (intros; congruence).
  assert (NoDup (map ekey (filter (fun e => negb (mem (fst (fst e)) DU)) (edges asg)))) as HN.
  { pose proof (NoDup_edges asg W) as H. revert H. generalize (edges asg). intros l. induction l as [|e l IH]; cbn; [auto|]. intros H. apply NoDup_cons_iff in H. destruct H as [H1 H2]. destruct (negb (mem (fst (fst e)) DU)); cbn; [|auto]. constructor; [|auto]. intros C. apply H1. apply in_map_iff in C. destruct C as (x & E & C). apply filter_In in C. apply in_map_iff. exists x. tauto. }
  assert (forall X (f : A * A -> X) (l : list (A * A * Z)), NoDup (map ekey l) -> (forall e e', In e l -> In e' l -> f (ekey e) = f (ekey e') -> ekey e = ekey e') -> NoDup (map (fun e => f (ekey e)) l)) as Hinj.
  { intros X f l. induction l as [|e l IH]; cbn; intros H H'; [constructor|]. apply NoDup_cons_iff in H. destruct H as [H1 H2]. constructor; [|apply IH; auto].
    intros C. apply in_map_iff in C. destruct C as (x & E & C). apply H1. rewrite <- (H' x e); auto. apply in_map_iff. eauto. }
  assert (forall e, In e (filter (fun e => negb (mem (fst (fst e)) DU)) (edges asg)) -> has_edge asg (fst (ekey e)) (snd (ekey e))) as Hh.
  { intros [[t a] v] H. apply filter_In in H. exists v. apply (In_edges asg t a v W). apply H. }
  split.
  - unfold matching. splits.
    + intros a t v H. apply Hr in H. destruct H as [H1 H2]. apply He in H1. destruct H1 as [H1 _]. destruct (Hg1 _ _ _ H1) as [?|[? _]]; [assumption|contradiction].
    + unfold r. rewrite map_map. cbn [fst snd]. apply (Hinj A (@snd A A)); [exact HN|]. intros e e' H1 H2 E. apply Hh in H1, H2. destruct (ekey e) as [t a], (ekey e') as [t' a']. cbn in *. subst a'. f_equal. apply (Hu2 t t' a); assumption.
    + unfold r. rewrite map_map. cbn [fst snd]. apply (Hinj A (@fst A A)); [exact HN|]. intros e e' H1 H2 E. apply Hh in H1, H2. destruct (ekey e) as [t a], (ekey e') as [t' a']. cbn in *. subst t'. f_equal. apply (Hu t a a'); assumption.
  - intros a t v H. destruct (Hg2 _ _ _ H) as (H1 & H2 & H3). destruct (Hst a H3 (fun x => x) t v H1) as [(t' & v' & K1 & K2)|(a' & v' & K1 & K2)].
    + left. exists t', v'. split; [|exact K2]. apply Hr. split; [exact K1|]. intros C. destruct (He _ _ _ K1) as [K3 _]. destruct (Hg1 _ _ _ K3) as [K4|[_ K4]]; [|lia].
      apply (HD _ C). apply (has_edge_nodes g a t' Wg). exists v'. exact K4.
    + right. exists a', v'. split; [|exact K2]. apply Hr. split; [exact K1|]. intros C. apply (HD _ C). apply (has_edge_nodes g a t Wg). exists v. exact H. Qed.

Lemma ap_spec g : reachable g -> bipartite g -> edges g <> [] ->
  (forall i j, fresh i = fresh j -> i = j) -> (forall i, ~ In (fresh i) (nodes g) /\ ~ In (fresh i) (nodes_in_degree g 0)) ->
  exists r g', returns (fun n => ap_solver srt fresh n g) (Ok (r, g')) /\ matching g r /\ stable g r /\
    ((length (nodes_in_degree g 0) <= length (nodes_out_degree g 0))%nat -> g' = g) /\
    (forall a t v, edge g a t = Some v -> edge g' a t = Some v).
Proof. intros Rg HB HE Hinj Hfr. pose proof (reachable_wf _ Rg) as W. unfold ap_solver.
  destruct (map snd (edges g)) as [|v vs] eqn:Em; [destruct (edges g); [congruence|discriminate]|].
  set (AG := nodes_in_degree g 0). set (TS := nodes_out_degree g 0). set (vn := fold_left Z.min vs v - 1).
  set (DU := map fresh (seq 0 (length AG - length TS))).
  assert (forall x y w, edge g x y = Some w -> vn < w) as Hvn.
  { intros x y w H. apply (In_edges g x y w W) in H. apply (in_map snd) in H. rewrite Em in H. cbn [snd] in H. destruct (fold_min_le vs v) as [K1 K2]. unfold vn. destruct H as [H|H]; [lia|]. specialize (K2 _ H). lia. }
  pose proof (agents_nodup g W) as HND. fold AG in HND.
  assert (forall x, In x DU -> ~ In x (nodes g)) as HD. { intros x H. apply in_map_iff in H. destruct H as (i & <- & _). apply Hfr. }
  destruct (length TS <? length AG)%nat eqn:El.
  - assert (NoDup DU) as HNU. { unfold DU. apply FinFun.Injective_map_NoDup; [exact Hinj|apply seq_NoDup]. }
    fold (dummy_edges AG DU vn).
    destruct (add_edges_spec (dummy_edges AG DU vn) g W (dummy_keys AG DU vn HND HNU)) as (g' & Hf & W' & _ & E1 & E2 & _ & _).
    assert (reachable g') as R'.
    { revert Hf. generalize (dummy_edges AG DU vn) as l. intros l. revert Rg. clear. revert g. induction l as [|[[a b] v] l IH]; cbn [foldM]; intros g R H; [injection H as <-; exact R|].
      destruct (add_edge g a b v false) as [g1| |] eqn:E; cbn [bind] in H; try discriminate. apply (IH g1); [|exact H]. destruct (reachable_add_edge g a b v R) as (g2 & E2 & R2 & _); congruence. }
    rewrite Hf. cbn [bind fst snd].
    assert (forall x y w, edge g' x y = Some w -> edge g x y = Some w \/ In x AG /\ In y DU /\ w = vn) as Hg1.
    { intros x y w H. destruct (in_dec eq_dec (x, y) (map ekey (dummy_edges AG DU vn))) as [Hi|Hi]; [|left; rewrite <- (E2 x y Hi); exact H].
      right. apply in_map_iff in Hi. destruct Hi as ([[a t] u] & E & Hi). injection E as -> ->. rewrite (E1 _ _ _ Hi) in H. injection H as <-. apply (In_dummy_edges AG DU vn) in Hi. exact Hi. }
    assert (forall x y w, edge g x y = Some w -> edge g' x y = Some w) as Hg2.
    { intros x y w H. rewrite E2; [exact H|]. intros C. apply in_map_iff in C. destruct C as ([[a t] u] & E & C). injection E as -> ->. apply (In_dummy_edges AG DU vn) in C. apply (HD y); [apply C|]. apply (has_edge_nodes g x y W). exists w. exact H. }
    destruct (auction_spec srt Hsrt g' R' AG (TS ++ DU) HND (vn - 1)) with (un := set_of (TS ++ DU)) as (asg & Hr & HI).
    + intros x y [w H]. destruct (Hg1 _ _ _ H) as [K|(K1 & K2 & _)].
      * destruct (sources_agents g x y W HB) as (K1 & K2 & _); [exists w; exact K|]. split; assumption.
      * split; [exact K1|]. apply in_map_iff in K2. destruct K2 as (i & <- & _). apply Hfr.
    + intros x y [w H]. apply in_app_iff. destruct (Hg1 _ _ _ H) as [K|(K1 & K2 & _)]; [left|right; exact K2]. apply (sources_agents g x y W HB). exists w; exact K.
    + intros x y w H. destruct (Hg1 _ _ _ H) as [K|(_ & _ & ->)]; [specialize (Hvn _ _ _ K)|]; lia.
    + intros t Ht. apply In_set_of. exact Ht.
    + eexists _, g'. split.
      { apply (returns_bind_ok _ (fun y => _) asg Hr). }
      destruct (result_facts g g' AG (TS ++ DU) DU vn asg (set_of (TS ++ DU)) Rg) as [K1 K2]; auto.
      * apply HI.
      * intros x y w H. destruct (Hg1 _ _ _ H) as [?|(_ & ? & ?)]; auto.
      * intros x y w H. splits; [apply Hg2, H|apply (Hvn x y w H)|]. apply (sources_agents g x y W HB). exists w. exact H.
      * splits; auto. intros C. apply Nat.ltb_lt in El. fold AG TS in C. lia.
  - cbn [bind fst snd]. assert (DU = []) as ED. { unfold DU. apply Nat.ltb_ge in El. replace (length AG - length TS)%nat with 0%nat by lia. reflexivity. }
    destruct (auction_spec srt Hsrt g Rg AG (TS ++ DU) HND vn) with (un := set_of (TS ++ DU)) as (asg & Hr & HI).
    + intros x y H. destruct (sources_agents g x y W HB H) as (K1 & K2 & _). auto.
    + intros x y H. apply in_app_iff. left. apply (sources_agents g x y W HB H).
    + exact Hvn.
    + intros t Ht. apply In_set_of. exact Ht.
    + eexists _, g. split.
      { apply (returns_bind_ok _ (fun y => _) asg Hr). }
      destruct (result_facts g g AG (TS ++ DU) DU vn asg (set_of (TS ++ DU)) Rg) as [K1 K2]; auto.
      * apply HI.
      * intros x y w H. splits; [exact H|apply (Hvn x y w H)|]. apply (sources_agents g x y W HB). exists w. exact H.
Qed.
End Ap.
