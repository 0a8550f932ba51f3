(** Proofs about topological_sort and has_cycles. *)
From Verif Require Import Prelude PreludeFacts Base BaseFacts BaseFacts2 BaseFacts3 Spec SpecFacts Loop SearchFacts BaseAlgFacts Topo.

Section F.
Context {A O V : Type} {EA : EqDec A}.
Notation graph := (graph A O V).
Implicit Types (g : graph) (a b x y : A).

Lemma del_nodes_spec z : forall g, wf g -> clean g ->
  exists g', foldM (fun g2 task => del_node g2 task) z g = Ok g' /\ wf g' /\ clean g' /\
    (forall x, In x (nodes g') <-> In x (nodes g) /\ ~ In x z) /\
    (forall x y v, edge g' x y = Some v <-> edge g x y = Some v /\ ~ In x z /\ ~ In y z).
Proof. induction z as [|n z IH]; intros g W C; cbn.
  - exists g. splits; auto; tauto.
  - destruct (del_node_spec g n W) as (g1 & -> & W1 & C1 & N1 & E1). cbn. destruct (IH g1 W1 (C1 C)) as (g' & Eg & W' & C' & N' & E').
    exists g'. splits; auto.
    + intros x. rewrite N'. unfold nodes at 1. rewrite N1, In_dkeys_ddel by apply W. unfold nodes. intuition congruence.
    + intros x y v. rewrite E', E1. destruct (eq_dec x n) as [->|Hx]; [split; [intros [? _]; discriminate|tauto]|].
      destruct (eq_dec y n) as [->|Hy]; [split; [intros [? _]; discriminate|tauto]|]. intuition congruence. Qed.

Lemma nodes_in_degree_0 g : wf g -> clean g ->
  NoDup (nodes_in_degree g 0) /\ forall x, In x (nodes_in_degree g 0) <-> In x (nodes g) /\ forall y, ~ has_edge g y x.
Proof. intros W [C _]. unfold nodes_in_degree.
  assert (NoDup (dkeys (g_indeg g))) as Hnd by (rewrite C; apply W).
  destruct (nodes_deg_list (g_indeg g) 0%Z (fun n => Z.of_nat (length (inner (g_rev g) n)))) as [H1 H2]; [exact Hnd|intros n _; apply (wf_in _ W)|].
  split; [exact H1|]. intros x. rewrite H2, C. split; intros [Hx H]; (split; [exact Hx|]).
  - intros y Hy. apply (In_to g y x W) in Hy. unfold nodes_to in Hy. destruct (inner (g_rev g) x); [destruct Hy|cbn in H; lia].
  - destruct (inner (g_rev g) x) as [|[y v] t] eqn:E; [reflexivity|exfalso]. apply (H y), (In_to g y x W). unfold nodes_to. rewrite E. cbn; auto. Qed.

(** every edge into a member of the list comes from an earlier member *)
Definition preds_first (R : A -> A -> Prop) (l : list A) : Prop :=
  forall l1 y l2, l = l1 ++ y :: l2 -> forall x, R x y -> In x l1.
Lemma preds_first_app (R : A -> A -> Prop) l z : preds_first R l -> (forall y x, In y z -> R x y -> In x l) -> preds_first R (l ++ z).
Proof. intros H1 H2 l1 y l2 E x Hxy.
  assert ((exists l2', l = l1 ++ y :: l2') \/ exists z1, l1 = l ++ z1 /\ In y z) as [(l2' & ->)|(z1 & -> & Hy)].
  { clear - E. revert l E. induction l1 as [|p l1 IH]; intros l E.
    - destruct l as [|q l]; cbn in E; [right; exists []; split; [reflexivity|rewrite E; cbn; auto]|]. inv E. left. exists l. reflexivity.
    - destruct l as [|q l]; cbn in E.
      + right. exists (p :: l1). split; [reflexivity|]. rewrite E. right. apply in_or_app; cbn; auto.
      + inv E. destruct (IH l H1) as [(l2' & ->)|(z1 & -> & Hy)]; [left; exists l2'; reflexivity|right; exists z1; auto]. }
  - eapply H1; eauto.
  - apply in_or_app. left. eauto. Qed.
Lemma preds_first_acyclic (R : A -> A -> Prop) l : NoDup l -> preds_first R l -> (forall x y, R x y -> In y l) -> acyclic R.
Proof. intros Hn Hp Hin a Ha.
  assert (forall b l1 l2, l = l1 ++ b :: l2 -> forall x, reach1 R x b -> In x l1) as G.
  { intros b l1 l2 E x Hx. apply reach1_last in Hx. destruct Hx as (c & Hxc & Hcb).
    assert (forall c, reach R x c -> forall m1 m2, l = m1 ++ c :: m2 -> x = c \/ In x m1) as G1.
    { clear - Hp Hn EA. intros c Hc. revert c Hc. apply (reach_ind_r R x (fun c => forall m1 m2, l = m1 ++ c :: m2 -> x = c \/ In x m1)).
      - auto.
      - intros b c _ IH Hbc m1 m2 E. right. pose proof (Hp _ _ _ E b Hbc) as Hb. apply in_split in Hb. destruct Hb as (k1 & k2 & ->).
        destruct (IH k1 (k2 ++ c :: m2)) as [->|H]; [rewrite E, <- app_assoc; reflexivity|apply in_or_app; cbn; auto|apply in_or_app; auto]. }
    pose proof (Hp _ _ _ E c Hcb) as Hc. apply in_split in Hc. destruct Hc as (k1 & k2 & ->).
    destruct (G1 c Hxc k1 (k2 ++ b :: l2)) as [->|H]; [rewrite E, <- app_assoc; reflexivity| |]; apply in_or_app; cbn; auto. }
  assert (In a l) as Hal by (apply reach1_last in Ha; destruct Ha as (c & _ & Hc); eauto).
  apply in_split in Hal. destruct Hal as (l1 & l2 & E). pose proof (G a l1 l2 E a Ha) as Hin1. rewrite E in Hn.
  apply NoDup_app_iff in Hn. destruct Hn as (_ & _ & Hd). apply (Hd a Hin1). cbn; auto. Qed.

Lemma topological_sort_of_spec cl srt g : wf g -> (forall l, Permutation (srt l) l) ->
  exists out err, returns (fun n => topological_sort_of cl srt n g) (Ok (out, err)) /\
    NoDup out /\ incl out (nodes g) /\ preds_first (has_edge g) out /\
    ((err = None /\ acyclic (has_edge g) /\ Permutation out (nodes g)) \/
     (err = Some AttributeError /\ exists x, In x (nodes g) /\ ~ In x out /\ reach1 (has_edge g) x x)).
Proof. intros W Hsrt. set (R := has_edge g). unfold topological_sort_of.
  destruct (copy_of_spec cl g W) as (g0 & -> & W0 & C0 & N0 & E0). cbn [bind].
  pose (I := fun st : graph * list A => let '(g2, out) := st in
    wf g2 /\ clean g2 /\ NoDup out /\ incl out (nodes g) /\ preds_first R out /\
    (forall x, In x (nodes g2) <-> In x (nodes g) /\ ~ In x out) /\
    (forall x y v, edge g2 x y = Some v <-> edge g x y = Some v /\ ~ In x out /\ ~ In y out)).
  destruct (loop_returns_nat (topo_step srt) I (fun st => length (nodes (fst st)))
    (fun r => exists out err, r = Ok (out, err) /\ NoDup out /\ incl out (nodes g) /\ preds_first R out /\
    ((err = None /\ acyclic R /\ Permutation out (nodes g)) \/ (err = Some AttributeError /\ exists x, In x (nodes g) /\ ~ In x out /\ reach1 R x x))))
    with (s := (g0, @nil A)) as (r & Hr & out & err & -> & HN).
  - intros [g2 out] (I1 & I2 & I3 & I4 & I5 & I6 & I7). unfold topo_step.
    destruct (nodes_in_degree_0 g2 I1 I2) as [Z1 Z2]. pose proof (Hsrt (nodes_in_degree g2 0)) as Hp.
    assert (forall x, In x (srt (nodes_in_degree g2 0)) <-> In x (nodes g2) /\ forall y, ~ has_edge g2 y x) as Hz.
    { intros x. rewrite <- Z2. split; apply Permutation_in; [exact Hp|symmetry; exact Hp]. }
    assert (NoDup (srt (nodes_in_degree g2 0))) as Hnz by (eapply Permutation_NoDup; [symmetry; exact Hp|exact Z1]).
    destruct (srt (nodes_in_degree g2 0)) as [|t z] eqn:Es.
    + destruct (is_nil (nodes g2)) eqn:En; (split; [discriminate|]).
      * destruct (nodes g2); [|discriminate]. exists out, None. splits; auto. left. splits; auto.
        -- apply (preds_first_acyclic R out I3 I5). intros x y Hxy. destruct (In_dec' y out) as [h|h]; [exact h|exfalso].
           apply (I6 y). split; [apply (has_edge_nodes g x y W Hxy)|exact h].
        -- apply NoDup_Permutation; [exact I3|apply W|]. intros x. split; [apply I4|]. intros Hx.
           destruct (In_dec' x out) as [h|h]; [exact h|exfalso]. apply (I6 x). auto.
      * exists out, (Some AttributeError). splits; auto. right. split; [reflexivity|].
        destruct (nodes g2) as [|x0 l] eqn:El; [discriminate|].
        destruct (pred_cycle (has_edge g2) (nodes g2) x0) as (x & Hx & Hcyc).
        -- rewrite El. cbn; auto.
        -- intros x Hx. destruct (nodes_to g2 x) as [|y t] eqn:Et.
           ++ exfalso. apply (Hz x). rewrite El in Hx. split; [exact Hx|]. intros y Hy. apply (In_to g2 y x I1) in Hy. rewrite Et in Hy. destruct Hy.
           ++ exists y. assert (has_edge g2 y x) as Hyx by (apply (In_to g2 y x I1); rewrite Et; cbn; auto).
              split; [apply (has_edge_nodes g2 y x I1 Hyx)|exact Hyx].
        -- rewrite El in Hx. apply I6 in Hx. exists x. splits; try tauto. destruct Hcyc as (c & Hc & Hcr). exists c.
           assert (forall u w, has_edge g2 u w -> R u w) as Hm by (intros u w [v Hv]; apply I7 in Hv; exists v; tauto).
           split; [apply Hm, Hc|eapply reach_mono; eauto].
    + set (zs := t :: z) in *. destruct (del_nodes_spec zs g2 I1 I2) as (g' & -> & W' & C' & N' & E'). split; [hnf; splits|]; auto.
      * apply NoDup_app_iff. splits; auto. intros x Hx Hxz. apply Hz in Hxz. destruct Hxz as [Hxz _]. apply I6 in Hxz. tauto.
      * intros x Hx. apply in_app_iff in Hx. destruct Hx as [Hx|Hx]; [auto|]. apply Hz in Hx. apply I6, Hx.
      * apply preds_first_app; [exact I5|]. intros y x Hy [v Hv]. apply Hz in Hy. destruct Hy as [Hy Hno].
        destruct (In_dec' x out) as [h|h]; [exact h|exfalso]. apply (Hno x). exists v. apply I7. splits; auto. apply I6 in Hy. tauto.
      * intros x. rewrite N', I6, in_app_iff. tauto.
      * intros x y v. rewrite E', I7, !in_app_iff. tauto.
      * cbn [fst]. assert (In t (nodes g2)) as Ht by (apply Hz; cbn; auto).
        apply (NoDup_incl_length' (t :: nodes g') (nodes g2)).
        -- constructor; [|apply W']. rewrite N'. cbn. tauto.
        -- intros x [<-|Hx]; [exact Ht|apply N' in Hx; tauto].
  - hnf; splits; auto.
    + constructor.
    + intros ? [].
    + intros [|? ?] ? ? C; discriminate C.
    + intros x. rewrite N0. cbn. tauto.
    + intros x y v. rewrite E0. cbn. tauto.
  - exists out, err. split; [exact Hr|exact HN]. Qed.

Lemma has_cycles_of_spec cl srt g : wf g -> (forall l, Permutation (srt l) l) ->
  exists r, returns (fun n => has_cycles_of cl srt n g) (Ok r) /\ (r = true <-> exists a, reach1 (has_edge g) a a).
Proof. intros W Hsrt. unfold has_cycles_of. destruct (existsb _ (edges g)) eqn:E.
  - exists true. split; [apply returns_const; discriminate|]. split; [intros _|auto]. apply existsb_exists in E. destruct E as ([[a b] v] & Hin & He).
    cbn in He. apply eqb_eq in He. subst b. apply (In_edges g a a v W) in Hin. exists a, a. split; [exists v; exact Hin|apply reach_refl].
  - destruct (topological_sort_of_spec cl srt g W Hsrt) as (out & err & Hr & _ & _ & _ & Hc).
    destruct Hc as [(-> & Hac & _)|(-> & Hnc)].
    + exists false. split; [apply (returns_bind _ _ (out, None) (Ok false) Hr); apply returns_const; discriminate|].
      split; [discriminate|]. intros [a Ha]. exfalso. apply (Hac a Ha).
    + exists true. split; [apply (returns_bind _ _ (out, Some AttributeError) (Ok true) Hr); apply returns_const; discriminate|].
      split; [intros _|auto]. destruct Hnc as (x & _ & _ & Hx). eauto. Qed.
End F.
Notation topological_sort_spec := (topological_sort_of_spec IsGraph).
Notation has_cycles_spec := (has_cycles_of_spec IsGraph).
