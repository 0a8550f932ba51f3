(** Finite-set counting and small list lemmas used by the graph searches. *)
From Coq Require Import Sorted.
From Verif Require Import Prelude PreludeFacts Base BaseFacts BaseFacts2 BaseFacts3 Spec SpecFacts Loop.

Lemma filter_length_le {B} (f : B -> bool) l : length (filter f l) <= length l.
Proof. induction l as [|x l IH]; cbn; [lia|]. destruct (f x); cbn; lia. Qed.
Section Unseen.
Context {A : Type} {EA : EqDec A}.
Definition unseen (U s : list A) : nat := length (sdiff U s).
Lemma unseen_le U s s' : (forall x, In x U -> In x s -> In x s') -> unseen U s' <= unseen U s.
Proof. unfold unseen, sdiff. intros H. induction U as [|u U IH]; cbn; [lia|].
  assert (length (filter (fun y => negb (mem y s')) U) <= length (filter (fun y => negb (mem y s)) U)) as IH'.
  { apply IH. intros; apply H; cbn; auto. }
  destruct (mem_spec u s) as [h|h], (mem_spec u s') as [h'|h']; cbn; try lia. exfalso; apply h', H; cbn; auto. Qed.
Lemma unseen_lt U s s' x : (forall x, In x U -> In x s -> In x s') -> In x U -> ~ In x s -> In x s' -> unseen U s' < unseen U s.
Proof. unfold unseen, sdiff. intros H HU Hn Hi. induction U as [|u U IH]; cbn; [destruct HU|].
  assert (forall x, In x U -> In x s -> In x s') as H0 by (intros; apply H; cbn; auto).
  pose proof (unseen_le U s s' H0) as L. unfold unseen, sdiff in L.
  destruct (eq_dec u x) as [->|Hne].
  - destruct (mem_spec x s) as [h|h], (mem_spec x s') as [h'|h']; cbn; try tauto; lia.
  - destruct HU as [->|HU]; [congruence|]. specialize (IH H0 HU).
    destruct (mem_spec u s) as [h|h], (mem_spec u s') as [h'|h']; cbn; try lia. exfalso; apply h', H; cbn; auto. Qed.
Lemma unseen_sadd_lt U s x : In x U -> ~ In x s -> unseen U (sadd x s) < unseen U s.
Proof. intros HU Hn. apply (unseen_lt _ _ _ x); auto; [intros y _ Hy|]; apply In_sadd; auto. Qed.
Lemma unseen_sadd_le U s x : unseen U (sadd x s) <= unseen U s.
Proof. apply unseen_le. intros y _ Hy. apply In_sadd; auto. Qed.

Definition seen (s q : list A) : nat := length (filter (fun x => mem x s) q).
Lemma seen_app s q q' : seen s (q ++ q') = seen s q + seen s q'.
Proof. unfold seen. rewrite filter_app, app_length. reflexivity. Qed.
Lemma seen_zero s q : (forall x, In x q -> ~ In x s) -> seen s q = 0.
Proof. unfold seen. induction q as [|x q IH]; cbn; [reflexivity|]. intros H. destruct (mem_spec x s); [exfalso; eapply H; eauto|]. apply IH. auto. Qed.
Lemma sremove_filter_lt (f : A -> bool) p l : In p l -> f p = true -> length (filter f (sremove p l)) < length (filter f l).
Proof. intros Hp Hf.
  assert (forall l, length (filter f (sremove p l)) <= length (filter f l)) as Hle.
  { clear. induction l as [|y l IH]; cbn; [lia|]. unfold eqb. destruct (eq_dec p y); cbn; destruct (f y); cbn; unfold sremove, eqb in *; lia. }
  induction l as [|x l IH]; [destruct Hp|]. specialize (Hle l). cbn. unfold eqb. destruct (eq_dec p x) as [->|Hn]; cbn.
  - rewrite Hf. cbn. unfold sremove, eqb in *. lia.
  - destruct Hp as [->|Hp]; [congruence|]. specialize (IH Hp). unfold sremove, eqb in *. destruct (f x); cbn; lia. Qed.
Lemma sremove_length_lt p (l : list A) : In p l -> length (sremove p l) < length l.
Proof. intros Hp. pose proof (sremove_filter_lt (fun _ => true) p l Hp eq_refl) as H.
  assert (forall l : list A, filter (fun _ => true) l = l) as E by (clear; induction l; cbn; congruence). rewrite !E in H. exact H. Qed.
End Unseen.

Lemma reach_closed_in {A} (R : A -> A -> Prop) a (l : list A) b :
  In a l -> (forall x y, In x l -> R x y -> In y l) -> reach R a b -> In b l.
Proof. intros H1 H2. apply (reach_closed R a (fun x => In x l) b H1 H2). Qed.

Section Sorted.
Context {A : Type}.
Lemma SSorted_app (R : A -> A -> Prop) l1 l2 :
  StronglySorted R (l1 ++ l2) <-> StronglySorted R l1 /\ StronglySorted R l2 /\ (forall x y, In x l1 -> In y l2 -> R x y).
Proof. induction l1 as [|a l1 IH]; cbn.
  - split; [intros H; splits; auto; [constructor|tauto]|tauto].
  - split.
    + intros H; inv H. apply IH in H2. destruct H2 as (H1 & H2 & H4). rewrite Forall_forall in H3. splits; auto.
      * constructor; [auto|]. apply Forall_forall. intros; apply H3, in_or_app; auto.
      * intros x y [<-|Hx] Hy; [apply H3, in_or_app; auto|auto].
    + intros (H1 & H2 & H3). inv H1. constructor; [apply IH; splits; auto|].
      apply Forall_forall. rewrite Forall_forall in H5. intros x Hx. apply in_app_iff in Hx. destruct Hx; auto. Qed.
Lemma SSorted_mono (R R' : A -> A -> Prop) l : (forall x y, In x l -> In y l -> R x y -> R' x y) -> StronglySorted R l -> StronglySorted R' l.
Proof. induction l as [|a l IH]; intros H Hs; [constructor|]. inv Hs. rewrite Forall_forall in H3. constructor.
  - apply IH; auto. intros; apply H; cbn; auto.
  - apply Forall_forall. intros x Hx. apply H; cbn; auto. Qed.
Lemma SSorted_nth (R : A -> A -> Prop) l : StronglySorted R l -> forall l1 x l2 y l3, l = l1 ++ x :: l2 ++ y :: l3 -> R x y.
Proof. intros H l1 x l2 y l3 ->. apply SSorted_app in H. destruct H as (_ & H & _). inv H. rewrite Forall_forall in H3.
  apply H3, in_or_app. cbn. auto. Qed.
Lemma SSorted_const (R : A -> A -> Prop) l : (forall x y, In x l -> In y l -> R x y) -> StronglySorted R l.
Proof. induction l as [|a l IH]; intros H; [constructor|]. constructor; [apply IH; intros; apply H; cbn; auto|].
  apply Forall_forall. intros; apply H; cbn; auto. Qed.
End Sorted.

Section LoopMore.
Context {S R : Type}.
Lemma loop_returns_at (step : S -> S + res R) n s r : loop n step s = r -> r <> OutOfFuel -> returns (fun n => loop n step s) r.
Proof. intros E Hr. hnf; splits; [exact Hr| |].
  - exists n. intros m Hm. apply (loop_mono step n s r E Hr m Hm).
  - intros m. destruct (loop m step s) eqn:Em; auto; right.
    + assert (loop (n + m) step s = r) as E1 by (apply (loop_mono step n); auto; lia).
      assert (loop (n + m) step s = Ok x) as E2 by (apply (loop_mono step m); auto; [discriminate|lia]). congruence.
    + assert (loop (n + m) step s = r) as E1 by (apply (loop_mono step n); auto; lia).
      assert (loop (n + m) step s = Err e) as E2 by (apply (loop_mono step m); auto; [discriminate|lia]). congruence. Qed.
Lemma returns_loop_at (step : S -> S + res R) s r : returns (fun n => loop n step s) r -> exists n, loop n step s = r /\ r <> OutOfFuel.
Proof. intros (H1 & [N H2] & _). exists N. auto. Qed.
End LoopMore.

(** finite sets in which everything has a predecessor contain a cycle *)
Section Cycle.
Context {A : Type} {EA : EqDec A}.
Lemma not_NoDup_split (l : list A) : ~ NoDup l -> exists x l1 l2 l3, l = l1 ++ x :: l2 ++ x :: l3.
Proof. induction l as [|a l IH]; intros H; [exfalso; apply H; constructor|].
  destruct (In_dec' a l) as [Hi|Hi].
  - apply in_split in Hi. destruct Hi as (l2 & l3 & ->). exists a, [], l2, l3. reflexivity.
  - destruct IH as (x & l1 & l2 & l3 & ->); [intros Hn; apply H; constructor; auto|]. exists x, (a :: l1), l2, l3. reflexivity. Qed.
Lemma path_dup_cycle (R : A -> A -> Prop) a p b : path R a p b -> ~ NoDup p -> exists x, In x p /\ reach1 R x x.
Proof. intros H Hn. destruct (not_NoDup_split p Hn) as (x & l1 & l2 & l3 & ->). exists x. split; [apply in_or_app; cbn; auto|].
  apply path_split in H. destruct H as [_ H]. change (x :: l2 ++ x :: l3) with ((x :: l2) ++ x :: l3) in H.
  apply path_split in H. destruct H as [H _]. cbn in H. inv H; [destruct l2; discriminate|].
  exists b0. split; [assumption|]. exists (l2 ++ [x]). assumption. Qed.
Lemma pred_cycle (R : A -> A -> Prop) (S : list A) x0 : In x0 S -> (forall x, In x S -> exists y, In y S /\ R y x) ->
  exists x, In x S /\ reach1 R x x.
Proof. intros H0 HS.
  assert (forall k, exists a p, path R a p x0 /\ length p = Datatypes.S k /\ incl p S) as G.
  { induction k as [|k IH].
    - exists x0, [x0]. splits; [constructor|reflexivity|intros y [<-|[]]; exact H0].
    - destruct IH as (a & p & Hp & Hl & Hi). destruct (HS a) as (y & Hy & HR); [apply Hi; eapply path_start_In; eauto|].
      exists y, (y :: p). splits; [econstructor; eauto|cbn; lia|intros z [<-|Hz]; auto]. }
  destruct (G (length S)) as (a & p & Hp & Hl & Hi).
  destruct (path_dup_cycle R a p x0 Hp) as (x & Hx & Hc).
  - intros Hn. apply (NoDup_incl_length Hn) in Hi. lia.
  - exists x. split; [apply Hi, Hx|exact Hc]. Qed.
End Cycle.
