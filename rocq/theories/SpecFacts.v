(** Facts about walks. *)
From Verif Require Import Prelude PreludeFacts Base Spec.

Section Path.
Context {A : Type}.
Implicit Types (R : A -> A -> Prop) (a b c x y : A) (p q : list A).

Lemma path_head R a p b : path R a p b -> exists t, p = a :: t.
Proof. intros H. inv H; eauto. Qed.
Lemma path_nonempty R a b : ~ path R a [] b.
Proof. intros H. inv H. Qed.
Lemma path_inv1 R a x b : path R a [x] b -> a = x /\ b = x.
Proof. intros H. inversion H as [|? ? ? ? ? H' ]; subst; [auto|]. inv H'. Qed.
Lemma path_inv2 R a x y p b : path R a (x :: y :: p) b -> a = x /\ R x y /\ path R y (y :: p) b.
Proof. intros H. inversion H as [|? z ? ? HR H']; subst. destruct (path_head _ _ _ _ H') as [t E]. inv E. auto. Qed.
Lemma path_cons_head R a x p b : path R a (x :: p) b -> a = x.
Proof. intros H. inv H; reflexivity. Qed.
Lemma path_last R a p b d : path R a p b -> last p d = b.
Proof. induction 1 as [|a c p b HR H IH]; [reflexivity|]. destruct (path_head _ _ _ _ H) as [t ->]. exact IH. Qed.
Lemma path_end_In R a p b : path R a p b -> In b p.
Proof. induction 1; cbn; auto. Qed.
Lemma path_start_In R a p b : path R a p b -> In a p.
Proof. intros H. destruct (path_head _ _ _ _ H) as [t ->]. left; reflexivity. Qed.
Lemma path_mono R R' a p b : (forall x y, In x p -> In y p -> R x y -> R' x y) -> path R a p b -> path R' a p b.
Proof. intros HR H. induction H as [|a c p b HS H IH]; [constructor|]. econstructor.
  - apply HR; [left; reflexivity|right; eapply path_start_In; eauto|exact HS].
  - apply IH. intros x y Hx Hy. apply HR; right; assumption. Qed.
Lemma path_app R a p b q c : path R a p b -> path R b (b :: q) c -> path R a (p ++ q) c.
Proof. induction 1 as [|a d p b HS H IH]; intros Hq; cbn; [exact Hq|]. econstructor; [exact HS|auto]. Qed.
Lemma path_snoc R a p b c : path R a p b -> R b c -> path R a (p ++ [c]) c.
Proof. intros H HR. eapply path_app; [exact H|]. econstructor; [exact HR|constructor]. Qed.
Lemma path_split R p1 : forall a x p2 b, path R a (p1 ++ x :: p2) b -> path R a (p1 ++ [x]) x /\ path R x (x :: p2) b.
Proof. induction p1 as [|y p1 IH]; intros a x p2 b H; cbn [app] in *.
  - pose proof (path_cons_head _ _ _ _ _ H). subst. split; [constructor|exact H].
  - inversion H as [|? z ? ? HR H']; subst; [destruct p1; discriminate|]. destruct (IH _ _ _ _ H'). split; [|assumption].
    econstructor; eauto. Qed.
Lemma path_snoc_inv R a p c b : p <> [] -> path R a (p ++ [c]) b -> b = c /\ exists x, path R a p x /\ R x c.
Proof. revert a. induction p as [|y p IH]; intros a NE H; [congruence|]. cbn in H.
  destruct p as [|z p].
  - cbn in H. apply path_inv2 in H as (-> & HR & H). apply path_inv1 in H as [_ ->]. split; [reflexivity|]. exists y. split; [constructor|exact HR].
  - cbn in H. apply path_inv2 in H as (-> & HR & H). destruct (IH z) as (-> & x & H1 & H2); [discriminate|exact H|].
    split; [reflexivity|]. exists x. split; [|exact H2]. econstructor; eauto. Qed.
Lemma path_rev R a p b : path R a p b -> path (fun x y => R y x) b (rev p) a.
Proof. induction 1 as [|a c p b HS H IH]; cbn; [constructor|]. eapply path_snoc; eauto. Qed.
Lemma path_nodes (P : A -> Prop) R a p b : P a -> (forall x y, R x y -> P y) -> path R a p b -> forall x, In x p -> P x.
Proof. intros Ha HR H. induction H as [|a c p b HS H IH]; intros x Hx; cbn in Hx.
  - destruct Hx as [<-|[]]. exact Ha.
  - destruct Hx as [<-|Hx]; [exact Ha|]. apply IH; eauto. Qed.

Lemma reach_refl R a : reach R a a.
Proof. exists [a]. constructor. Qed.
Lemma reach_step R a b : R a b -> reach R a b.
Proof. intros H. exists [a; b]. econstructor; [exact H|constructor]. Qed.
Lemma reach_trans R a b c : reach R a b -> reach R b c -> reach R a c.
Proof. intros [p Hp] [q Hq]. destruct (path_head _ _ _ _ Hq) as [t ->]. exists (p ++ t). eapply path_app; eauto. Qed.
Lemma reach_cons R a b c : R a b -> reach R b c -> reach R a c.
Proof. intros H [p Hp]. exists (a :: p). econstructor; eauto. Qed.
Lemma reach_snoc R a b c : reach R a b -> R b c -> reach R a c.
Proof. intros [p Hp] H. exists (p ++ [c]). eapply path_snoc; eauto. Qed.
Lemma reach1_reach R a b : reach1 R a b -> reach R a b.
Proof. intros (c & H1 & H2). eapply reach_cons; eauto. Qed.
Lemma reach_cases R a b : reach R a b -> a = b \/ reach1 R a b.
Proof. intros [p Hp]. inv Hp; [auto|]. right. exists b0. split; [assumption|]. eexists; eauto. Qed.
Lemma reach1_snoc R a b c : reach R a b -> R b c -> reach1 R a c.
Proof. intros [p Hp] H. induction Hp as [|a d p b HS Hp IH].
  - exists c. split; [exact H|apply reach_refl].
  - exists d. split; [exact HS|]. apply reach1_reach, IH, H. Qed.
Lemma reach1_last R a c : reach1 R a c -> exists b, reach R a b /\ R b c.
Proof. intros (d & HR & [p Hp]). revert a HR. induction Hp as [d|d e p c HS Hp IH]; intros a HR.
  - exists a. split; [apply reach_refl|exact HR].
  - destruct (IH d HS) as (b & Hb & HR'). exists b. split; [eapply reach_cons; eauto|exact HR']. Qed.
Lemma reach_ind_r R a (P : A -> Prop) : P a -> (forall b c, reach R a b -> P b -> R b c -> P c) -> forall b, reach R a b -> P b.
Proof. intros H0 HS b [p Hp].
  assert (forall x p b, path R x p b -> reach R a x -> P x -> P b) as G.
  { clear p b Hp. intros x p b Hp. induction Hp as [|x c p b HR Hp IH]; intros Hr Hx; [exact Hx|].
    apply IH; [eapply reach_snoc; eauto|]. eapply HS; eauto. }
  eapply G; eauto using reach_refl. Qed.
Lemma reach_closed R a (P : A -> Prop) b : P a -> (forall x y, P x -> R x y -> P y) -> reach R a b -> P b.
Proof. intros H0 HS. apply reach_ind_r; eauto. Qed.
Lemma reach_mono R R' a b : (forall x y, R x y -> R' x y) -> reach R a b -> reach R' a b.
Proof. intros H [p Hp]. exists p. eapply path_mono; [|exact Hp]. auto. Qed.
Lemma reach_rev R a b : reach R a b <-> reach (fun x y => R y x) b a.
Proof. split; intros [p Hp]; exists (rev p); apply path_rev in Hp; exact Hp. Qed.
Lemma reach_sym R a b : (forall x y, R x y -> R y x) -> reach R a b -> reach R b a.
Proof. intros HS H. apply reach_rev in H. eapply reach_mono; [|exact H]. cbn. auto. Qed.

(** steps *)
Lemma steps_path R n a b : steps R n a b <-> exists p, path R a p b /\ length p = S n.
Proof. split.
  - induction 1 as [|n a b c HR H (p & Hp & L)]; [exists [a]; split; [constructor|reflexivity]|].
    exists (a :: p). split; [econstructor; eauto|cbn; lia].
  - intros (p & Hp & L). revert n L. induction Hp as [|a c p b HR Hp IH]; intros n L; cbn in L.
    + assert (n = 0) as -> by lia. constructor.
    + destruct n as [|n]; [destruct (path_head _ _ _ _ Hp) as [t ->]; cbn in L; lia|]. econstructor; [exact HR|]. apply IH. lia. Qed.
Lemma steps_reach R n a b : steps R n a b -> reach R a b.
Proof. intros H. apply steps_path in H as (p & Hp & _). exists p; exact Hp. Qed.
Lemma reach_steps R a b : reach R a b -> exists n, steps R n a b.
Proof. intros [p Hp]. exists (length p - 1). apply steps_path. exists p. split; [exact Hp|].
  destruct (path_head _ _ _ _ Hp) as [t ->]. cbn; lia. Qed.
Lemma steps_snoc R n a b c : steps R n a b -> R b c -> steps R (S n) a c.
Proof. induction 1 as [|n a b d HR H IH]; intros Hc; [econstructor; [exact Hc|constructor]|]. econstructor; eauto. Qed.
Lemma steps_snoc_inv R n : forall a c, steps R (S n) a c -> exists b, steps R n a b /\ R b c.
Proof. induction n as [|n IH]; intros a c H; inversion H as [|? ? b ? HR H']; subst.
  - inv H'. exists a. split; [constructor|exact HR].
  - destruct (IH _ _ H') as (d & Hd & HR'). exists d. split; [econstructor; eauto|exact HR']. Qed.
Lemma steps_0_inv R a b : steps R 0 a b -> a = b.
Proof. intros H; inv H; reflexivity. Qed.

(** removing repetitions *)
Lemma path_simple {EA : EqDec A} R a p b : path R a p b -> exists q, path R a q b /\ NoDup q /\ incl q p /\ length q <= length p.
Proof. remember (length p) as n eqn:L. revert p L a. induction n as [n IH] using lt_wf_ind. intros p L a Hp.
  destruct (path_head _ _ _ _ Hp) as [t ->].
  destruct (in_dec EA a t) as [Hi|Hi].
  - apply in_split in Hi as (t1 & t2 & ->). 
    pose proof (path_split R (a :: t1) a a t2 b Hp) as [_ H2].
    destruct (IH (length (a :: t2))) with (p := a :: t2) (a := a) as (q & Q1 & Q2 & Q3 & Q4);
      [subst; cbn; rewrite app_length; cbn; lia|reflexivity|exact H2|].
    exists q. splits; auto.
    + intros x Hx. apply Q3 in Hx. cbn in *. rewrite in_app_iff. cbn. tauto.
    + subst. cbn in *. rewrite app_length. cbn. lia.
  - inversion Hp as [|? c ? ? HR Ht]; subst.
    + exists [b]. splits; [constructor|repeat constructor; auto|intros x Hx; exact Hx|cbn; lia].
    + destruct (IH (length t)) with (p := t) (a := c) as (q & Q1 & Q2 & Q3 & Q4); [cbn; lia|reflexivity|exact Ht|].
      exists (a :: q). splits.
      * econstructor; eauto.
      * constructor; [|exact Q2]. intros Hx. apply Hi, Q3, Hx.
      * intros x [->|Hx]; [left; reflexivity|right; apply Q3, Hx].
      * cbn. lia. Qed.

(** hops *)
Lemma hops_unique R a b n m : hops R a b n -> hops R a b m -> n = m.
Proof. intros [H1 H2] [H3 H4]. apply Nat.le_antisymm; auto. Qed.
End Path.

Section WPath.
Context {A : Type}.
Implicit Types (E : A -> A -> option Z) (a b c x y : A) (p q : list A) (d e w : Z).
Local Open Scope Z_scope.

Definition erel E a b : Prop := exists w, E a b = Some w.
Lemma wpath_path E a p b d : wpath E a p b d -> path (erel E) a p b.
Proof. induction 1; econstructor; eauto. eexists; eauto. Qed.
Lemma path_wpath E a p b : path (erel E) a p b -> exists d, wpath E a p b d.
Proof. induction 1 as [|a c p b [w Hw] H [d Hd]]; eexists; econstructor; eauto. Qed.
Lemma wpath_eq E a p b d d' : wpath E a p b d -> d = d' -> wpath E a p b d'.
Proof. intros H ->. exact H. Qed.
Lemma wpath_head E a p b d : wpath E a p b d -> exists t, p = a :: t.
Proof. intros H. inv H; eauto. Qed.
Lemma wpath_fun E a p b d b' d' : wpath E a p b d -> wpath E a p b' d' -> b = b' /\ d = d'.
Proof. intros H. revert b' d'. induction H as [a|a c p b w d HE H IH]; intros b' d' H'.
  - inversion H' as [|? ? ? ? ? ? ? H2]; subst; [auto|inv H2].
  - inversion H' as [|? c' ? ? w' d2 HE' H2]; subst; [inv H|].
    destruct (wpath_head _ _ _ _ _ H) as [t ->]. destruct (wpath_head _ _ _ _ _ H2) as [t' E1]. inv E1.
    destruct (IH _ _ H2) as [-> ->]. split; [reflexivity|]. congruence. Qed.
Lemma wpath_app E a p b q c d e : wpath E a p b d -> wpath E b (b :: q) c e -> wpath E a (p ++ q) c (d + e).
Proof. induction 1 as [a|a x p b w d HE H IH]; intros Hq; cbn [app].
  - exact Hq.
  - eapply wpath_eq; [econstructor; [exact HE|apply IH, Hq]|lia]. Qed.
Lemma wpath_snoc E a p b c d w : wpath E a p b d -> E b c = Some w -> wpath E a (p ++ [c]) c (d + w).
Proof. intros H HE. eapply wpath_app; [exact H|]. eapply wpath_eq; [econstructor; [exact HE|constructor]|lia]. Qed.
Lemma wpath_split E p1 : forall a x p2 b d, wpath E a (p1 ++ x :: p2) b d ->
  exists d1 d2, wpath E a (p1 ++ [x]) x d1 /\ wpath E x (x :: p2) b d2 /\ d = d1 + d2.
Proof. induction p1 as [|y p1 IH]; intros a x p2 b d H; cbn [app] in *.
  - destruct (wpath_head _ _ _ _ _ H) as [t E1]. inv E1. exists 0, d. splits; [constructor|exact H|lia].
  - inversion H as [|? z ? ? w d' HE H']; subst; [destruct p1; discriminate|]. destruct (IH _ _ _ _ _ H') as (d1 & d2 & H1 & H2 & ->).
    exists (w + d1), d2. splits; [econstructor; eauto|exact H2|lia]. Qed.
Lemma wpath_nonneg E a p b d : (forall x y w, E x y = Some w -> 0 <= w) -> wpath E a p b d -> 0 <= d.
Proof. intros HN. induction 1 as [|a c p b w d HE H IH]; [lia|]. specialize (HN _ _ _ HE). lia. Qed.
Lemma wpath_mono E E' a p b d : (forall x y w, In x p -> In y p -> E x y = Some w -> E' x y = Some w) -> wpath E a p b d -> wpath E' a p b d.
Proof. intros HE H. induction H as [|a c p b w d HS H IH]; [constructor|]. econstructor.
  - apply HE; [left; reflexivity| |exact HS]. right. destruct (wpath_head _ _ _ _ _ H) as [t ->]. left; reflexivity.
  - apply IH. intros x y w' Hx Hy. apply HE; right; assumption. Qed.
Lemma wpath_rev E a p b d : wpath E a p b d -> wpath (fun x y => E y x) b (rev p) a d.
Proof. induction 1 as [|a c p b w d HE H IH]; cbn [rev]; [constructor|].
  eapply wpath_eq; [eapply wpath_snoc; [exact IH|exact HE]|lia]. Qed.
Lemma wpath_end_In E a p b d : wpath E a p b d -> In b p.
Proof. intros H. eapply path_end_In, wpath_path, H. Qed.
Lemma wpath_simple {EA : EqDec A} E a p b d : (forall x y w, E x y = Some w -> 0 <= w) -> wpath E a p b d ->
  exists q e, wpath E a q b e /\ NoDup q /\ e <= d /\ incl q p.
Proof. intros HN. remember (length p) as n eqn:L. revert p L a d. induction n as [n IH] using lt_wf_ind. intros p L a d Hp.
  destruct (wpath_head _ _ _ _ _ Hp) as [t ->].
  destruct (in_dec EA a t) as [Hi|Hi].
  - apply in_split in Hi as (t1 & t2 & ->).
    destruct (wpath_split E (a :: t1) a a t2 b d Hp) as (d1 & d2 & H1 & H2 & ->).
    destruct (IH (length (a :: t2))) with (p := a :: t2) (a := a) (d := d2) as (q & e & Q1 & Q2 & Q3 & Q4);
      [subst; cbn; rewrite app_length; cbn; lia|reflexivity|exact H2|].
    exists q, e. apply wpath_nonneg in H1; [|exact HN]. splits; auto; [lia|].
    intros x Hx. apply Q4 in Hx. cbn in *. rewrite in_app_iff. cbn. tauto.
  - inversion Hp as [|? c ? ? w d' HE Ht]; subst.
    + exists [b], 0. splits; [constructor|repeat constructor; auto|lia|intros x Hx; exact Hx].
    + destruct (IH (length t)) with (p := t) (a := c) (d := d') as (q & e & Q1 & Q2 & Q3 & Q4); [cbn; lia|reflexivity|exact Ht|].
      exists (a :: q), (w + e). splits.
      * econstructor; eauto.
      * constructor; [|exact Q2]. intros Hx. apply Hi, Q4, Hx.
      * lia.
      * intros x [->|Hx]; [left; reflexivity|right; apply Q4, Hx]. Qed.
Lemma dist_fun E a b (d d' : ext) : dist E a b d -> dist E a b d' -> d = d'.
Proof. destruct d as [z|], d' as [z'|]; cbn; intros H H'.
  - destruct H as [[p Hp] Hm], H' as [[p' Hp'] Hm']. f_equal. specialize (Hm _ _ Hp'). specialize (Hm' _ _ Hp). lia.
  - destruct H as [[p Hp] _]. destruct (H' _ _ Hp).
  - destruct H' as [[p Hp] _]. destruct (H _ _ Hp).
  - reflexivity. Qed.
End WPath.
