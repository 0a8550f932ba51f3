(** Python `while` loops with an explicit bound on the number of iterations, and what it means for a
    program run with such a bound to finish. *)
From Coq Require Import Inverse_Image.
From Verif Require Import Prelude PreludeFacts.

(** [step s] is one iteration: [inl s'] continues with s', [inr r] leaves the loop with result r. *)
Fixpoint loop {S R} (fuel : nat) (step : S -> S + res R) (s : S) : res R :=
  match fuel with
  | O => OutOfFuel
  | Datatypes.S n => match step s with inl s' => loop n step s' | inr r => r end
  end.

(** [returns f r]: the program [f], run with enough iterations allowed, finishes with r (a value or an
    exception); with fewer it runs out of fuel, never with a different answer. *)
Definition returns {R} (f : nat -> res R) (r : res R) : Prop :=
  r <> OutOfFuel /\ (exists N, forall n, N <= n -> f n = r) /\ (forall n, f n = OutOfFuel \/ f n = r).
(** the program never finishes *)
Definition diverges {R} (f : nat -> res R) : Prop := forall n, f n = OutOfFuel.

Section Loop.
Context {S R : Type}.
Implicit Types (step : S -> S + res R).

Lemma returns_fun (f : nat -> res R) r r' : returns f r -> returns f r' -> r = r'.
Proof. intros (N1 & [a Ha] & _) (N2 & [b Hb] & _). rewrite <- (Ha (a + b)), <- (Hb (a + b)) by lia. reflexivity. Qed.
Lemma returns_of (f : nat -> res R) r n : returns f r -> f n <> OutOfFuel -> f n = r.
Proof. intros (_ & _ & H) Hn. destruct (H n); congruence. Qed.
Lemma returns_const (r : res R) : r <> OutOfFuel -> returns (fun _ => r) r.
Proof. intros H. split; [exact H|]. split; [exists 0; auto|auto]. Qed.
Lemma returns_ext (f f' : nat -> res R) r : (forall n, f n = f' n) -> returns f r -> returns f' r.
Proof. intros E (H1 & [N H2] & H3). hnf; splits; [exact H1|exists N; intros n Hn; rewrite <- E; auto|intros n; rewrite <- E; auto]. Qed.
Lemma returns_bind {Q} (f : nat -> res Q) (k : nat -> Q -> res R) x r :
  returns f (Ok x) -> returns (fun n => k n x) r -> returns (fun n => bind (f n) (k n)) r.
Proof. intros (_ & [a Ha] & Hb) (H1 & [c Hc] & Hd). hnf; splits; [exact H1| |].
  - exists (a + c). intros n Hn. rewrite Ha by lia. cbn. apply Hc. lia.
  - intros n. destruct (Hb n) as [-> | ->]; cbn; auto. Qed.
Lemma returns_bind_ok {Q} (f : nat -> res Q) (k : Q -> R) x :
  returns f (Ok x) -> returns (fun n => bind (f n) (fun y => Ok (k y))) (Ok (k x)).
Proof. intros H. apply (returns_bind f (fun _ y => Ok (k y)) x); [exact H|]. apply returns_const. discriminate. Qed.
Lemma returns_bind_err {Q} (f : nat -> res Q) (k : nat -> Q -> res R) e :
  returns f (Err e) -> returns (fun n => bind (f n) (k n)) (Err e).
Proof. intros (_ & [a Ha] & Hb). hnf; splits; [discriminate| |].
  - exists a. intros n Hn. rewrite Ha by lia. reflexivity.
  - intros n. destruct (Hb n) as [-> | ->]; cbn; auto. Qed.

(** two independent bounds, for a loop nested in a loop *)
Definition returns2 {Q} (f : nat -> nat -> res Q) (r : res Q) : Prop :=
  r <> OutOfFuel /\ (exists N, forall n m, N <= n -> N <= m -> f n m = r) /\ (forall n m, f n m = OutOfFuel \/ f n m = r).
Lemma returns2_diag {Q} (f : nat -> nat -> res Q) r : returns2 f r -> returns (fun n => f n n) r.
Proof. intros (H1 & [N H2] & H3). hnf; splits; auto. exists N. intros n Hn. auto. Qed.

(** what an iteration with a bounded inner loop does *)
Definition settles (f : nat -> S + res R) (o : S + res R) : Prop :=
  o <> inr OutOfFuel /\ (exists N, forall n, N <= n -> f n = o) /\ (forall n, f n = inr OutOfFuel \/ f n = o).
Lemma settles_const o : o <> inr OutOfFuel -> settles (fun _ => o) o.
Proof. intros H. hnf; splits; [exact H|exists 0; auto|auto]. Qed.
Lemma settles_ext (f f' : nat -> S + res R) o : (forall n, f' n = f n) -> settles f o -> settles f' o.
Proof. intros E (H1 & [N H2] & H3). hnf; splits; [exact H1|exists N; intros n Hn; rewrite E; auto|intros n; rewrite E; auto]. Qed.

Theorem loop_returns2 (step : nat -> S -> S + res R) (I : S -> Prop) (lt : S -> S -> Prop) (P : res R -> Prop) :
  well_founded lt ->
  (forall s, I s -> exists o, settles (fun m => step m s) o /\
     match o with inl s' => I s' /\ lt s' s | inr r => P r end) ->
  forall s, I s -> exists r, returns2 (fun n m => loop n (step m) s) r /\ P r.
Proof. intros WF H s. induction s as [s IH] using (well_founded_ind WF). intros Hs.
  destruct (H s Hs) as (o & (Ho & [N HN] & Hst) & Hc). destruct o as [s'|r].
  - destruct Hc as [Hs' Hlt]. destruct (IH s' Hlt Hs') as (r & (R1 & [M R2] & R3) & HP).
    exists r. split; [|exact HP]. hnf; splits; [exact R1| |].
    + exists (Datatypes.S (N + M)). intros n m Hn Hm. destruct n as [|n]; [lia|]. cbn. rewrite HN by lia. apply R2; lia.
    + intros [|n] m; [left; reflexivity|]. cbn. destruct (Hst m) as [-> | ->]; auto.
  - exists r. split; [|exact Hc]. hnf; splits; [congruence| |].
    + exists (Datatypes.S N). intros n m Hn Hm. destruct n as [|n]; [lia|]. cbn. rewrite HN by lia. reflexivity.
    + intros [|n] m; [left; reflexivity|]. cbn. destruct (Hst m) as [-> | ->]; auto. Qed.

Theorem loop_returns step (I : S -> Prop) (lt : S -> S -> Prop) (P : res R -> Prop) :
  well_founded lt ->
  (forall s, I s -> match step s with inl s' => I s' /\ lt s' s | inr r => r <> OutOfFuel /\ P r end) ->
  forall s, I s -> exists r, returns (fun n => loop n step s) r /\ P r.
Proof. intros WF H s Hs. destruct (loop_returns2 (fun _ => step) I lt P WF) with (s := s) as (r & Hr & HP); [|exact Hs|].
  - intros s0 Hs0. exists (step s0). specialize (H s0 Hs0). destruct (step s0) as [s'|r].
    + split; [apply settles_const; discriminate|exact H].
    + destruct H as [H1 H2]. split; [apply settles_const; congruence|exact H2].
  - exists r. split; [|exact HP]. apply returns2_diag in Hr. exact Hr. Qed.

Theorem loop_returns_nat step (I : S -> Prop) (mu : S -> nat) (P : res R -> Prop) :
  (forall s, I s -> match step s with inl s' => I s' /\ mu s' < mu s | inr r => r <> OutOfFuel /\ P r end) ->
  forall s, I s -> exists r, returns (fun n => loop n step s) r /\ P r.
Proof. apply (loop_returns step I (fun a b => mu a < mu b)). apply well_founded_ltof. Qed.

(** explicit bound: [mu] iterations and one exit test are enough *)
Theorem loop_bound step (I : S -> Prop) (mu : S -> nat) (P : res R -> Prop) :
  (forall s, I s -> match step s with inl s' => I s' /\ mu s' < mu s | inr r => r <> OutOfFuel /\ P r end) ->
  forall s n, I s -> mu s < n -> exists r, loop n step s = r /\ r <> OutOfFuel /\ P r.
Proof. intros H s n. revert s. induction n as [|n IH]; intros s Hs Hn; [lia|]. cbn. specialize (H s Hs).
  destruct (step s) as [s'|r].
  - destruct H as [H1 H2]. apply IH; [exact H1|lia].
  - exists r. destruct H. auto. Qed.

(** partial correctness without termination *)
Theorem loop_partial step (I : S -> Prop) (P : res R -> Prop) :
  (forall s, I s -> match step s with inl s' => I s' | inr r => P r end) ->
  forall n s r, I s -> loop n step s = r -> r = OutOfFuel \/ P r.
Proof. intros H. induction n as [|n IH]; intros s r Hs E; cbn in E; [auto|]. specialize (H s Hs).
  destruct (step s) as [s'|r']; [apply (IH s' r H E)|]. subst. auto. Qed.

Lemma loop_mono step n s r : loop n step s = r -> r <> OutOfFuel -> forall m, n <= m -> loop m step s = r.
Proof. revert s. induction n as [|n IH]; intros s E Hr m Hm; cbn in E; [congruence|].
  destruct m as [|m]; [lia|]. cbn. destruct (step s) as [s'|r']; [apply IH; auto; lia|exact E]. Qed.

(** a loop whose invariant forbids leaving it never finishes *)
Theorem loop_diverges step (I : S -> Prop) :
  (forall s, I s -> exists s', step s = inl s' /\ I s') -> forall s, I s -> diverges (fun n => loop n step s).
Proof. intros H s Hs n. revert s Hs. induction n as [|n IH]; intros s Hs; cbn; [reflexivity|].
  destruct (H s Hs) as (s' & -> & H'). auto. Qed.
End Loop.

(** lexicographic order on pairs and triples of naturals *)
Definition lt2 (a b : nat * nat) : Prop := fst a < fst b \/ (fst a = fst b /\ snd a < snd b).
Lemma lt2_wf : well_founded lt2.
Proof. intros [x y]. revert y. induction x as [x IHx] using lt_wf_ind. intros y. induction y as [y IHy] using lt_wf_ind.
  constructor. intros [x' y'] [H|[H1 H2]]; cbn in *; [apply IHx, H|]. subst. apply IHy, H2. Qed.
Definition lt3 (a b : nat * (nat * nat)) : Prop := fst a < fst b \/ (fst a = fst b /\ lt2 (snd a) (snd b)).
Lemma lt3_wf : well_founded lt3.
Proof. intros [x y]. revert y. induction x as [x IHx] using lt_wf_ind. intros y. induction y as [y IHy] using (well_founded_ind lt2_wf).
  constructor. intros [x' y'] [H|[H1 H2]]; cbn in *; [apply IHx, H|]. subst. apply IHy, H2. Qed.
Lemma wf_of {S T} (lt : T -> T -> Prop) (f : S -> T) : well_founded lt -> well_founded (fun a b => lt (f a) (f b)).
Proof. intros H. apply (wf_inverse_image S T lt f H). Qed.
