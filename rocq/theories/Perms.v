(** itertools.permutations(l, len(l)), in the order in which Python generates them (by position). *)
From Verif Require Import Prelude PreludeFacts.
Section Perms.
Context {A : Type}.
Implicit Types (l p : list A).
(** every element with the rest of the list *)
Fixpoint picks l : list (A * list A) :=
  match l with [] => [] | x :: t => (x, t) :: map (fun yr => (fst yr, x :: snd yr)) (picks t) end.
Fixpoint perms_n (n : nat) l : list (list A) :=
  match n with 0 => [[]] | S n => flat_map (fun xr => map (cons (fst xr)) (perms_n n (snd xr))) (picks l) end.
Definition permutations l : list (list A) := perms_n (length l) l.

Lemma picks_perm l x r : In (x, r) (picks l) -> Permutation (x :: r) l.
Proof. revert x r. induction l as [|y t IH]; intros x r H; [destruct H|]. destruct H as [H|H]; [inversion H; reflexivity|].
  apply in_map_iff in H. destruct H as ([z r'] & E & H). inversion E; subst. cbn [fst snd]. rewrite perm_swap. constructor. apply IH, H. Qed.
Lemma picks_in l x : In x l -> exists r, In (x, r) (picks l).
Proof. induction l as [|y t IH]; intros H; [destruct H|]. destruct H as [->|H]; [exists t; left; reflexivity|]. destruct (IH H) as [r Hr]. exists (y :: r). right. apply in_map_iff. exists (x, r). auto. Qed.
Lemma In_permutations l p : In p (permutations l) <-> Permutation p l.
Proof. unfold permutations. remember (length l) as n eqn:Hn. revert l p Hn. induction n as [|n IH]; intros l p Hn; cbn [perms_n].
  - destruct l; [|discriminate]. cbn. split; [intros [<-|[]]; reflexivity|intros H; left; symmetry; apply Permutation_nil, Permutation_sym, H].
  - rewrite in_flat_map. split.
    + intros ([x r] & H1 & H2). cbn [fst snd] in H2. apply in_map_iff in H2. destruct H2 as (q & <- & H2). pose proof (picks_perm _ _ _ H1) as P. pose proof (Permutation_length P) as PL. cbn in PL. apply (IH r q) in H2; [|lia]. rewrite H2. exact P.
    + intros P. destruct p as [|x q]; [apply Permutation_length in P; cbn in P; lia|]. destruct (picks_in l x) as [r Hr]; [apply (Permutation_in _ P); left; reflexivity|].
      exists (x, r). split; [exact Hr|]. cbn [fst snd]. apply in_map. pose proof (picks_perm _ _ _ Hr) as P'. pose proof (Permutation_length P') as PL. cbn in PL. apply IH; [lia|]. apply (Permutation_cons_inv (a := x)). rewrite P, P'. reflexivity. Qed.
End Perms.
