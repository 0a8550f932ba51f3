(** Specification vocabulary for the weapon-target assignment; nothing refers to the code. *)
From Coq Require Import QArith Qcanon.
From Verif Require Import Prelude Base Spec.
Section WtapSpec.
Context {A O : Type} {EA : EqDec A}.
Local Open Scope Qc_scope.
(** the probability that target t survives the engagements m = [(weapon, target, probability of success)] *)
Fixpoint survives (m : list (A * A * Qc)) (t : A) : Qc :=
  match m with [] => 1 | (_, t', p) :: m => if eq_dec t' t then (1 - p) * survives m t else survives m t end.
(** the expected value of the targets that survive *)
Fixpoint surviving_value (tv : list (A * Qc)) (m : list (A * A * Qc)) : Qc :=
  match tv with [] => 0 | (t, v) :: tv => v * survives m t + surviving_value tv m end.
(** m engages each of the weapons, and nothing else, on exactly one target, with the probability given for that pair *)
Definition engages_all (prob : graph A O Qc) (weapons : list A) (m : list (A * A * Qc)) : Prop :=
  NoDup (map (fun e => fst (fst e)) m) /\ (forall w, In w weapons <-> In w (map (fun e => fst (fst e)) m)) /\
  (forall w t p, In (w, t, p) m -> edge prob w t = Some p).
(** m' is m except that weapon w engages t *)
Definition redirected (m : list (A * A * Qc)) (w t : A) (p : Qc) (m' : list (A * A * Qc)) : Prop :=
  NoDup m' /\ forall w' t' p', In (w', t', p') m' <-> (w' = w /\ t' = t /\ p' = p) \/ (w' <> w /\ In (w', t', p') m).
End WtapSpec.
