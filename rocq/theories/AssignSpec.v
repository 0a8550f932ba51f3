(** Specification vocabulary for assignments; nothing refers to the code. *)
From Verif Require Import Prelude Base Spec.
Section AssignSpec.
Context {A O : Type} {EA : EqDec A}.
Implicit Types (g : graph A O Z) (m : list (A * A * Z)).
(** no edge starts where another one ends: the sources are agents, the targets tasks *)
Definition bipartite g : Prop := forall x y z, has_edge g x y -> ~ has_edge g y z.
(** a list of edges (agent, task, value) of g with every agent and every task at most once *)
Definition matching g m : Prop :=
  (forall a t v, In (a, t, v) m -> edge g a t = Some v) /\ NoDup (map (fun e => fst (fst e)) m) /\ NoDup (map (fun e => snd (fst e)) m).
(** no agent and task would both rather have each other: for every edge the agent or the task has one that is at least as good *)
Definition stable g m : Prop :=
  forall a t v, edge g a t = Some v -> (exists t' v', In (a, t', v') m /\ (v <= v')%Z) \/ (exists a' v', In (a', t, v') m /\ (v <= v')%Z).
Fixpoint total m : Z := match m with [] => 0%Z | e :: r => (snd e + total r)%Z end.
End AssignSpec.
