(** Specification vocabulary for train schedules; nothing refers to the code. *)
From Verif Require Import Prelude Base Spec.
Section RailSpec.
Context {A O : Type} {EA : EqDec A}.
(** the stops of a train at [x] that carries out the jobs in order: to the start of each job, unless it is there, then to its end *)
Fixpoint route (x : A) (jobs : list (A * A)) : list A :=
  match jobs with [] => [] | (a, b) :: t => (if eq_dec a x then [b] else [a; b]) ++ route b t end.
(** every leg of the route can be travelled *)
Fixpoint feasible (g : graph A O Z) (x : A) (jobs : list (A * A)) : Prop :=
  match jobs with [] => True | (a, b) :: t => reach (has_edge g) x a /\ reach (has_edge g) a b /\ feasible g b t end.
(** [d] is the distance travelled *)
Definition travel (g : graph A O Z) (x : A) (jobs : list (A * A)) (d : ext) : Prop := legs g x (route x jobs) d.
(** no edge is longer than a way round *)
Definition metric (g : graph A O Z) : Prop := forall x y w, edge g x y = Some w -> dist (edge g) x y (Fin w).
End RailSpec.
