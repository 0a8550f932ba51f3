(** Specification vocabulary for tours over edge values of any kind; nothing refers to the code. *)
From Verif Require Import Prelude Base Spec.
Section GTspSpec.
Context {A O W : Type} {EA : EqDec A}.
Implicit Types (g : graph A O W) (t : list A).
(** t visits every node of g exactly once *)
Definition ghamiltonian g t : Prop := Permutation t (nodes g).
(** the steps of the closed tour t, beginning with the one from the last node to the first *)
Definition closed_steps t : list (A * A) := match t with [] => [] | h :: _ => combine (last t h :: t) t end.
(** vs are the values of the edges along the closed tour t *)
Definition tour_values g t (vs : list W) : Prop := Forall2 (fun s v => edge g (fst s) (snd s) = Some v) (closed_steps t) vs.
(** every two nodes have an edge whose value is not the number 0 *)
Definition gcomplete (is_zero : W -> bool) g : Prop := forall x y, In x (nodes g) -> In y (nodes g) -> x <> y -> exists v, edge g x y = Some v /\ is_zero v = false.
Definition gsymmetric g : Prop := forall x y, edge g x y = edge g y x.
End GTspSpec.
