(** Specification vocabulary for tours; nothing refers to the code. *)
From Verif Require Import Prelude Base Spec.
Section TspSpec.
Context {A O : Type} {EA : EqDec A}.
Notation graph := (graph A O Z).
Implicit Types (g : graph) (t : list A).
(** the length of the closed tour t when legs without an edge follow a shortest path *)
Definition travel_length g t (d : ext) : Prop := match t with [] => d = Fin 0 | h :: r => legs g h (r ++ [h]) d end.
(** the length of the walk x, t along edges; None when an edge is missing *)
Fixpoint walk_length g (x : A) t : option Z :=
  match t with [] => Some 0%Z | y :: r => match edge g x y, walk_length g y r with Some a, Some b => Some (a + b)%Z | _, _ => None end end.
(** the length of the closed tour t along edges *)
Definition tour_length g t : option Z := match t with [] => Some 0%Z | h :: r => walk_length g h (r ++ [h]) end.
(** t visits every node of g exactly once *)
Definition hamiltonian g t : Prop := Permutation t (nodes g).
(** every two nodes have an edge, of a value that is not 0 *)
Definition complete g : Prop := forall x y, In x (nodes g) -> In y (nodes g) -> x <> y -> exists v, edge g x y = Some v /\ v <> 0%Z.
Definition symmetric g : Prop := forall x y, edge g x y = edge g y x.
End TspSpec.
Section Local.
Context {A O : Type} {EA : EqDec A}.
Implicit Types (g : graph A O Z) (t : list A).
(** reversing any part of the tour t, of length d, does not make it shorter *)
Definition no_shorter_reversal g t (d : Z) : Prop := forall P X Q d', t = P ++ X ++ Q -> tour_length g (P ++ rev X ++ Q) = Some d' -> (d <= d')%Z.
(** exchanging two neighbouring parts of at least two nodes each does not make it shorter *)
Definition no_shorter_exchange g t (d : Z) : Prop :=
  forall P X Y Q d', t = P ++ X ++ Y ++ Q -> 2 <= length X -> 2 <= length Y -> tour_length g (P ++ Y ++ X ++ Q) = Some d' -> (d <= d')%Z.
End Local.
