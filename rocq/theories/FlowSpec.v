(** Specification vocabulary for flows: plain sums over the nodes of a graph; nothing refers to the way
    the code computes. *)
From Verif Require Import Prelude Base Spec.
Local Open Scope Z_scope.

Fixpoint sumZ {A} (l : list A) (f : A -> Z) : Z := match l with [] => 0 | x :: t => f x + sumZ t f end.
(** the number on the edge x -> y, 0 if there is none *)
Definition amount {A O} {EA : EqDec A} (g : graph A O Z) (x y : A) : Z := match edge g x y with Some c => c | None => 0 end.
Section S.
Context {A O : Type} {EA : EqDec A}.
Implicit Types (g : graph A O Z) (f : A -> A -> Z).
(** what leaves / enters x *)
Definition outflow g f x : Z := sumZ (nodes g) (fun y => f x y).
Definition inflow g f x : Z := sumZ (nodes g) (fun y => f y x).
(** f is a flow from s to e of value v within the capacities of g *)
Definition is_flow g (s e : A) f (v : Z) : Prop :=
  (forall x y, 0 <= f x y <= amount g x y) /\
  (forall x, contains g x = true -> x <> s -> x <> e -> outflow g f x = inflow g f x) /\
  outflow g f s - inflow g f s = v.
(** the capacity of the cut that separates the nodes with S x = true from the others *)
Definition cut_capacity g (S : A -> bool) : Z :=
  sumZ (filter S (nodes g)) (fun x => sumZ (filter (fun y => negb (S y)) (nodes g)) (fun y => amount g x y)).
(** a step along an edge of positive capacity that f does not fill *)
Definition unsaturated g f (x y : A) : Prop := 0 <= f x y < amount g x y.
End S.
