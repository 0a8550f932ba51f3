(** Specification vocabulary for colourings, routes and Merkle trees; nothing refers to the code. *)
From Verif Require Import Prelude Base Spec.

(** specification: f colours the nodes of g with n colours, adjacent nodes differently *)
Definition colouring {A O V} {EA : EqDec A} (g : graph A O V) (n : nat) (f : A -> nat) : Prop :=
  (forall x, contains g x = true -> f x < n) /\ (forall x y, has_edge g x y -> f x <> f y).

(** cn lists, for each colour 0 .. n-1, the nodes of a colouring that have it *)
Definition is_partition {A O V} {EA : EqDec A} (g : graph A O V) (n : nat) (cn : dict nat (list A)) : Prop :=
  dkeys cn = seq 0 n /\ exists f, colouring g n f /\ forall c s, dget c cn = Some s -> NoDup s /\ forall x, In x s <-> contains g x = true /\ f x = c.

(** specification: (d, p) is a shortest route from a to b that avoids S, or (Inf, []) if there is none *)
Definition shortest_route {A O} {EA : EqDec A} (g : graph A O Z) (a b : A) (S : list A) (d : ext) (p : list A) : Prop :=
  match d with
  | Fin z => wpath (edge g) a p b z /\ clear_of S p /\ forall p' z', wpath (edge g) a p' b z' -> clear_of S p' -> (z <= z')%Z
  | Inf => p = [] /\ forall p' z', wpath (edge g) a p' b z' -> ~ clear_of S p'
  end.

(** specification: the Merkle tree as a term *)
Inductive tree (Byte : Type) := Leaf (b : list Byte) | Node (l r : tree Byte).
Arguments Leaf {Byte} _. Arguments Node {Byte} _ _.
Section Spec.
Context {Byte D : Type} (H : list Byte -> D) (enc : D -> list Byte).
(** the string hashed for a tree, and its digest *)
Fixpoint digest (t : tree Byte) : D := match t with Leaf b => H b | Node l r => H (enc (digest l) ++ enc (digest r)) end.
Definition string_of (t : tree Byte) : list Byte := match t with Leaf b => b | Node l r => enc (digest l) ++ enc (digest r) end.
Fixpoint subtrees (t : tree Byte) : list (tree Byte) := t :: match t with Leaf _ => [] | Node l r => subtrees l ++ subtrees r end.
Fixpoint blocks_of (t : tree Byte) : list (list Byte) := match t with Leaf b => [b] | Node l r => blocks_of l ++ blocks_of r end.
(** merge the first two trees and append the result, until one is left *)
Fixpoint merge (n : nat) (ts : list (tree Byte)) : tree Byte :=
  match n, ts with
  | S n, a :: b :: r => merge n (r ++ [Node a b])
  | _, t :: _ => t
  | _, [] => Leaf []
  end.
Definition merkle_term (blocks : list (list Byte)) : tree Byte := merge (length blocks - 1) (map Leaf blocks).
(** no two different strings among those hashed have the same digest *)
Definition collision_free (ts : list (tree Byte)) : Prop :=
  forall t t' s s', In t ts -> In t' ts -> In s (subtrees t) -> In s' (subtrees t') -> digest s = digest s' -> string_of s = string_of s'.
End Spec.

