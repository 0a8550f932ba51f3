(** Specification vocabulary.  Everything here is plain mathematics about an edge relation or a
    weighted edge map; nothing refers to the way the code computes. *)
From Verif Require Import Prelude Base.

(** A graph value some finite history of API calls produces from a fresh graph. *)
Definition reachable {A O V} {EA : EqDec A} (g : graph A O V) : Prop := exists ops, run ops = Ok g.

(** A history in which in_degree/out_degree are only asked of nodes that are in the graph. *)
Definition reads_present {A O V} {EA : EqDec A} (ops : list (op A O V)) : Prop :=
  forall pre o post g, ops = pre ++ o :: post -> run pre = Ok g ->
    match o with OpInDegree n | OpOutDegree n => contains g n = true | _ => True end.

(** There is an edge from a to b. *)
Definition has_edge {A O V} {EA : EqDec A} (g : graph A O V) (a b : A) : Prop := exists v, edge g a b = Some v.

Section Walks.
Context {A : Type}.
(** [path R a p b]: p = [a; ...; b] and consecutive members are related by R (nodes may repeat). *)
Inductive path (R : A -> A -> Prop) : A -> list A -> A -> Prop :=
| path_one a : path R a [a] a
| path_cons a b p c : R a b -> path R b p c -> path R a (a :: p) c.
(** b is reachable from a in zero or more / one or more steps *)
Definition reach (R : A -> A -> Prop) (a b : A) : Prop := exists p, path R a p b.
Definition reach1 (R : A -> A -> Prop) (a b : A) : Prop := exists c, R a c /\ reach R c b.
(** b is reachable from a in exactly n steps *)
Inductive steps (R : A -> A -> Prop) : nat -> A -> A -> Prop :=
| steps_0 a : steps R 0 a a
| steps_S n a b c : R a b -> steps R n b c -> steps R (S n) a c.
(** n is the least number of steps from a to b *)
Definition hops (R : A -> A -> Prop) (a b : A) (n : nat) : Prop :=
  steps R n a b /\ forall m, steps R m a b -> n <= m.
Definition simple_path (R : A -> A -> Prop) (a : A) (p : list A) (b : A) : Prop := path R a p b /\ NoDup p.
Definition acyclic (R : A -> A -> Prop) : Prop := forall a, ~ reach1 R a a.
(** ignoring direction *)
Definition sym (R : A -> A -> Prop) (a b : A) : Prop := R a b \/ R b a.

(** [wpath E a p b d]: p is a walk from a to b whose edge values add up to d. *)
Inductive wpath (E : A -> A -> option Z) : A -> list A -> A -> Z -> Prop :=
| wpath_one a : wpath E a [a] a 0
| wpath_cons a b p c w d : E a b = Some w -> wpath E b p c d -> wpath E a (a :: p) c (w + d).
(** d is the least total over all walks from a to b; Inf if there is none *)
Definition dist (E : A -> A -> option Z) (a b : A) (d : ext) : Prop :=
  match d with
  | Fin z => (exists p, wpath E a p b z) /\ forall p z', wpath E a p b z' -> (z <= z')%Z
  | Inf => forall p z, ~ wpath E a p b z
  end.
End Walks.

Definition nonneg {A O} {EA : EqDec A} (g : graph A O Z) : Prop :=
  forall a b w, edge g a b = Some w -> (0 <= w)%Z.

(** no member of p is in S *)
Definition clear_of {A} (S p : list A) : Prop := forall x, In x p -> ~ In x S.

(** one leg of a journey: the edge value, or the shortest distance when there is no edge or its value is 0 *)
Definition leg {A O} {EA : EqDec A} (g : graph A O Z) (x y : A) (d : ext) : Prop :=
  match edge g x y with Some w => if (w =? 0)%Z then dist (edge g) x y d else d = Fin w | None => dist (edge g) x y d end.
(** the sum of the legs x -> first of t -> ... *)
Inductive legs {A O} {EA : EqDec A} (g : graph A O Z) : A -> list A -> ext -> Prop :=
| legs_nil x : legs g x [] (Fin 0)
| legs_cons x y t d1 d2 : leg g x y d1 -> legs g y t d2 -> legs g x (y :: t) (ext_add d1 d2).

(** no closed walk has a negative total *)
Definition no_neg_cycle {A} (E : A -> A -> option Z) : Prop := forall a p d, wpath E a p a d -> (0 <= d)%Z.
(** t is the sum (the largest) of the distances from x to all nodes of g *)
Definition total_dist {A O} {EA : EqDec A} (g : graph A O Z) (x : A) (t : ext) : Prop :=
  exists ds, Forall2 (fun y d => dist (edge g) x y d) (nodes g) ds /\ t = fold_right ext_add (Fin 0) ds.
Definition max_dist {A O} {EA : EqDec A} (g : graph A O Z) (x : A) (t : ext) : Prop :=
  exists ds, Forall2 (fun y d => dist (edge g) x y d) (nodes g) ds /\ In t ds /\ forall d, In d ds -> ext_le d t.

(** k is the length of the longest chain of steps that ends in n *)
Definition level {A} (R : A -> A -> Prop) (n : A) (k : nat) : Prop :=
  (exists a, steps R k a n) /\ forall m a, steps R m a n -> m <= k.
(** n is on a cycle or can be reached from one *)
Definition behind_cycle {A} (R : A -> A -> Prop) (n : A) : Prop := exists c, reach1 R c c /\ reach R c n.

(** ** Project plans: the duration of task x is its node object *)
Definition duration {A V} {EA : EqDec A} (g : graph A Z V) (x : A) : Z := match node g x with Some d => d | None => 0%Z end.
Fixpoint total_duration {A V} {EA : EqDec A} (g : graph A Z V) (p : list A) : Z :=
  match p with [] => 0%Z | x :: t => (duration g x + total_duration g t)%Z end.
(** t is the largest total duration of a chain of tasks that ends (starts) with x *)
Definition heaviest_to {A V} {EA : EqDec A} (g : graph A Z V) (x : A) (t : Z) : Prop :=
  (exists a p, path (has_edge g) a p x /\ total_duration g p = t) /\ forall a p, path (has_edge g) a p x -> (total_duration g p <= t)%Z.
Definition heaviest_from {A V} {EA : EqDec A} (g : graph A Z V) (x : A) (t : Z) : Prop :=
  (exists b p, path (has_edge g) x p b /\ total_duration g p = t) /\ forall b p, path (has_edge g) x p b -> (total_duration g p <= t)%Z.
(** every task has a duration, and it is not negative *)
Definition plan {A V} {EA : EqDec A} (g : graph A Z V) : Prop :=
  forall x, contains g x = true -> exists d, node g x = Some d /\ (0 <= d)%Z.
