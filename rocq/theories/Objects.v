(** Model of [==] and [!=] between graph objects of any classes: /repo/graph/base.py:33-45 together with Python's rule for
    rich comparisons (the right operand is asked first if its class is a proper subclass of the class of the left one).
    [C] are the classes below BasicGraph (BasicGraph, Graph, Graph3D and the user's own ones that inherit __eq__), [sub c d]
    is issubclass(c, d).  [Plain i] is any other object with the default comparison (identity). *)
From Verif Require Import Prelude Base.

Section Objects.
Context {A O V C : Type} {EA : EqDec A} {EO : EqDec O} {EV : EqDec V} {EC : EqDec C} (sub : C -> C -> bool).
Inductive obj := GraphObj (c : C) (g : graph A O V) | Plain (i : nat).
(** type(x); None is object *)
Definition type_of (x : obj) : option C := match x with GraphObj c _ => Some c | Plain _ => None end.
Definition sub_type (s t : option C) : bool :=
  match s, t with Some c, Some d => sub c d | _, None => true | None, Some _ => false end.
(** base.py:33-42 __eq__ (object.__eq__ for the others); None is NotImplemented *)
Definition eq_method (self other : obj) : option bool :=
  match self with
  | GraphObj c g => match other with GraphObj d h => Some (if sub d c then graph_eqb g h else false) | Plain _ => Some false end
  | Plain i => match other with Plain j => if Nat.eqb i j then Some true else None | GraphObj _ _ => None end
  end.
(** base.py:44-45 __ne__ (object.__ne__ negates __eq__ as well) *)
Definition ne_method (self other : obj) : option bool := option_map negb (eq_method self other).
(** Python: v op w; [fallback] is the comparison of identities *)
Definition rich (method : obj -> obj -> option bool) (fallback : bool) (v w : obj) : bool :=
  let reflected := negb (eqb (type_of v) (type_of w)) && sub_type (type_of w) (type_of v) in
  match (if reflected then method w v else None) with
  | Some r => r
  | None =>
      match method v w with
      | Some r => r
      | None => match (if reflected then None else method w v) with Some r => r | None => fallback end
      end
  end.
Definition py_eq (v w : obj) : bool := rich eq_method (match v, w with Plain i, Plain j => Nat.eqb i j | _, _ => false end) v w.
Definition py_ne (v w : obj) : bool := rich ne_method (negb (match v, w with Plain i, Plain j => Nat.eqb i j | _, _ => false end)) v w.
End Objects.
Arguments obj : clear implicits.
