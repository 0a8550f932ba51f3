(** What the heap model (Heap.v) should do, in terms of values: the content of an object is read off the heap, and a method
    call maps the content before to the content after.  [add_node], [add_edge], ... are the operations on graph values of
    Base.v, described by C01 and C02. *)
From Verif Require Import Prelude Base Heap.

Section Spec.
Context {A O V : Type} {EA : EqDec A}.
Notation graph := (Base.graph A O V).
Notation heap := (heap A O V).

(** the content of a dict of dicts *)
Fixpoint content2 (h : heap) (d : dict A nat) : option (dict A (dict A V)) :=
  match d with
  | [] => Some []
  | (a, i) :: t =>
      match h_get h i, content2 h t with Some (CInner x), Some r => Some ((a, x) :: r) | _, _ => None end
  end.
Definition outer_content (h : heap) (l : nat) : option (dict A (dict A V)) :=
  match h_get h l with Some (COuter d) => content2 h d | _ => None end.
Definition inner_content (h : heap) (i : nat) : option (dict A V) :=
  match h_get h i with Some (CInner x) => Some x | _ => None end.
(** the content of a graph object *)
Definition content (h : heap) (g : gobj) : option graph :=
  match h_get h (o_nodes g), outer_content h (o_edges g), h_get h (o_count g), outer_content h (o_rev g), h_get h (o_indeg g), h_get h (o_outdeg g) with
  | Some (CNodes n), Some e, Some (CCount c), Some r, Some (CDeg i), Some (CDeg o) => Some (mkG n e c r i o)
  | _, _, _, _, _, _ => None
  end.

Context (is_coll : V -> bool).
(** a value operation that cannot raise on the content of a graph object *)
Definition done (G : graph) (r : res graph) : graph * res unit :=
  match r with Ok G' => (G', Ok tt) | Err e => (G, Err e) | OutOfFuel => (G, OutOfFuel) end.
(** add_edge: a dict, list or tuple as value is refused and nothing changes *)
Definition put_edge (G : graph) (a b : A) (v : V) (bi : bool) : graph * res unit :=
  if is_coll v then (G, Err ValueError) else done G (add_edge G a b v bi).
(** a sequence of updates up to the first that raises *)
Fixpoint put_all {X} (f : graph -> X -> graph * res unit) (xs : list X) (G : graph) : graph * res unit :=
  match xs with [] => (G, Ok tt) | x :: t => match f G x with (G', Ok _) => put_all f t G' | r => r end end.
Definition put_item (G : graph) (x : item A V) : graph * res unit :=
  match x with
  | Item (LEdge a b v) => put_edge G a b v false
  | Item (LEdgeBi a b v bi) => put_edge G a b v bi
  | Item (LNode n) => (add_node G n None, Ok tt)
  | BadItem e => (G, Err e)
  end.
Definition put_row (G : graph) (p : A * dict A V) : graph * res unit :=
  if is_nil (snd p) then (add_node G (fst p) None, Ok tt)
  else put_all (fun G q => put_edge G (fst p) (fst q) (snd q) false) (snd p) G.
Definition apply (G : graph) (c : call A O V) : graph * res unit :=
  match c with
  | AddNode n o => (add_node G n o, Ok tt)
  | AddEdge a b v bi => put_edge G a b v bi
  | DelEdge a b => done G (del_edge G a b)
  | DelNode n => done G (del_node G n)
  | FromList xs => put_all put_item xs G
  | InDegree n => (snd (in_degree G n), Ok tt)
  | OutDegree n => (snd (out_degree G n), Ok tt)
  end.
(** the graph variable a statement calls a method of that may change it *)
Definition updates (s : stmt A O V) : option nat :=
  match s with Call i _ | FromDict i _ => Some i | _ => None end.
(** the statements by which the user changes dicts *)
Definition edits_dicts (s : stmt A O V) : bool :=
  match s with SetOuter _ _ _ | DelOuter _ _ | SetInner _ _ _ | DelInner _ _ => true | _ => false end.
End Spec.
