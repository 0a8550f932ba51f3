(** Model of /repo/graph/topological_sort.py and has_cycles of /repo/graph/cycle.py *)
From Verif Require Import Prelude Base Loop.

Section Topo.
Context {A O V : Type} {EA : EqDec A}.
Notation graph := (graph A O V).

(** topological_sort.py:25-36.  State (g2, yielded so far).  The result is the list of yielded nodes
    and the exception that ended the generator, if any.  [srt] is `sorted(., key=key)`. *)
Definition topo_step (srt : list A -> list A) (s : graph * list A)
  : (graph * list A) + res (list A * option exn) :=
  let '(g2, out) := s in
  match srt (nodes_in_degree g2 0) with
  | [] => if is_nil (nodes g2) then inr (Ok (out, None)) else inr (Ok (out, Some AttributeError))
  | z =>
      match foldM (fun g2 task => del_node g2 task) z g2 with
      | Ok g2' => inl (g2', out ++ z)
      | Err e => inr (Err e)
      | OutOfFuel => inr OutOfFuel
      end
  end.
(** topological_sort.py:4-36 on an object of class c *)
Definition topological_sort_of (c : gclass) (srt : list A -> list A) (fuel : nat) (g : graph) : res (list A * option exn) :=
  g2 <- copy_of c g ;; loop fuel (topo_step srt) (g2, []).

(** cycle.py:31-46 has_cycles (key is the identity, nodes comparable) *)
Definition has_cycles_of (c : gclass) (srt : list A -> list A) (fuel : nat) (g : graph) : res bool :=
  if existsb (fun e => eqb (fst (fst e)) (snd (fst e))) (edges g) then Ok true else
  r <- topological_sort_of c srt fuel g ;;
  match snd r with None => Ok false | Some AttributeError => Ok true | Some e => Err e end.
End Topo.
(** on objects of class Graph *)
Notation topological_sort := (topological_sort_of IsGraph).
Notation has_cycles := (has_cycles_of IsGraph).
