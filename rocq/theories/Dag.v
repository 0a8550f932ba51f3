(** Model of /repo/graph/dag.py *)
From Verif Require Import Prelude Base Loop.

Section Dag.
Context {A O V : Type} {EA : EqDec A}.
Notation graph := (graph A O V).

(** dag.py:67-73 `for n1 in q` (first loop); state (g2, phases, q2).  g2.in_degree(n1) may create an entry. *)
Definition pl_mark (pc : Z) (s : graph * dict A Z * list A) (n1 : A) : graph * dict A Z * list A :=
  let '(g2, phases, q2) := s in
  let '(d, g2) := in_degree g2 n1 in
  if negb (d =? 0)%Z then (g2, phases, sadd n1 q2)
  else (g2, dset n1 pc phases, sunion q2 (nodes_from g2 n1)).
(** dag.py:66-88 one iteration of the while loop; state (g2, phases, q, phase_counter).
    [ord i s]: iteration order of the set s in round i. *)
Definition pl_step (ord : nat -> list A -> list A) (s : graph * dict A Z * list A * nat)
  : (graph * dict A Z * list A * nat) + res (dict A Z) :=
  let '(g2, phases, q, pc) := s in
  if is_nil q then inr (Ok phases) else
  let '(g2, phases, q2) := fold_left (pl_mark (Z.of_nat pc)) q (g2, phases, []) in
  match foldM (fun g n1 => if mem n1 q2 then Ok g else del_node g n1) q g2 with
  | Ok g2 => if same_set q q2 then inr (Err AttributeError) else inl (g2, phases, ord pc q2, S pc)
  | Err e => inr (Err e)
  | OutOfFuel => inr OutOfFuel
  end.
(** dag.py:5-89 phase_lines on an object of class c *)
Definition phase_lines_of (c : gclass) (ord : nat -> list A -> list A) (fuel : nat) (g : graph) : res (dict A Z) :=
  let nmax := Z.of_nat (length (nodes g)) in
  let phases := map (fun n => (n, nmax + 1)%Z) (nodes g) in
  g2 <- copy_of c g ;;
  let q := nodes_in_degree g2 0 in
  if is_nil q then Err AttributeError else loop fuel (pl_step ord) (g2, phases, q, 0).

(** dag.py:103-111; state (nodes, q) *)
Definition src_push (s : list A * list A) (src : A) : list A * list A :=
  let '(ns, q) := s in (sadd src ns, if mem src q then q else q ++ [src]).
Definition src_step (g : graph) (s : list A * list A) : (list A * list A) + res (list A) :=
  let '(ns, q) := s in
  match q with
  | [] => inr (Ok ns)
  | new :: q => inl (fold_left src_push (nodes_to g new) (ns, q))
  end.
(** dag.py:92-113 sources; set.remove raises KeyError if n is not there *)
Definition sources (fuel : nat) (g : graph) (n : A) : res (list A) :=
  if negb (contains g n) then Err ValueError else
  ns <- loop fuel (src_step g) ([n], [n]) ;;
  if mem n ns then Ok (sremove n ns) else Err KeyError.
End Dag.
(** on objects of class Graph *)
Notation phase_lines := (phase_lines_of IsGraph).
