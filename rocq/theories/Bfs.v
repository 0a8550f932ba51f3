(** Model of /repo/graph/bfs.py and /repo/graph/degree_of_separation.py *)
From Verif Require Import Prelude Base Loop.

Section Bfs.
Context {A O V : Type} {EA : EqDec A}.
Notation graph := (graph A O V).

(** bfs.py:31-34 and 64-67: the for loop over the successors [l] of [node] *)
Definition bfs_push (node : A) (l : list A) (visited : dict A (option A)) (q : list A)
  : dict A (option A) * list A :=
  fold_left (fun (s : dict A (option A) * list A) next =>
               let '(visited, q) := s in
               if dmem next visited then (visited, q)
               else (dset next (Some node) visited, q ++ [next]))
            l (visited, q).

(** bfs.py:27-29: while node is not None: path.appendleft(node); node = visited[node] *)
Fixpoint bfs_trace (fuel : nat) (visited : dict A (option A)) (node : option A) (path : list A) : res (list A) :=
  match node with
  | None => Ok path
  | Some n =>
    match fuel with
    | 0 => OutOfFuel
    | S f => match dget n visited with
             | None => Err KeyError
             | Some p => bfs_trace f visited p (n :: path)
             end
    end
  end.

(** bfs.py:23-35; state (visited, q) *)
Definition bfs_step (g : graph) (e : A) (fuel : nat) (s : dict A (option A) * list A)
  : (dict A (option A) * list A) + res (list A) :=
  let '(visited, q) := s in
  match q with
  | [] => inr (Ok [])
  | node :: q' =>
      if eq_dec node e then inr (bfs_trace fuel visited (Some node) [])
      else inl (bfs_push node (nodes_from g node) visited q')
  end.
(** bfs.py:7-35 breadth_first_search *)
Definition breadth_first_search (fuel : nat) (g : graph) (s e : A) : res (list A) :=
  if negb (contains g s) then Err ValueError else
  if negb (contains g e) then Err ValueError else
  loop fuel (bfs_step g e fuel) ([(s, None)], [s]).

(** bfs.py:58-67; state (visited, q, yielded).  A generator is modelled by the list of everything it
    yields when it is exhausted. *)
Definition bfw_step (succ : A -> list A) (e : option A) (s : dict A (option A) * list A * list A)
  : (dict A (option A) * list A * list A) + res (list A) :=
  let '(visited, q, out) := s in
  match q with
  | [] => inr (Ok out)
  | node :: q' =>
      let out' := out ++ [node] in
      if eq_dec (Some node) e then inr (Ok out')
      else let '(visited', q'') := bfs_push node (succ node) visited q' in inl (visited', q'', out')
  end.
(** bfs.py:38-67 breadth_first_walk *)
Definition breadth_first_walk (fuel : nat) (g : graph) (s : A) (e : option A) (reversed_walk : bool) : res (list A) :=
  if negb (contains g s) then Err ValueError else
  if match e with Some x => negb (contains g x) | None => false end then Err ValueError else
  loop fuel (bfw_step (if reversed_walk then nodes_to g else nodes_from g) e) ([(s, None)], [s], []).

(** degree_of_separation.py:5-15 *)
Definition degree_of_separation (fuel : nat) (g : graph) (n1 n2 : A) : res Z :=
  if negb (contains g n1) then Err ValueError else
  if negb (contains g n2) then Err ValueError else
  p <- breadth_first_search fuel g n1 n2 ;; Ok (Z.of_nat (length p) - 1)%Z.
End Bfs.
