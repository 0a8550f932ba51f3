(** Model of /repo/graph/all_simple_paths.py and /repo/graph/all_paths.py *)
From Verif Require Import Prelude Base Loop BaseAlg.

Section Paths.
Context {A O V : Type} {EA : EqDec A}.
Notation graph := (graph A O V).

(** all_simple_paths.py:29-36 the for loop over the outgoing edges; state (paths, q).  Tuples are stored with the
    newest node first, as in the code. *)
Definition asp_edge (e : A) (path : list A) (s : list (list A) * list (list A)) (x : A * A * V) : list (list A) * list (list A) :=
  let '(paths, q) := s in
  let '(_, n, _) := x in
  if mem n path then s else
  let new_path := n :: path in
  if eqb n e then (paths ++ [new_path], q) else (paths, q ++ [new_path]).
(** all_simple_paths.py:27-36 one iteration; path[0] of an empty tuple is an IndexError *)
Definition asp_step (g : graph) (e : A) (s : list (list A) * list (list A)) : (list (list A) * list (list A)) + res (list (list A)) :=
  let '(paths, q) := s in
  match q with
  | [] => inr (Ok (map (@rev A) paths))
  | path :: q =>
      match path with
      | [] => inr (Err IndexError)
      | h :: _ => inl (fold_left (asp_edge e path) (edges_from g h) (paths, q))
      end
  end.
(** all_simple_paths.py:7-37 *)
Definition all_simple_paths (fuel : nat) (g : graph) (s e : A) : res (list (list A)) :=
  if negb (contains g s) then Err ValueError else
  if negb (contains g e) then Err ValueError else
  if eqb s e then Err ValueError else
  con <- is_connected fuel g s e ;;
  if negb con then Ok [] else loop fuel (asp_step g e) ([], [[s]]).

(** all_paths.py:53: any(all(path[i + j] == a[j] ...)) for a = [n2, n3].  path[i + 1] past the end is an
    IndexError; `all` stops at the first difference and `any` at the first hit. *)
Fixpoint pair_in (n2 n3 : A) (path : list A) : res bool :=
  match path with
  | [] => Ok false
  | x :: t =>
      if eqb x n2 then
        match t with
        | [] => Err IndexError
        | y :: _ => if eqb y n3 then Ok true else pair_in n2 n3 t
        end
      else pair_in n2 n3 t
  end.
(** all_paths.py:50-54 *)
Definition ap_skip (n2 : A) (n3s : list A) (new_paths : list (list A)) (skip : list A) : res (list A) :=
  foldM (fun skip n3 => foldM (fun skip path => b <- pair_in n2 n3 path ;; Ok (if b then sadd n3 skip else skip)) new_paths skip) n3s skip.
(** all_paths.py:56-62 *)
Definition ap_extend (n2 : A) (paths : list (list A)) (path : list A) : list (list A) :=
  let paths := if mem path paths then lremove path paths else paths in
  let new_path := path ++ [n2] in
  if mem new_path paths then paths else paths ++ [new_path].
(** all_paths.py:39-65 the body of `for n2 in n2s`; state (paths, q, skip_list).  The dict `cache` only remembers
    earlier results of is_connected on the unchanged graph and is not modelled. *)
Definition ap_next (fuel : nat) (g : graph) (n1 : A) (new_paths : list (list A)) (s : list (list A) * list A * list A) (n2 : A)
  : res (list (list A) * list A * list A) :=
  let '(paths, q, skip) := s in
  if mem n2 skip then Ok s else
  let n3s := nodes_from g n2 in
  con <- is_connected fuel g n2 n1 ;;
  skip <- (if (1 <? length n3s) && con then ap_skip n2 n3s new_paths skip else Ok skip) ;;
  let paths := fold_left (ap_extend n2) new_paths paths in
  Ok (paths, if mem n2 q then q else q ++ [n2], skip).
(** p[-1] == n; tuples are never empty *)
Definition ends_with (n : A) (p : list A) : bool := match rev p with x :: _ => eqb x n | [] => false end.
(** all_paths.py:32-65 one iteration of the while loop *)
Definition ap_step (fuel : nat) (g : graph) (e : A) (s : list (list A) * list A * list A)
  : (list (list A) * list A * list A) + res (list (list A)) :=
  let '(paths, q, skip) := s in
  match q with
  | [] => inr (Ok (filter (ends_with e) paths))
  | n1 :: q =>
      if eqb n1 e then inl (paths, q, skip) else
      match foldM (ap_next fuel g n1 (filter (ends_with n1) paths)) (nodes_from g n1) (paths, q, skip) with
      | Ok s' => inl s'
      | Err e => inr (Err e)
      | OutOfFuel => inr OutOfFuel
      end
  end.
(** all_paths.py:7-68 *)
Definition all_paths (fuel : nat) (g : graph) (s e : A) : res (list (list A)) :=
  if negb (contains g s) then Err ValueError else
  if negb (contains g e) then Err ValueError else
  if eqb s e then Err ValueError else
  con <- is_connected fuel g s e ;;
  if negb con then Ok [] else loop fuel (ap_step fuel g e) ([[s]], [s], []).
End Paths.
