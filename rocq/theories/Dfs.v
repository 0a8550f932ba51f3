(** Model of /repo/graph/dfs.py *)
From Verif Require Import Prelude Base Loop.

Section Dfs.
Context {A O V : Type} {EA : EqDec A}.
Notation graph := (graph A O V).

(** dfs.py:34-38 and 42-46: for n2 in l: if n2 in visited: continue; q.appendleft(n2); break.
    [Some n2] when the loop was left by break. *)
Fixpoint dfs_next (visited l : list A) : option A :=
  match l with [] => None | n2 :: t => if mem n2 visited then dfs_next visited t else Some n2 end.

(** dfs.py:28-49.  State (q, path, visited).  The nested loop `while not q and path` is entered only
    after a pop that found no successor and is left only when q is non-empty or path is empty; the
    outer test `while q` therefore alternates with it exactly as the three cases below. *)
Definition dfs_step (g : graph) (e : A) (s : list A * list A * list A)
  : (list A * list A * list A) + res (option (list A)) :=
  let '(q, path, visited) := s in
  match q with
  | n1 :: q' =>
      let visited := sadd n1 visited in
      let path := path ++ [n1] in
      if eq_dec n1 e then inr (Ok (Some path)) else
      match dfs_next visited (nodes_from g n1) with
      | Some n2 => inl (n2 :: q', path, visited)
      | None => inl (q', lremove n1 path, visited)
      end
  | [] =>
      match rev path with
      | [] => inr (Ok None)
      | n :: _ =>
          match dfs_next visited (nodes_from g n) with
          | Some n2 => inl ([n2], path, visited)
          | None => inl ([], removelast path, visited)
          end
      end
  end.
(** dfs.py:7-49 depth_first_search *)
Definition depth_first_search (fuel : nat) (g : graph) (s e : A) : res (option (list A)) :=
  if negb (contains g s) then Err ValueError else
  if negb (contains g e) then Err ValueError else
  loop fuel (dfs_step g e) ([s], [], []).

(** dfs.py:76-83 and 87-94: like dfs_next, but a node rejected by criteria is marked visited *)
Fixpoint scan_next (crit : A -> bool) (visited l : list A) : option A * list A :=
  match l with
  | [] => (None, visited)
  | n2 :: t =>
      if mem n2 visited then scan_next crit visited t
      else if negb (crit n2) then scan_next crit (sadd n2 visited) t
      else (Some n2, visited)
  end.
(** dfs.py:72-97; same flattening as dfs_step.  criteria is a pure function. *)
Definition scan_step (g : graph) (crit : A -> bool) (s : list A * list A * list A)
  : (list A * list A * list A) + res (list A) :=
  let '(q, path, visited) := s in
  match q with
  | n1 :: q' =>
      let visited := sadd n1 visited in
      let path := path ++ [n1] in
      match scan_next crit visited (nodes_from g n1) with
      | (Some n2, visited') => inl (n2 :: q', path, visited')
      | (None, visited') => inl (q', lremove n1 path, visited')
      end
  | [] =>
      match rev path with
      | [] => inr (Ok visited)
      | n :: _ =>
          match scan_next crit visited (nodes_from g n) with
          | (Some n2, visited') => inl ([n2], path, visited')
          | (None, visited') => inl ([], removelast path, visited')
          end
      end
  end.
(** dfs.py:52-97 depth_scan *)
Definition depth_scan (fuel : nat) (g : graph) (s : A) (crit : A -> bool) : res (list A) :=
  if negb (contains g s) then Err ValueError else
  if negb (crit s) then Ok [] else
  loop fuel (scan_step g crit) ([s], [], []).
End Dfs.
