(** Model of the calls nodes(...), edges(...) and edge(..., default) of /repo/graph/base.py with their keyword arguments, where
    Python's None marks an argument that was not given; and of the functions that pass nodes on to them, for graphs in which
    None may itself be a node.  A node is an [option B]: [None] is Python's None, [Some b] any other hashable. *)
From Verif Require Import Prelude Base Loop Sp Bfs.
Open Scope nat_scope.

Section Sel.
Context {B O V : Type} {EB : EqDec B}.
Notation node := (option B).
Notation graph := (graph node O V).
(** an argument of in_degree= / out_degree=: an int or something else *)
Inductive degarg := DInt (k : Z) | DOther.
(** an argument of path=: a list or something else *)
Inductive patharg := PList (l : list node) | POther.

(** base.py:213-241 nodes *)
Definition by_degree (f : Z -> list node) (d : degarg) : res (list node) :=
  match d with DInt k => if Z.ltb k 0 then Err ValueError else Ok (f k) | DOther => Err ValueError end.
Definition nodes_call (g : graph) (from_node to_node : node) (in_degree out_degree : option degarg) : res (list node) :=
  if 1 <? opt_count from_node + opt_count to_node + opt_count in_degree + opt_count out_degree then Err ValueError
  else match from_node with
       | Some _ => Ok (nodes_from g from_node)
       | None =>
         match to_node with
         | Some _ => Ok (nodes_to g to_node)
         | None =>
           match in_degree, out_degree with
           | Some d, _ => by_degree (nodes_in_degree g) d
           | None, Some d => by_degree (nodes_out_degree g) d
           | None, None => Ok (nodes g)
           end
         end
       end.
(** base.py:251-282 edges *)
Definition edges_call (g : graph) (path : option patharg) (from_node to_node : node) : res (list (node * node * V)) :=
  if 1 <? opt_count from_node + opt_count to_node + opt_count path then Err ValueError
  else match path with
       | Some POther => Err ValueError
       | Some (PList l) => edges_path g l
       | None =>
         match from_node with
         | Some _ => Ok (edges_from g from_node)
         | None => match to_node with Some _ => Ok (edges_to g to_node) | None => Ok (edges g) end
         end
       end.

(** bfs.py:27-29 the way back: while node is not None *)
Fixpoint bfs_back (fuel : nat) (visited : dict node node) (n : node) (path : list node) : res (list node) :=
  match n with
  | None => Ok path
  | Some _ =>
      match fuel with
      | 0 => OutOfFuel
      | S f => match dget n visited with None => Err KeyError | Some p => bfs_back f visited p (n :: path) end
      end
  end.
(** bfs.py:31-34 the for loop over the successors *)
Definition bfs_next (n : node) (l : list node) (visited : dict node node) (q : list node) : dict node node * list node :=
  fold_left (fun (s : dict node node * list node) next => let '(visited, q) := s in if dmem next visited then (visited, q) else (dset next n visited, q ++ [next])) l (visited, q).
(** bfs.py:23-35 *)
Definition bfs_call_step (g : graph) (e : node) (fuel : nat) (s : dict node node * list node) : (dict node node * list node) + res (list node) :=
  let '(visited, q) := s in
  match q with
  | [] => inr (Ok [])
  | n :: q' =>
      if eq_dec n e then inr (bfs_back fuel visited n [])
      else match nodes_call g n None None None with Ok l => inl (bfs_next n l visited q') | Err x => inr (Err x) | OutOfFuel => inr OutOfFuel end
  end.
(** bfs.py:7-35 breadth_first_search *)
Definition bfs_call (fuel : nat) (g : graph) (s e : node) : res (list node) :=
  if negb (contains g s) then Err ValueError else
  if negb (contains g e) then Err ValueError else
  loop fuel (bfs_call_step g e fuel) ([(s, None)], [s]).
End Sel.

Section SelZ.
Context {B O : Type} {EB : EqDec B}.
Notation node := (option B).
Notation graph := (graph node O Z).
(** shortest_path.py:35-58 *)
Definition sp_call_step (g : graph) (e : node) (s : list (Z * nat * (node * list node)) * dict node Z * nat * list node)
  : (list (Z * nat * (node * list node)) * dict node Z * nat * list node) + res (ext * list node) :=
  let '(q, minimums, i, visited) := s in
  match heappop q with
  | None => inr (Ok (Inf, []))
  | Some ((cost, _, (v1, path)), q) =>
      if mem v1 visited then inl (q, minimums, i, visited) else
      let visited := sadd v1 visited in
      let path := v1 :: path in
      if eq_dec v1 e then inr (Ok (Fin cost, rev path)) else
      match edges_call g None v1 None with
      | Ok es => let '(q, minimums, i) := fold_left (sp_relax cost path visited) es (q, minimums, i) in inl (q, minimums, i, visited)
      | Err x => inr (Err x)
      | OutOfFuel => inr OutOfFuel
      end
  end.
(** shortest_path.py:11-58 shortest_path *)
Definition sp_call (fuel : nat) (g : graph) (s e : node) (avoids : list node) : res (ext * list node) :=
  if negb (contains g s) then Err ValueError else
  if negb (contains g e) then Err ValueError else
  loop fuel (sp_call_step g e) ([(0%Z, 0, (s, []))], [(s, 0%Z)], 1, set_of avoids).
End SelZ.
