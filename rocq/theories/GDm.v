(** Model of /repo/graph/distance_map.py over numbers of any kind, as Fw.distance_map: the arithmetic of the edge values is a
    parameter. *)
From Verif Require Import Prelude Base Loop GSp.

Section GDm.
Context {A O W : Type} {EA : EqDec A} (ar : arith W).
Notation graph := (graph A O W).
(** distance_map.py:58-61 and 74-77: one edge of the node that was taken from the queue.  [min(new, visited.get(n2, inf))] is
    the first of the least, so the new value unless the old one (or inf) is less.  Forward the new value is [d1 + d], in
    reverse it is [d + d2]. *)
Definition gdm_relax (rv : bool) (d1 : W) (s : list A * dict A W) (e : A * W) : list A * dict A W :=
  let '(q, visited) := s in
  let '(n2, d) := e in
  let new := if rv then a_add ar d d1 else a_add ar d1 d in
  let old := match dget n2 visited with Some v => v | None => a_inf ar end in
  (if dmem n2 visited then q else q ++ [n2],
   dset n2 (if a_ltb ar old new then old else new) visited).
(** distance_map.py:50-61 and 66-77: one node is taken from the queue.  [nbr] lists (neighbour, value); [targets] is None when
    the search is exhaustive.  State (q, visited, found). *)
Definition gdm_step (rv : bool) (nbr : A -> list (A * W)) (targets : option (list A)) (s : list A * dict A W * list A)
  : (list A * dict A W * list A) + res (dict A W) :=
  let '(q, visited, found) := s in
  match q with
  | [] => inr (Ok visited)
  | n1 :: q =>
      if match targets with None => false | Some t => same_set found t end then inr (Ok visited) else
      let found := match targets with Some t => if mem n1 t then sadd n1 found else found | None => found end in
      match dget n1 visited with
      | None => inr (Err KeyError)
      | Some d1 => let '(q, visited) := fold_left (gdm_relax rv d1) (nbr n1) (q, visited) in inl (q, visited, found)
      end
  end.
(** distance_map.py:8-79.  starts/ends: None or a list of nodes (one node is a one-element list); [ord] is the iteration order
    of a set.  Simplification: a node that is itself an iterable is not treated as a collection; the integer 0 of the start
    nodes is the zero of the arithmetic. *)
Definition gdistance_map (ord : list A -> list A) (fuel : nat) (g : graph) (starts ends : option (list A)) (reverse : bool) : res (dict A W) :=
  match starts, ends, reverse with
  | None, None, _ => Err ValueError
  | None, _, false => Err ValueError
  | _, None, true => Err ValueError
  | _, _, _ =>
      let sl := match starts with Some l => l | None => [] end in
      let el := match ends with Some l => l | None => [] end in
      if existsb (fun n => negb (contains g n)) sl then Err ValueError else
      if existsb (fun n => negb (contains g n)) el then Err ValueError else
      if reverse then
        let src := ord (set_of el) in
        loop fuel (gdm_step true (fun n => map (fun e => (fst (fst e), snd e)) (edges_to g n)) starts) (src, map (fun n => (n, a_zero ar)) src, [])
      else
        let src := ord (set_of sl) in
        loop fuel (gdm_step false (fun n => map (fun e => (snd (fst e), snd e)) (edges_from g n)) ends) (src, map (fun n => (n, a_zero ar)) src, [])
  end.
End GDm.
