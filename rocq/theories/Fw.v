(** Model of /repo/graph/adjacency_matrix.py, all_pairs_shortest_path.py, minsum.py, minmax.py,
    shortest_tree_all_pairs.py and distance_map.py.  Edge values are integers. *)
From Verif Require Import Prelude Base Loop.

Section Fw.
Context {A O : Type} {EA : EqDec A}.
Notation graph := (graph A O Z).
Definition matrix : Type := dict A (dict A ext).

(** adjacency_matrix.py:4-31 *)
Definition adjacency_matrix (g : graph) : matrix :=
  map (fun v1 => (v1, map (fun v2 => (v2, if eq_dec v1 v2 then Fin 0 else match edge g v1 v2 with Some w => Fin w | None => Inf end)) (nodes g))) (nodes g).

(** g[v1][v3]; all keys exist, because every matrix here has all vertices as keys in both levels (FwFacts.fw_keys) *)
Definition mget (m : matrix) (a b : A) : ext := match eget m a b with Some e => e | None => Inf end.

(** all_pairs_shortest_path.py:35-37: one round of the for loop *)
Definition fw_round (vs : list A) (m : matrix) (v2 : A) : matrix :=
  map (fun v1 => (v1, map (fun v3 => (v3, ext_min (mget m v1 v3) (ext_add (mget m v1 v2) (mget m v2 v3)))) vs)) vs.
(** all_pairs_shortest_path.py:4-38 *)
Definition all_pairs_shortest_paths (g : graph) : matrix :=
  let m := adjacency_matrix g in
  let vertices := dkeys m in
  fold_left (fw_round vertices) vertices m.

(** Python's sum/min/max of a list; min and max of an empty list raise ValueError *)
Definition ext_sum (l : list ext) : ext := fold_left ext_add l (Fin 0).
Definition py_min (l : list ext) : res ext := match l with [] => Err ValueError | x :: t => Ok (fold_left ext_min t x) end.
Definition py_max (l : list ext) : res ext := match l with [] => Err ValueError | x :: t => Ok (fold_left ext_max t x) end.

(** [adj_mat[n] = f(adj_mat[n].values())] for all n *)
Fixpoint map_rows (f : list ext -> res ext) (m : matrix) : res (dict A ext) :=
  match m with
  | [] => Ok []
  | (n, row) :: t => x <- f (dvals row) ;; r <- map_rows f t ;; Ok ((n, x) :: r)
  end.
(** minsum.py:4-11, minmax.py:4-11 *)
Definition centre (f : list ext -> res ext) (g : graph) : res (list A) :=
  adj_mat <- map_rows f (all_pairs_shortest_paths g) ;;
  smallest <- py_min (dvals adj_mat) ;;
  Ok (map fst (filter (fun p => ext_eqb (snd p) smallest) adj_mat)).
Definition minsum (g : graph) : res (list A) := centre (fun l => Ok (ext_sum l)) g.
Definition minmax (g : graph) : res (list A) := centre py_max g.

(** shortest_tree_all_pairs.py:17-26: `distance` is never lowered, so the last node whose total is
    finite is taken; None stands for the initial value -1 (assumed not to be a node). *)
Definition tree_start (m : matrix) : option A :=
  fold_left (fun best p => if ext_ltb (ext_sum (dvals (snd p))) Inf then Some (fst p) else best) m None.
(** shortest_tree_all_pairs.py:28-32 inv_g2: distance -> set of nodes *)
Definition invert (row : dict A ext) : dict ext (list A) :=
  fold_left (fun inv p => dset (snd p) (sadd (fst p) (match dget (snd p) inv with Some s => s | None => [] end)) inv) row [].
(** shortest_tree_all_pairs.py:36-42; state (all_nodes, inv_g2, path).  [ord i s] is the iteration order of the
    set s in the round with i nodes already listed.  all_nodes.remove of a missing node is a KeyError. *)
Definition tree_step (ord : nat -> list A -> list A) (s : list A * dict ext (list A) * list A)
  : (list A * dict ext (list A) * list A) + res (list A) :=
  let '(all_nodes, inv, path) := s in
  if is_nil all_nodes || is_nil inv then inr (Ok path) else
  match py_min (dkeys inv) with
  | Ok v =>
      let group := ord (length path) (match dget v inv with Some l => l | None => [] end) in
      match foldM (fun (st : list A * list A) x => if mem x (fst st) then Ok (sremove x (fst st), snd st ++ [x]) else Err KeyError) group (all_nodes, path) with
      | Ok (all_nodes, path) => inl (all_nodes, ddel v inv, path)
      | Err e => inr (Err e)
      | OutOfFuel => inr OutOfFuel
      end
  | Err e => inr (Err e)
  | OutOfFuel => inr OutOfFuel
  end.
(** shortest_tree_all_pairs.py:5-42 *)
Definition shortest_tree_all_pairs (ord : nat -> list A -> list A) (fuel : nat) (g : graph) : res (list A) :=
  let m := all_pairs_shortest_paths g in
  match tree_start m with
  | None => Err KeyError
  | Some s => loop fuel (tree_step ord) (dkeys m, invert (inner m s), [])
  end.

(** distance_map.py:52-62 and 67-77: one node is taken from the queue.  [nbr] lists (neighbour, value);
    [targets] is None when the search is exhaustive.  State (q, visited, found). *)
Definition dm_relax (d1 : Z) (s : list A * dict A Z) (e : A * Z) : list A * dict A Z :=
  let '(q, visited) := s in
  let '(n2, d) := e in
  (if dmem n2 visited then q else q ++ [n2],
   dset n2 (match dget n2 visited with Some v => Z.min (d1 + d) v | None => (d1 + d)%Z end) visited).
Definition dm_step (nbr : A -> list (A * Z)) (targets : option (list A)) (s : list A * dict A Z * list A)
  : (list A * dict A Z * list A) + res (dict A Z) :=
  let '(q, visited, found) := s in
  match q with
  | [] => inr (Ok visited)
  | n1 :: q =>
      if match targets with None => false | Some t => same_set found t end then inr (Ok visited) else
      let found := match targets with Some t => if mem n1 t then sadd n1 found else found | None => found end in
      match dget n1 visited with
      | None => inr (Err KeyError)
      | Some d1 => let '(q, visited) := fold_left (dm_relax d1) (nbr n1) (q, visited) in inl (q, visited, found)
      end
  end.
(** distance_map.py:7-77.  starts/ends: None or a list of nodes (one node is a one-element list); [ord] is the
    iteration order of a set.  Simplification: a node that is itself an iterable is not treated as a collection. *)
Definition distance_map (ord : list A -> list A) (fuel : nat) (g : graph) (starts ends : option (list A)) (reverse : bool) : res (dict A Z) :=
  match starts, ends, reverse with
  | None, None, _ => Err ValueError
  | None, _, false => Err ValueError
  | _, None, true => Err ValueError
  | _, _, _ =>
      let sl := match starts with Some l => l | None => [] end in
      let el := match ends with Some l => l | None => [] end in
      if existsb (fun n => negb (contains g n)) sl then Err ValueError else
      if existsb (fun n => negb (contains g n)) el then Err ValueError else
      if reverse then
        let src := ord (set_of el) in
        loop fuel (dm_step (fun n => map (fun e => (fst (fst e), snd e)) (edges_to g n)) starts) (src, map (fun n => (n, 0%Z)) src, [])
      else
        let src := ord (set_of sl) in
        loop fuel (dm_step (fun n => map (fun e => (snd (fst e), snd e)) (edges_from g n)) ends) (src, map (fun n => (n, 0%Z)) src, [])
  end.
End Fw.
Arguments matrix : clear implicits.
