(** Model of /repo/graph/random.py: random_xy_graph.
    The random source is an oracle: [rnd i] is the i-th pair (randint(1,x_max), randint(1,y_max)), [shX], [shY],
    [sh1], [sh2] are the results of the four random.shuffle calls.  xy_distance (a float) is the parameter [xyd]. *)
From Verif Require Import Prelude Base Loop.

Section Random.
Context {V : Type} (xyd : Z * Z -> Z * Z -> V) (rnd : nat -> Z * Z)
  (shX shY : list Z -> list Z) (sh1 sh2 : list (Z * Z) -> list (Z * Z)).
Notation graph := (graph (Z * Z) unit V).
Local Open Scope Z_scope.

(** random.py:42-53 one iteration of the random search; state (draws so far, g, xy_space, node_count).
    randint(1, m) raises ValueError when m < 1.  len > (x*y)/2 is compared without rounding. *)
Definition rxy_step (nodes_ x_max y_max : Z) (st : nat * graph * list (Z * Z) * Z) : (nat * graph * list (Z * Z) * Z) + res (graph * list (Z * Z)) :=
  let '(i, g, space, count) := st in
  if count <? nodes_ then
    if (x_max <? 1) || (y_max <? 1) then inr (Err ValueError) else
    let xy := rnd i in
    if mem xy space then
      if x_max * y_max <? 2 * Z.of_nat (length space) then inr (Ok (g, space))
      else inl (S i, g, space, count)
    else inl (S i, add_node g xy None, sadd xy space, count + 1)
  else inr (Ok (g, space)).

(** random.py:65-76 the inner loop over y; returns (g, xy_space, quit) *)
Fixpoint rxy_row (nodes_ x : Z) (ys : list Z) (g : graph) (space : list (Z * Z)) : graph * list (Z * Z) * bool :=
  match ys with
  | [] => (g, space, false)
  | y :: ys =>
      if mem (x, y) space then rxy_row nodes_ x ys g space
      else let g := add_node g (x, y) None in
           let space := sadd (x, y) space in
           if Z.of_nat (length space) =? nodes_ then (g, space, true) else rxy_row nodes_ x ys g space
  end.
(** random.py:61-76 the outer loop over x *)
Fixpoint rxy_grid (nodes_ : Z) (xs ys : list Z) (g : graph) (space : list (Z * Z)) : graph * list (Z * Z) :=
  match xs with
  | [] => (g, space)
  | x :: xs => let '(g, space, quit) := rxy_row nodes_ x ys g space in
               if quit then (g, space) else rxy_grid nodes_ xs ys g space
  end.
(** list(range(1, m+1)) *)
Definition range1 (m : Z) : list Z := map Z.of_nat (seq 1 (Z.to_nat m)).

(** random.py:83-90 *)
Fixpoint rxy_edges (edges_ count : Z) (ps : list ((Z * Z) * (Z * Z))) (g : graph) : res graph :=
  match ps with
  | [] => Ok g
  | (n1, n2) :: ps => if count =? edges_ then Ok g
                      else g <- add_edge g n1 n2 (xyd n1 n2) false ;; rxy_edges edges_ (count + 1) ps g
  end.

(** random.py:15-92 random_xy_graph; [edges_ = None] is the default *)
Definition random_xy_graph (fuel : nat) (nodes_ x_max y_max : Z) (edges_ : option Z) : res graph :=
  if x_max * y_max <? nodes_ then Err ValueError else
  let max_edges := nodes_ * nodes_ in
  let edges_ := match edges_ with None => max_edges | Some e => e end in
  if max_edges <? edges_ then Err ValueError else
  r <- loop fuel (rxy_step nodes_ x_max y_max) (O, empty_graph, [], 0) ;;
  let '(g, space) := r in
  let g := if Z.of_nat (length (nodes g)) <? nodes_
           then fst (rxy_grid nodes_ (shX (range1 x_max)) (shY (range1 y_max)) g space) else g in
  let n1s := sh1 (nodes g) in
  let n2s := sh2 n1s in
  rxy_edges edges_ 0 (list_prod n1s n2s) g.
End Random.
