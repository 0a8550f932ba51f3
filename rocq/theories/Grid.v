(** Model of /repo/examples/graphs.py:5-23 grid.  Numbers of columns and rows are naturals: range() of a negative number is
    empty like range(0).  Cells are pairs (column, row). *)
From Verif Require Import Prelude Base.

Definition cell := (nat * nat)%type.
(** graphs.py:13-22 the body of the loop *)
Definition grid_cell (x y : nat) (bi : bool) (g : graph cell unit Z) (c : cell) : res (graph cell unit Z) :=
  let '(i, j) := c in
  g <- (if 0 <? i mod x then add_edge g (i - 1, j) (i, j) 1%Z bi else Ok g) ;;
  if 0 <? j mod y then add_edge g (i, j - 1) (i, j) 1%Z bi else Ok g.
(** graphs.py:12-23; itertools.product(range(x), range(y)) *)
Definition grid (x y : nat) (bi : bool) : res (graph cell unit Z) :=
  foldM (grid_cell x y bi) (list_prod (seq 0 x) (seq 0 y)) empty_graph.
