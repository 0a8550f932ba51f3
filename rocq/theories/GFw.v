(** Model of /repo/graph/minsum.py and minmax.py over numbers of any kind, as Fw.centre: the arithmetic of the edge values
    and sum() are parameters. *)
From Verif Require Import Prelude Base Loop GSp.

Section GFw.
Context {A O W : Type} {EA : EqDec A} (ar : arith W).
Notation graph := (graph A O W).
(** min() and max() of a sequence: the first of the least / greatest; empty: ValueError *)
Definition gpy_min (l : list W) : res W := match l with [] => Err ValueError | x :: t => Ok (fold_left (fun m y => if a_ltb ar y m then y else m) t x) end.
Definition gpy_max (l : list W) : res W := match l with [] => Err ValueError | x :: t => Ok (fold_left (fun m y => if a_ltb ar m y then y else m) t x) end.
(** minsum.py:9-10, minmax.py:9-10: adj_mat[n] = f(adj_mat[n].values()) for all n *)
Fixpoint gmap_rows (f : list W -> res W) (m : dict A (dict A W)) : res (dict A W) :=
  match m with
  | [] => Ok []
  | (n, row) :: t => x <- f (dvals row) ;; r <- gmap_rows f t ;; Ok ((n, x) :: r)
  end.
(** minsum.py:8-12, minmax.py:8-12 *)
Definition gcentre (f : list W -> res W) (g : graph) : res (list A) :=
  adj_mat <- gmap_rows f (gall_pairs_shortest_paths ar g) ;;
  smallest <- gpy_min (dvals adj_mat) ;;
  Ok (map fst (filter (fun p => a_eqb ar (snd p) smallest) adj_mat)).
(** minsum.py:4-12; [sumf] is sum() *)
Definition gminsum (sumf : list W -> W) (g : graph) : res (list A) := gcentre (fun l => Ok (sumf l)) g.
(** minmax.py:4-12 *)
Definition gminmax (g : graph) : res (list A) := gcentre gpy_max g.
End GFw.
