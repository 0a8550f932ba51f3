(** Model of /repo/graph/cycle.py: cycle (Graph.loop, core.py:317-324).  has_cycles is in Topo.v. *)
From Verif Require Import Prelude Base Loop Sp.

Section Cycle.
Context {A O : Type} {EA : EqDec A}.
Notation graph := (graph A O Z).
(** cycle.py:21-22,25-26 del_node for each n *)
Definition del_nodes (g : graph) (l : list A) : res graph := foldM (fun g n => del_node g n) l g.
(** cycle.py:5-29 on an object of class c; p[:-1] is removelast, p[1:-1] is removelast of tl, p2[1:] is tl *)
Definition cycle_of (c : gclass) (fuel : nat) (g : graph) (start mid : A) (end_ : option A) : res (list A) :=
  if negb (contains g start) then Err ValueError else
  if negb (contains g mid) then Err ValueError else
  if match end_ with Some e => negb (contains g e) | None => false end then Err ValueError else
  r1 <- shortest_path fuel g start mid [] ;;
  let p := snd r1 in
  g2 <- copy_of c g ;;
  r2 <- match end_ with
        | Some e => g2 <- del_nodes g2 (removelast p) ;; shortest_path fuel g2 mid e []
        | None => g2 <- del_nodes g2 (removelast (tl p)) ;; shortest_path fuel g2 mid start []
        end ;;
  Ok (p ++ tl (snd r2)).
End Cycle.
(** on objects of class Graph *)
Notation cycle := (cycle_of IsGraph).
