(** Model of /repo/graph/core.py:380-392 Graph3D.n_nearest_neighbours.
    [dist] is Graph3D.distance (a float), [srt] is list.sort() on the (distance, node) pairs. *)
From Verif Require Import Prelude Base.

Section Nearest.
Context {A O V D : Type} {EA : EqDec A} (dist : A -> A -> D) (srt : list (D * A) -> list (D * A)).
Notation graph := (graph A O V).
(** core.py:385-392; [Ok None] is Python's None *)
Definition n_nearest_neighbours (g : graph) (node_id : A) (n : Z) : res (option (list A)) :=
  if (n <? 1)%Z then Err ValueError else
  let d := srt (map (fun m => (dist node_id m, m)) (filter (fun m => negb (eqb m node_id)) (nodes g))) in
  match d with
  | [] => Ok None
  | _ => Ok (Some (firstn (Z.to_nat n) (map snd d)))
  end.
End Nearest.
