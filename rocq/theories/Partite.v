(** Model of /repo/graph/partite.py *)
From Verif Require Import Prelude Base Loop.

Section Partite.
Context {A O V : Type} {EA : EqDec A}.
Notation graph := (graph A O V).
(** (q, visited, colour, colours_and_nodes, nodes_and_colours); q is a stack with its top first
    (Python pops and appends at the end), colours are 0 .. n-1 *)
Definition pt_state : Type := list A * list A * nat * dict nat (list A) * dict A nat.

(** partite.py:28,39: colours_and_nodes[colour].add(node) *)
Definition pt_put (cn : dict nat (list A)) (c : nat) (x : A) : res (dict nat (list A)) :=
  match dget c cn with None => Err KeyError | Some s => Ok (dset c (sadd x s) cn) end.

(** partite.py:33-43 the loop over the neighbours; [None] is `return False, None` *)
Fixpoint pt_scan (colour next : nat) (visited l q : list A) (cn : dict nat (list A)) (nc : dict A nat)
  : res (option (list A * dict nat (list A) * dict A nat)) :=
  match l with
  | [] => Ok (Some (q, cn, nc))
  | n2 :: t =>
    match dget n2 nc with
    | Some c => if c =? colour then Ok None
                else pt_scan colour next visited t (if mem n2 visited then q else n2 :: q) cn nc
    | None => cn' <- pt_put cn next n2 ;; pt_scan colour next visited t q cn' (dset n2 next nc)
    end
  end.

(** partite.py:22-43 one iteration of the while loop *)
Definition pt_step (g : graph) (n : nat) (st : pt_state) : pt_state + res (option (dict nat (list A))) :=
  let '(q, visited, colour, cn, nc) := st in
  match q with
  | [] => inr (Ok (Some cn))
  | n1 :: q =>
    let visited := sadd n1 visited in
    match (match dget n1 nc with
           | Some c => Ok (c, cn, nc)
           | None => cn' <- pt_put cn colour n1 ;; Ok (colour, cn', dset n1 colour nc)
           end) with
    | Ok (colour, cn, nc) =>
      match pt_scan colour ((colour + 1) mod n) visited (nodes_from g n1 ++ nodes_to g n1) q cn nc with
      | Ok (Some (q, cn, nc)) => inl (q, visited, colour, cn, nc)
      | Ok None => inr (Ok None)
      | Err e => inr (Err e)
      | OutOfFuel => inr OutOfFuel
      end
    | Err e => inr (Err e)
    | OutOfFuel => inr OutOfFuel
    end
  end.

(** partite.py:4-45 is_partite.  [pick] is the choice of set.pop(); a pop from an empty set is a KeyError.
    [Some cn] is (True, cn), [None] is (False, None).  A negative n behaves like 0 (range(n) is empty). *)
Definition is_partite (pick : list A -> A) (fuel : nat) (g : graph) (n : nat) : res (option (dict nat (list A))) :=
  match nodes g with
  | [] => Err KeyError
  | _ => loop fuel (pt_step g n) ([pick (nodes g)], [], 0, map (fun i => (i, [])) (seq 0 n), [])
  end.
End Partite.
