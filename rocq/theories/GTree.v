(** Model of /repo/graph/shortest_tree_all_pairs.py over numbers of any kind, as Fw.shortest_tree_all_pairs: the arithmetic of
    the edge values and sum() are parameters.  Dictionary keys are compared by ==, so 0.0 and -0.0 are one key. *)
From Verif Require Import Prelude Base Loop GSp GFw.

Section GTree.
Context {A O W : Type} {EA : EqDec A} (ar : arith W).
Notation graph := (graph A O W).
(** a dictionary whose keys are numbers: d.get(k), d[k] = s (an existing key stays), del d[k] *)
Fixpoint kget (k : W) (d : list (W * list A)) : option (list A) :=
  match d with [] => None | (k', s) :: t => if a_eqb ar k k' then Some s else kget k t end.
Fixpoint kset (k : W) (s : list A) (d : list (W * list A)) : list (W * list A) :=
  match d with [] => [(k, s)] | (k', s') :: t => if a_eqb ar k k' then (k', s) :: t else (k', s') :: kset k s t end.
Fixpoint kdel (k : W) (d : list (W * list A)) : list (W * list A) :=
  match d with [] => [] | (k', s') :: t => if a_eqb ar k k' then t else (k', s') :: kdel k t end.
(** shortest_tree_all_pairs.py:17-25: `distance` is never lowered, so the last node whose total is less than inf is taken; None
    stands for the initial value -1 (assumed not to be a node).  [sumf] is sum() *)
Definition gtree_start (sumf : list W -> W) (m : dict A (dict A W)) : option A :=
  fold_left (fun best p => if a_ltb ar (sumf (dvals (snd p))) (a_inf ar) then Some (fst p) else best) m None.
(** shortest_tree_all_pairs.py:28-32 inv_g2: distance -> set of nodes *)
Definition ginvert (row : dict A W) : list (W * list A) :=
  fold_left (fun inv p => kset (snd p) (sadd (fst p) (match kget (snd p) inv with Some s => s | None => [] end)) inv) row [].
(** shortest_tree_all_pairs.py:37-42; state (all_nodes, inv_g2, path).  [ord i s] is the iteration order of the set s in the
    round with i nodes already listed.  all_nodes.remove of a missing node is a KeyError. *)
Definition gtree_step (ord : nat -> list A -> list A) (s : list A * list (W * list A) * list A)
  : (list A * list (W * list A) * list A) + res (list A) :=
  let '(all_nodes, inv, path) := s in
  if is_nil all_nodes || is_nil inv then inr (Ok path) else
  match gpy_min ar (map fst inv) with
  | Ok v =>
      let group := ord (length path) (match kget v inv with Some l => l | None => [] end) in
      match foldM (fun (st : list A * list A) x => if mem x (fst st) then Ok (sremove x (fst st), snd st ++ [x]) else Err KeyError) group (all_nodes, path) with
      | Ok (all_nodes, path) => inl (all_nodes, kdel v inv, path)
      | Err e => inr (Err e)
      | OutOfFuel => inr OutOfFuel
      end
  | Err e => inr (Err e)
  | OutOfFuel => inr OutOfFuel
  end.
(** shortest_tree_all_pairs.py:5-43 *)
Definition gshortest_tree (sumf : list W -> W) (ord : nat -> list A -> list A) (fuel : nat) (g : graph) : res (list A) :=
  let m := gall_pairs_shortest_paths ar g in
  match gtree_start sumf m with
  | None => Err KeyError
  | Some s => loop fuel (gtree_step ord) (dkeys m, ginvert (inner m s), [])
  end.
End GTree.
