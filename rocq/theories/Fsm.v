(** Model of /repo/graph/finite_state_machine.py *)
From Verif Require Import Prelude Base.

Section Fsm.
(** N: the values that can be nodes of the graph (states and action ids); act: actions;
    [aid k] is the k-th value of itertools.count() as a node (Python: the int k). *)
Context {N act : Type} {EN : EqDec N} {EA : EqDec act} (aid : nat -> N).

(** finite_state_machine.py:6-11 __init__ *)
Record fsm := mkFsm {
  f_states : graph N unit Z; f_current : option N; f_count : nat; f_actions : dict N act; f_set : bool }.
Definition fsm_new : fsm := mkFsm empty_graph None 0 [] false.

(** finite_state_machine.py:13-24 set_initial_state *)
Definition set_initial_state (m : fsm) (s : N) : res fsm :=
  if f_set m then Err ValueError else
  if negb (mem s (nodes (f_states m))) then Err ValueError else
  Ok (mkFsm (f_states m) (Some s) (f_count m) (f_actions m) true).

(** finite_state_machine.py:26-37 add_transition (add_edge has the default value 1) *)
Definition add_transition (m : fsm) (s1 : N) (a : act) (s2 : N) : res fsm :=
  let i := aid (f_count m) in
  g <- add_edge (f_states m) s1 i 1%Z false ;;
  g <- add_edge g i s2 1%Z false ;;
  Ok (mkFsm g (f_current m) (S (f_count m)) (dset i a (f_actions m)) (f_set m)).

(** nodes(from_node=current_state); from_node=None means all nodes (base.py:216-222) *)
Definition fsm_ids (m : fsm) : list N :=
  match f_current m with Some s => nodes_from (f_states m) s | None => nodes (f_states m) end.

(** finite_state_machine.py:39-41 options *)
Fixpoint fsm_lookup (d : dict N act) (l : list N) : res (list act) :=
  match l with
  | [] => Ok []
  | i :: t => match dget i d with None => Err KeyError | Some a => r <- fsm_lookup d t ;; Ok (a :: r) end
  end.
Definition options (m : fsm) : res (list act) := fsm_lookup (f_actions m) (fsm_ids m).

(** finite_state_machine.py:54-58 the for loop: the id of the first matching action *)
Fixpoint fsm_find (d : dict N act) (a : act) (l : list N) : res N :=
  match l with
  | [] => Err ValueError
  | i :: t => match dget i d with
              | None => Err KeyError
              | Some b => if eq_dec b a then Ok i else fsm_find d a t
              end
  end.
(** finite_state_machine.py:43-59 next *)
Definition next (m : fsm) (a : act) : res fsm :=
  if negb (f_set m) then Err ValueError else
  match fsm_ids m with
  | [] => Err StopIteration
  | l => i <- fsm_find (f_actions m) a l ;;
         match nodes_from (f_states m) i with
         | [] => Err IndexError
         | s :: _ => Ok (mkFsm (f_states m) (Some s) (f_count m) (f_actions m) (f_set m))
         end
  end.

(** a history of calls; an exception leaves the machine as it was (all checks precede the updates) *)
Inductive call := CAdd (s1 : N) (a : act) (s2 : N) | CInit (s : N) | CNext (a : act) | COptions.
Definition keep (m : fsm) (r : res fsm) : fsm * res (list act) :=
  match r with Ok m' => (m', Ok []) | Err e => (m, Err e) | OutOfFuel => (m, OutOfFuel) end.
Definition do_call (m : fsm) (c : call) : fsm * res (list act) :=
  match c with
  | CAdd s1 a s2 => keep m (add_transition m s1 a s2)
  | CInit s => keep m (set_initial_state m s)
  | CNext a => keep m (next m a)
  | COptions => (m, options m)
  end.
(** the answers of a history, and the state reached *)
Fixpoint do_calls (m : fsm) (cs : list call) : list (res (list act)) * option N :=
  match cs with
  | [] => ([], f_current m)
  | c :: t => let '(m', r) := do_call m c in let '(rs, s) := do_calls m' t in (r :: rs, s)
  end.
End Fsm.
