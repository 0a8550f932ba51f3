(** Model of /repo/graph/traffic_scheduling_problem.py: Timer, is_ap_solvable, path_to_moves,
    moves_to_synchronous_moves.  The solver is in Jam.v. *)
From Verif Require Import Prelude Base Loop.

(** Timer.  Clock readings are numbers of milliseconds without rounding. *)
Record timer := mkTimer { t_limit : ext; t_start : Z; t_counter : nat; t_expired : bool }.
(** traffic_scheduling_problem.py:30-44 __init__; [now] is process_time() *)
Definition timer_new (timeout : option Z) (now : Z) : res timer :=
  match timeout with
  | None => Ok (mkTimer Inf now 0 false)
  | Some t => if (t <? 0)%Z then Err ValueError else Ok (mkTimer (Fin t) now 0 false)
  end.
(** traffic_scheduling_problem.py:46-59 expired; [now] is what process_time() returns if it is called *)
Definition expired (t : timer) (now : Z) : bool * timer :=
  if t_expired t then (true, t) else
  match t_counter t with
  | S c => (false, mkTimer (t_limit t) (t_start t) c false)
  | O => (false, mkTimer (t_limit t) (t_start t) 100 (ext_ltb (t_limit t) (Fin (now - t_start t))))
  end.

Section Ap.
Context {L E : Type} {EL : EqDec L} {EE : EqDec E}.
(** [srt] is sorted(key=len of the ends); [pick i] the choice of set.pop() in iteration i *)
Context (srt : dict L (list E) -> dict L (list E)) (pick : nat -> list E -> E).
(** traffic_scheduling_problem.py:213-220 *)
Fixpoint ap_loop (i : nat) (all_ends : list E) (items : dict L (list E)) : bool :=
  match items with
  | [] => true
  | (_, ends) :: t =>
      let options := filter (fun x => mem x all_ends) (set_of ends) in
      match options with
      | [] => false
      | _ => ap_loop (S i) (sremove (pick i options) all_ends) t
      end
  end.
(** traffic_scheduling_problem.py:193-220 is_ap_solvable *)
Definition is_ap_solvable (assignments : dict L (list E)) : bool :=
  ap_loop 0 (set_of (concat (dvals assignments))) (srt assignments).
End Ap.

Section Moves.
Context {L N : Type} {EL : EqDec L} {EN : EqDec N}.
Notation move := (L * N * N)%type.
(** traffic_scheduling_problem.py:231-233 the moves between two states (zip stops at the shorter) *)
Fixpoint state_moves (s1 s2 : list (L * N)) : list (dict L (N * N)) :=
  match s1, s2 with
  | p1 :: t1, p2 :: t2 => (if eq_dec p1 p2 then [] else [[(fst p1, (snd p1, snd p2))]]) ++ state_moves t1 t2
  | _, _ => []
  end.
(** traffic_scheduling_problem.py:229-234 *)
Fixpoint path_moves (s1 : list (L * N)) (p : list (list (L * N))) : list (dict L (N * N)) :=
  match p with [] => [] | s2 :: t => state_moves s1 s2 ++ path_moves s2 t end.
(** traffic_scheduling_problem.py:223-235 path_to_moves *)
Definition path_to_moves (path : list (list (L * N))) : res (list (dict L (N * N))) :=
  match path with [] => Err IndexError | s1 :: t => Ok (path_moves s1 t) end.

(** traffic_scheduling_problem.py:246 the moves as triples *)
Definition flat_moves (moves : list (dict L (N * N))) : list move :=
  flat_map (map (fun kv => (fst kv, fst (snd kv), snd (snd kv)))) moves.
(** traffic_scheduling_problem.py:255-264 the for loop over a copy of the moves;
    state (current_moves, occupied_locations, moves) *)
Fixpoint sync_scan (snapshot : list move) (cur : dict L (N * N)) (occ : list N) (moves : list move)
  : res (dict L (N * N) * list N * list move) :=
  match snapshot with
  | [] => Ok (cur, occ, moves)
  | (l, n1, n2) :: t =>
      if dmem l cur then Ok (cur, occ, moves) else
      if mem n2 occ then sync_scan t cur occ moves else
      if mem n1 occ then sync_scan t (dset l (n1, n2) cur) (sadd n2 (sremove n1 occ)) (lremove (l, n1, n2) moves)
      else Err KeyError
  end.
(** traffic_scheduling_problem.py:253-266 one iteration of the while loop *)
Definition sync_step (st : list move * list N * list (dict L (N * N))) : (list move * list N * list (dict L (N * N))) + res (list (dict L (N * N))) :=
  let '(moves, occ, out) := st in
  match moves with
  | [] => inr (Ok out)
  | _ => match sync_scan moves [] occ moves with
         | Ok (cur, occ, moves) => inl (moves, occ, out ++ [cur])
         | Err e => inr (Err e)
         | OutOfFuel => inr OutOfFuel
         end
  end.
(** traffic_scheduling_problem.py:238-266 moves_to_synchronous_moves; [starts] is {id: load.start} *)
Definition moves_to_synchronous_moves (fuel : nat) (moves : list (dict L (N * N))) (starts : dict L N) : res (list (dict L (N * N))) :=
  loop fuel sync_step (flat_moves moves, set_of (dvals starts), []).
End Moves.
