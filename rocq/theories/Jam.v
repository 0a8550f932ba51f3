(** Model of /repo/graph/traffic_scheduling_problem.py: Load, check_user_input, State, JamSolver, jam_solver.
    Simplifications: a State is its tuple of loads (the code compares 64-bit hashes of these tuples; collisions are
    not modelled); exceptions of type checks are left to typing; bisect.insort on the (always sorted) queues is
    insertion after the last entry that is not larger. *)
From Verif Require Import Prelude Base Loop Sp Bfs Fw Traffic.

Section Jam.
Context {L N O : Type} {EL : EqDec L} {EN : EqDec N}.
Notation graph := (graph N O Z).
Notation state := (list (L * N)).
Notation moves := (Base.graph (list (L * N)) unit Z).

(** traffic_scheduling_problem.py:62-66 Load, without the id *)
Record load := mkLoad { ld_start : N; ld_ends : list N; ld_proh : list N }.
(** traffic_scheduling_problem.py:67-97 __init__; a single end is a one-element list, None is the default *)
Definition load_new (raw : N * option (list N) * option (list N)) : res load :=
  let '(start, ends, prohibited) := raw in
  ends <- match ends with
          | None => Ok [start]
          | Some [] => Err ValueError
          | Some l => Ok (set_of l)
          end ;;
  Ok (mkLoad start ends (match prohibited with None => [] | Some l => set_of l end)).

(** Oracles.  [srt]: sorted() of (distance, node) pairs; [ordN]/[ordS]: iteration order of a set of nodes/states;
    [apsrt]/[pick]: see Traffic.v; [t0]: the clock reading in Timer.__init__; [now i]: the clock at call i of expired(). *)
Context (srt : list (Z * N) -> list (Z * N)) (ordN : list N -> list N) (ordS : list state -> list state)
  (apsrt : dict L (list N) -> dict L (list N)) (pick : nat -> list N -> N) (t0 : Z) (now : nat -> Z).

(** traffic_scheduling_problem.py:141-157 the loads by id, and all starts and ends *)
Fixpoint read_loads (raw : list (L * (N * option (list N) * option (list N)))) (all : dict L load) (ns : list N) : res (dict L load * list N) :=
  match raw with
  | [] => Ok (all, ns)
  | (i, r) :: t => ld <- load_new r ;; read_loads t (dset i ld all) (sunion (sadd (ld_start ld) ns) (ld_ends ld))
  end.
(** traffic_scheduling_problem.py:161-170 *)
Fixpoint diff_check (diff : list N) (ls : list load) : res unit :=
  match ls with
  | [] => Ok tt
  | ld :: t => if mem (ld_start ld) diff then Err ValueError else
               if existsb (fun x => mem x diff) (ld_ends ld) then Err ValueError else
               if existsb (fun x => mem x diff) (ld_proh ld) then Err ValueError else diff_check diff t
  end.
(** traffic_scheduling_problem.py:176-189 *)
Fixpoint route_check (fuel : nat) (g : graph) (ls : list load) : res unit :=
  match ls with
  | [] => Ok tt
  | ld :: t =>
      gc <- (if is_nil (ld_proh ld) then Ok g else
               gc <- copy g ;; foldM (fun gc n => del_node gc n) (ordN (ld_proh ld)) gc) ;;
      walk <- breadth_first_walk fuel gc (ld_start ld) None false ;;
      if existsb (fun n => mem n (ld_ends ld)) walk then route_check fuel g t else Err UnSolvable
  end.
(** traffic_scheduling_problem.py:116-190 check_user_input *)
Definition check_user_input (fuel : nat) (g : graph) (raw : list (L * (N * option (list N) * option (list N)))) : res (dict L load) :=
  r <- read_loads raw [] [] ;;
  let '(all, ns) := r in
  let diff := filter (fun n => negb (contains g n)) ns in
  _ <- (if is_nil diff then Ok tt else diff_check diff (dvals all)) ;;
  if negb (is_ap_solvable apsrt pick (map (fun x => (fst x, ld_ends (snd x))) all)) then Err UnSolvable else
  _ <- route_check fuel g (dvals all) ;;
  Ok all.

(** traffic_scheduling_problem.py:269-275 State *)
Record entry := mkE { e_loads : state; e_dist : Z; e_grad : ext }.
(** traffic_scheduling_problem.py:283-287 __lt__ *)
Definition entry_lt (x y : entry) : bool :=
  if ext_eqb (e_grad x) (e_grad y) then (e_dist x <? e_dist y)%Z else ext_ltb (e_grad x) (e_grad y).
(** bisect.insort *)
Fixpoint insort_e (x : entry) (q : list entry) : list entry :=
  match q with [] => [x] | y :: t => if entry_lt x y then x :: q else y :: insort_e x t end.
(** list.remove of the first entry equal to s *)
Fixpoint qremove (s : state) (q : list entry) : list entry :=
  match q with [] => [] | y :: t => if eq_dec (e_loads y) s then t else y :: qremove s t end.

(** traffic_scheduling_problem.py:330-336 the three containers of one direction *)
Record half := mkH { h_queue : list entry; h_edge : dict state entry; h_visited : list state }.
(** the attributes that change during the search; [j_stop] is a pending StopCondition, which ends all loops *)
Record jam := mkJ { j_mov : moves; j_self : half; j_other : half; j_max : ext; j_stop : bool }.

(** traffic_scheduling_problem.py:362-366 _distance *)
Definition jam_distance (dms : dict L (dict N Z)) (lid : L) (loc : N) : res Z :=
  match dget lid dms with
  | None => Err KeyError
  | Some m => match dget loc m with
              | Some d => Ok d
              | None => match dvals m with [] => Err ValueError | v :: vs => Ok (fold_left Z.max vs v + 1)%Z end
              end
  end.
Definition gradient (dms : dict L (dict N Z)) (loads : state) : res Z :=
  foldM (fun acc p => d <- jam_distance dms (fst p) (snd p) ;; Ok (acc + d)%Z) loads 0%Z.

(** traffic_scheduling_problem.py:445-455 _shortest_path_multiple_ends; [finals] in the order of iteration *)
Definition shortest_multi (fuel : nat) (mov : moves) (start : state) (finals : list state) : res (ext * option (list state)) :=
  foldM (fun (dp : ext * option (list state)) e =>
           if contains mov e then
             r <- shortest_path fuel mov start e [] ;;
             if ext_ltb (fst r) (fst dp) then Ok (fst r, Some (snd r)) else Ok dp
           else Ok dp) finals (Inf, None).
(** traffic_scheduling_problem.py:462-464, 466-468 one direction of _match *)
Definition trim (mx : ext) (h : half) : half :=
  let q := filter (fun x => ext_leb (Fin (e_dist x)) mx) (h_queue h) in
  mkH q (fold_left (fun d x => dset (e_loads x) x d) q [])
      (sunion (h_visited h) (map e_loads (filter (fun x => negb (ext_leb (Fin (e_dist x)) mx)) (h_queue h)))).
(** traffic_scheduling_problem.py:457-471 _match *)
Definition jam_match (fuel : nat) (start : state) (finals : list state) (return_on_first : bool) (J : jam) : res jam :=
  r <- shortest_multi fuel (j_mov J) start (ordS finals) ;;
  let mx := ext_min (fst r) (j_max J) in
  Ok (mkJ (j_mov J) (trim mx (j_self J)) (trim mx (j_other J)) mx return_on_first).

(** traffic_scheduling_problem.py:415-443 and 487-515: one option (distance d, location opt) for load lid of the popped
    state s.  [fwd]: the direction; self/other are the containers of this and the opposite direction. *)
Definition jam_option (fuel : nat) (fwd rof : bool) (start : state) (finals : list state) (dms : dict L (dict N Z)) (s : entry)
  (J : jam) (o : L * (Z * N)) : res jam :=
  if j_stop J then Ok J else
  let '(lid, (d, opt)) := o in
  let loads := map (fun p => if eq_dec (fst p) lid then (lid, opt) else p) (e_loads s) in
  grad <- gradient dms loads ;;
  let new := mkE loads (e_dist s + d)%Z (Fin grad) in
  let a := if fwd then e_loads s else loads in
  let b := if fwd then loads else e_loads s in
  if ext_ltb (match edge (j_mov J) a b with Some v => Fin v | None => Inf end) (Fin d) then Ok J else
  mov <- add_edge (j_mov J) a b d false ;;
  let self := j_self J in
  let J := mkJ mov self (j_other J) (j_max J) false in
  match dget loads (h_edge self) with
  | Some existing =>
      if entry_lt new existing then
        if mem (e_loads existing) (map e_loads (h_queue self)) then
          Ok (mkJ mov (mkH (insort_e new (qremove (e_loads existing) (h_queue self))) (dset loads new (h_edge self)) (h_visited self)) (j_other J) (j_max J) false)
        else Err ValueError
      else Ok J
  | None =>
      if mem loads (h_visited self) || mem loads (h_visited (j_other J)) then Ok J else
      let J := mkJ mov (mkH (insort_e new (h_queue self)) (dset loads new (h_edge self)) (h_visited self)) (j_other J) (j_max J) false in
      if mem loads (h_visited (j_other J)) then jam_match fuel start finals rof J else Ok J
  end.
(** traffic_scheduling_problem.py:408-415 and 480-487: all options of all loads, in order (the two nested for loops
    are flattened: the options depend only on the popped state).  An id without load cannot occur; it has no options. *)
Definition jam_options (fwd : bool) (g : graph) (all : dict L load) (s : state) : list (L * (Z * N)) :=
  let occupied := dvals s in
  flat_map (fun p : L * N =>
    match dget (fst p) all with
    | None => []
    | Some ld =>
        map (fun o => (fst p, o))
          (srt (map (fun e => (snd e, if fwd then snd (fst e) else fst (fst e)))
             (filter (fun e => let x := if fwd then snd (fst e) else fst (fst e) in negb (mem x occupied) && negb (mem x (ld_proh ld)))
                (if fwd then edges_from g (snd p) else edges_to g (snd p)))))
    end) s.
(** traffic_scheduling_problem.py:401-443 _find_forward_options and 473-515 _find_reverse_options *)
Definition jam_find (fuel : nat) (fwd rof : bool) (g : graph) (all : dict L load) (start : state) (finals : list state) (dms : dict L (dict N Z)) (J : jam) : res jam :=
  match h_queue (j_self J) with
  | [] => Ok J
  | s :: q =>
      if dmem (e_loads s) (h_edge (j_self J)) then
        foldM (jam_option fuel fwd rof start finals dms s) (jam_options fwd g all (e_loads s))
          (mkJ (j_mov J) (mkH q (ddel (e_loads s) (h_edge (j_self J))) (sadd (e_loads s) (h_visited (j_self J)))) (j_other J) (j_max J) (j_stop J))
      else Err KeyError
  end.
Definition swap_jam (J : jam) : jam := mkJ (j_mov J) (j_other J) (j_self J) (j_max J) (j_stop J).
(** traffic_scheduling_problem.py:391-399 _search: one iteration; self is the forward direction.
    State (J, timer, number of calls of expired() so far). *)
Definition jam_step (fuel : nat) (rof : bool) (g : graph) (all : dict L load) (start : state) (finals : list state) (dms : dict L (dict N Z))
  (st : jam * timer * nat) : (jam * timer * nat) + res (moves * timer * nat) :=
  let '(J, tm, i) := st in
  let '(b, tm) := expired tm (now i) in
  if b then inr (Ok (j_mov J, tm, S i)) else
  match (J <- jam_find fuel true rof g all start finals dms J ;;
         if j_stop J then Ok J else
         J <- jam_find fuel false rof g all start finals dms (swap_jam J) ;; Ok (swap_jam J)) with
  | Ok J => if j_stop J || (is_nil (h_queue (j_self J)) && is_nil (h_queue (j_other J))) then inr (Ok (j_mov J, tm, S i)) else inl (J, tm, S i)
  | Err e => inr (Err e)
  | OutOfFuel => inr OutOfFuel
  end.

(** itertools.product *)
Fixpoint product {X} (ls : list (list X)) : list (list X) :=
  match ls with [] => [[]] | l :: t => flat_map (fun x => map (cons x) (product t)) l end.
(** traffic_scheduling_problem.py:379-389 _end_state_gen *)
Definition end_states (all : dict L load) : list state :=
  map (fun combo => combine (dkeys all) combo)
    (filter (fun combo => length (set_of combo) =? length all) (product (map (fun x => ordN (ld_ends (snd x))) all))).
(** traffic_scheduling_problem.py:306-356 JamSolver.__init__ *)
Definition jam_init (fuel : nat) (g : graph) (all : dict L load) : res (state * list state * dict L (dict N Z) * jam) :=
  let start := map (fun x => (fst x, ld_start (snd x))) all in
  let finals := end_states all in
  dms <- foldM (fun d x => m <- distance_map ordN fuel g None (Some (ordN (ld_ends (snd x)))) true ;; Ok (dset (fst x) m d)) all [] ;;
  let e0 := mkE start 0%Z Inf in
  let ends := map (fun s => mkE s 0%Z Inf) finals in
  Ok (start, finals, dms,
      mkJ (add_node empty_graph start None) (mkH [e0] [(start, e0)] [])
          (mkH ends (fold_left (fun d x => dset (e_loads x) x d) ends []) []) Inf false).
(** traffic_scheduling_problem.py:368-377 solve, 518-568 jam_solver *)
Definition jam_solver (fuel : nat) (g : graph) (raw : list (L * (N * option (list N) * option (list N)))) (timeout : option Z)
  (synchronous_moves return_on_first : bool) : res (list (dict L (N * N))) :=
  all <- check_user_input fuel g raw ;;
  tm <- timer_new timeout t0 ;;
  c <- jam_init fuel g all ;;
  let '(start, finals, dms, J) := c in
  r <- loop fuel (jam_step fuel return_on_first g all start finals dms) (J, tm, 0) ;;
  let '(mov, tm, i) := r in
  r <- shortest_multi fuel mov start (ordS finals) ;;
  match snd r with
  | None | Some [] => if fst (expired tm (now i)) then Err UnSolvable else Err NoSolution
  | Some p =>
      m <- path_to_moves p ;;
      if synchronous_moves then moves_to_synchronous_moves fuel m start else Ok m
  end.
End Jam.
Arguments load : clear implicits.
Arguments entry : clear implicits.
Arguments half : clear implicits.
Arguments jam : clear implicits.
