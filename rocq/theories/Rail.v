(** Model of /repo/graph/transshipment_problem.py: find, schedule and their helpers, find_perfect_circuit (class Train and
    schedule_rail_system are in Train.v).  Not modelled: clondike_transshipment_problem (an example graph). *)
From Verif Require Import Prelude Base Loop Bfs Sp Perms.

Section Rail.
Context {A O : Type} {EA : EqDec A}.
Notation graph := (graph A O Z).
Notation job := (A * A)%type.
Implicit Types (g : graph) (start : A) (jobs todo : list job) (path : list A).

(** transshipment_problem.py:142-166 find *)
Definition find_jobs (fuel : nat) g (stops : list A) jobs : res (list job) :=
  foldM (fun subs (j : job) =>
    if negb (contains g (fst j)) then Err ValueError else
    if negb (contains g (snd j)) then Err ValueError else
    r <- shortest_path fuel g (fst j) (snd j) [] ;;
    let part := filter (fun p => mem p stops) (snd r) in
    b <- has_path g part ;;
    if negb b then Err ValueError else
    match part with [] => Err IndexError | h :: _ => Ok (subs ++ [(h, last part h)]) end) jobs [].
(** transshipment_problem.py:202-204 jobs_from_path *)
Fixpoint jobs_from_path path : list job :=
  match path with x :: ((y :: _) as t) => (x, y) :: jobs_from_path t | _ => [] end.
(** transshipment_problem.py:207-220 path_from_schedule *)
Definition path_from_schedule jobs start : list A :=
  fold_left (fun path (j : job) => (if eq_dec (fst j) (last path start) then path else path ++ [fst j]) ++ [snd j]) jobs [start].
(** g.edge(A, B): base.py:111-122 catches the KeyError itself and returns None *)
Definition edge_call (g : graph) (a b : A) : res (option Z) := Ok (edge g a b).
(** transshipment_problem.py:223-245 find_perfect_circuit; an infinite distance cannot be stored as an integer edge
    value and is given as Err TypeError (the code never gets there, see RailFacts) *)
Definition find_perfect_circuit (fuel : nat) g start jobs : res (list A) :=
  c <- foldM (fun (c : graph) (j : job) =>
         match edge_call c (fst j) (snd j) with
         | Err KeyError =>
             r <- shortest_path fuel g (fst j) (snd j) [] ;;
             match fst r with Fin d => add_edge c (fst j) (snd j) d false | Inf => Err TypeError end
         | Err e => Err e
         | OutOfFuel => OutOfFuel
         | Ok _ => Ok c
         end) jobs empty_graph ;;
  foldM (fun (found : list A) x =>
    match found with
    | [] => if contains c x then p <- breadth_first_search fuel c x start ;; match p with [] => Ok [] | _ => Ok (start :: p) end else Ok []
    | _ => Ok found
    end) (map snd (filter (fun j => eqb (fst j) start) jobs)) [].
(** transshipment_problem.py:185-192 the best permutation *)
Definition best_path (fuel : nat) g start jobs : res (ext * list A) :=
  foldM (fun (best : ext * list A) perm =>
    let path := path_from_schedule perm start in
    d <- distance_from_path fuel g path ;;
    if ext_ltb d (fst best) then Ok (d, path) else Ok best) (permutations jobs) (Inf, []).
(** transshipment_problem.py:195-198 the planned jobs; state (jobs_to_plan, new_schedule) *)
Definition take_jobs (seq : list job) (st : list job * list job) : list job * list job :=
  fold_left (fun (st : list job * list job) j => if mem j (fst st) then (lremove j (fst st), snd st ++ [j]) else st) seq st.
(** transshipment_problem.py:180-198 one iteration of the while loop *)
Definition sched_step (fuel : nat) g start (st : list job * list job) : (list job * list job) + res (list job) :=
  if is_nil (fst st) then inr (Ok (snd st)) else
  match (c <- find_perfect_circuit fuel g start (fst st) ;;
         match c with
         | [] => b <- best_path fuel g start (fst st) ;; Ok (jobs_from_path (snd b))
         | _ => Ok (jobs_from_path c)
         end) with
  | Ok seq => inl (take_jobs seq st)
  | Err e => inr (Err e)
  | OutOfFuel => inr OutOfFuel
  end.
(** transshipment_problem.py:169-199 schedule *)
Definition schedule (fuel : nat) g start jobs : res (list job) := loop fuel (sched_step fuel g start) (jobs, []).
End Rail.
