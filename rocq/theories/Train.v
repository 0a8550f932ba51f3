(** Model of /repo/graph/transshipment_problem.py:92-139: class Train and schedule_rail_system. *)
From Verif Require Import Prelude Base Loop Sp Rail.

Section Train.
Context {A O : Type} {EA : EqDec A}.
Notation graph := (graph A O Z).
Notation job := (A * A)%type.

(** transshipment_problem.py:92-107 the attributes _rail_network, _current_location, _access_nodes, _schedule of a Train;
    the set of access nodes is a list of which only membership is used *)
Record train := mk_train { t_net : graph; t_loc : A; t_access : list A; t_sched : list job }.
(** transshipment_problem.py:93-107 Train.__init__; the isinstance asserts hold by typing *)
Definition train_new (g : graph) (loc : A) (access : list A) : res train :=
  if negb (mem loc (nodes g)) then Err AssertionError else
  if negb (forallb (contains g) access) then Err AssertionError else
  Ok (mk_train g loc access []).
(** how a call ends: with an exception or with a value *)
Inductive ending (R : Type) := Raised (e : exn) | Returned (r : R).
Arguments Raised {R} _. Arguments Returned {R} _.
(** transshipment_problem.py:109-121 Train.schedule(jobs): the train afterwards and how the call ends.  self._schedule is
    assigned only after find and schedule have returned.  The list that is returned is the stored one; a caller that
    changes it is not modelled. *)
Definition train_call (fuel : nat) (t : train) (jobs : option (list job)) : res (train * ending (list job)) :=
  match jobs with
  | None => Ok (t, Returned (t_sched t))
  | Some js =>
      match (new <- find_jobs fuel (t_net t) (t_access t) js ;; schedule fuel (t_net t) (t_loc t) new) with
      | Ok r => Ok (mk_train (t_net t) (t_loc t) (t_access t) r, Returned r)
      | Err e => Ok (t, Raised e)
      | OutOfFuel => OutOfFuel
      end
  end.
(** transshipment_problem.py:124-139 schedule_rail_system: the trains afterwards and how the call ends.  The argument
    rail_network is only checked to be a Graph.  The trains of the list are different objects. *)
Fixpoint schedule_rail_system (fuel : nat) (trains : list train) (jobs : list job) : res (list train * ending unit) :=
  match trains with
  | [] => Ok ([], Returned tt)
  | t :: ts =>
      match train_call fuel t (Some jobs) with
      | Ok (t', Returned _) => r <- schedule_rail_system fuel ts jobs ;; Ok (t' :: fst r, snd r)
      | Ok (t', Raised e) => Ok (t' :: ts, Raised e)
      | Err e => Err e
      | OutOfFuel => OutOfFuel
      end
  end.
End Train.
Arguments train A O : clear implicits.
Arguments Raised {R} _. Arguments Returned {R} _.
