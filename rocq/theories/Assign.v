(** Model of /repo/graph/assignment_problem.py: ap_solver.  Values are integers. *)
From Verif Require Import Prelude Base Loop.

Section Ap.
Context {A O : Type} {EA : EqDec A}.
Notation graph := (graph A O Z).
(** [srt]: list.sort(reverse=True) of (value, task) pairs; [fresh i]: the i-th uuid4().hex *)
Context (srt : list (Z * A) -> list (Z * A)) (fresh : nat -> A).

(** assignment_problem.py:80-82 whoever task t is connected to *)
Definition ap_current (asg : graph) (t : A) : option (A * Z) :=
  match edges_from asg t with [] => None | (_, e, d) :: _ => Some (e, d) end.
(** assignment_problem.py:79-91 the offers of agent n in ranked order; state (unassigned_agents, assignments,
    unassigned_tasks).  If t is in assignments without a partner the code would use an e left over from earlier; given
    here as UnboundLocalError (it cannot happen when no edge starts where another ends). *)
Fixpoint ap_offer (v_null : Z) (n : A) (ranked : list (Z * A)) (st : list A * graph * list A) : res (list A * graph * list A) :=
  match ranked with
  | [] => Ok st
  | (v, t) :: rest =>
      let '(q, asg, un) := st in
      let d := match ap_current asg t with Some (_, d) => d | None => v_null end in
      if (d <? v)%Z then
        if contains asg t then
          match ap_current asg t with
          | None => Err UnboundLocalError
          | Some (e, _) => asg <- del_edge asg t e ;; asg <- add_edge asg t n v false ;; Ok (q ++ [e], asg, un)
          end
        else if mem t un then asg <- add_edge asg t n v false ;; Ok (q, asg, sremove t un) else Err KeyError
      else ap_offer v_null n rest st
  end.
(** assignment_problem.py:75-91 one iteration of the while loop *)
Definition ap_step (g : graph) (v_null : Z) (st : list A * graph * list A) : (list A * graph * list A) + res graph :=
  let '(q, asg, un) := st in
  match q with
  | [] => inr (Ok asg)
  | n :: q => match ap_offer v_null n (srt (map (fun e => (snd e, snd (fst e))) (edges_from g n))) (q, asg, un) with
              | Ok st => inl st | Err e => inr (Err e) | OutOfFuel => inr OutOfFuel end
  end.
(** assignment_problem.py:8-93 ap_solver: the result, and the graph passed in afterwards (dummy tasks are added to it) *)
Definition ap_solver (fuel : nat) (g : graph) : res (list (A * A * Z) * graph) :=
  let agents := nodes_in_degree g 0 in
  let tasks := nodes_out_degree g 0 in
  match map snd (edges g) with
  | [] => Err ValueError
  | v :: vs =>
      let v_null := (fold_left Z.min vs v - 1)%Z in
      let dummies := map fresh (seq 0 (length agents - length tasks)) in
      gv <- (if length tasks <? length agents then
               g' <- foldM (fun (g : graph) e => let '(a, b, v) := e in add_edge g a b v false)
                       (flat_map (fun task => map (fun agent => (agent, task, v_null)) agents) dummies) g ;;
               Ok (g', v_null - 1)%Z
             else Ok (g, v_null)) ;;
      asg <- loop fuel (ap_step (fst gv) (snd gv)) (agents, empty_graph, set_of (tasks ++ dummies)) ;;
      Ok (map (fun e => (snd (fst e), fst (fst e), snd e)) (filter (fun e => negb (mem (fst (fst e)) dummies)) (edges asg)), fst gv)
  end.
End Ap.
