(** What the result of critical_path_minimize_for_slack is compared with when durations are floats. *)
From Verif Require Import Prelude Base BaseFacts Spec SpecFacts Loop SearchFacts GSp GCpm GSlack.

Section S.
Context {A W V : Type} {EA : EqDec A}.
Notation graph := (graph A W V).
(** the same tasks, durations and dependencies (stored in any order) *)
Definition same_tasks (g1 g2 : graph) : Prop :=
  (forall x, contains g1 x = contains g2 x) /\ (forall x, node g1 x = node g2 x) /\ (forall x y, has_edge g1 x y <-> has_edge g2 x y).
(** s is a total slack that critical_path reports for the plan of ng: sum() adds the slacks in the order of the schedule, which depends
    on the order in which the dependencies are stored *)
Definition measured (ar : arith W) (sub : W -> W -> W) (sumf : list W -> W) (srt : list A -> list A) (ng : graph) (s : W) : Prop :=
  exists ng0 c d, reachable ng0 /\ same_tasks ng0 ng /\ returns (fun n => gcritical_path_of ar sub IsGraph srt n ng0) (Ok (c, d)) /\
    (gtotal_slack sub sumf d = s \/ a_eqb ar (gtotal_slack sub sumf d) s = true).
End S.
