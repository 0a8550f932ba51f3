(** What critical_path must compute when durations are floats. *)
From Coq Require Import ZArith SpecFloat.
From Verif Require Import Prelude Base GSp Float64 FloatExact.

Section S.
Context {A W V : Type} {EA : EqDec A}.
Notation graph := (graph A W V).
(** every task has a duration, and [good] holds for it *)
Definition gplan (good : W -> Prop) (g : graph) : Prop := forall x, contains g x = true -> exists d, node g x = Some d /\ good d.
Definition gduration (z : W) (g : graph) (x : A) : W := match node g x with Some d => d | None => z end.
(** ((0 + d1) + d2) + ... + dk: the durations along a chain of tasks from first to last, every partial sum rounded *)
Definition chain_sum (ar : arith W) (g : graph) (p : list A) : W := fold_left (fun s x => a_add ar s (gduration (a_zero ar) g x)) p (a_zero ar).
(** ((cpl - dk) - ...) - d1: the durations subtracted from last to first, every difference rounded *)
Definition chain_back (z : W) (sub : W -> W -> W) (g : graph) (cpl : W) (p : list A) : W := fold_right (fun x s => sub s (gduration z g x)) cpl p.
(** the same plan with other durations *)
Definition with_durations {Y} (f : W -> Y) (g : graph) : Base.graph A Y V :=
  mkG (map (fun p => (fst p, option_map f (snd p))) (g_nodes g)) (g_edges g) (g_count g) (g_rev g) (g_indeg g) (g_outdeg g).
End S.
(** a float that is not NaN, not negative and not infinite *)
Definition finite_duration (x : spec_float) : Prop := f64_good x /\ exists z, sval 53 1024 x = Some z.
(** its exact value as a whole number of units of 2^-1074 (every finite float is one) *)
Definition units (x : spec_float) : Z := match sval 53 1024 x with Some z => z | None => 0%Z end.
(** the exact plan: the same tasks and dependencies, with the exact durations as integers *)
Definition exact_plan {A V} {EA : EqDec A} (g : graph A spec_float V) : graph A Z V := with_durations units g.
