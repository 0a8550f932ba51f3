(** What maximum_flow must compute when capacities are floats.  Amounts are compared as exact numbers: [units] is the exact
    value of a finite float in units of 2^-1074. *)
From Coq Require Import ZArith SpecFloat.
From Verif Require Import Prelude Base Spec GSp Float64 FloatExact GCpmSpec FlowSpec.
Local Open Scope Z_scope.

(** a float that is not NaN, not negative and not infinite *)
Notation finite_amount := finite_duration.
(** 0.0, or between 2^-900 (about 1e-271) and 2^900 (about 8e270) *)
Definition capacity (c : spec_float) : Prop := finite_amount c /\ (units c = 0 \/ 2 ^ (1074 - 900) <= units c <= 2 ^ (1074 + 900)).
Section S.
Context {A O : Type} {EA : EqDec A}.
Implicit Types (g fg : graph A O spec_float) (s e x y : A).
Definition capacities g : Prop := forall x y c, edge g x y = Some c -> capacity c.
(** the exact value of the number on the edge x -> y, 0 if there is none *)
Definition exact_amount g x y : Z := match edge g x y with Some c => units c | None => 0 end.
(** the exact sums of the numbers on the edges that leave / enter x *)
Definition exact_out g fg x : Z := sumZ (nodes g) (fun y => exact_amount fg x y).
Definition exact_in g fg x : Z := sumZ (nodes g) (fun y => exact_amount fg y x).
(** a step along an edge that has room left *)
Definition room g fg x y : Prop := exact_amount fg x y < exact_amount g x y.
End S.
(** [nearly k a b t]: a and b differ by at most k * t / 2^53 *)
Definition nearly (k a b t : Z) : Prop := 2 ^ 53 * Z.abs (a - b) <= k * t.
(** what is used of sum(): the sum of numbers that are not negative is not negative, and it is 0 if all of them are *)
Definition sums (sumf : list spec_float -> spec_float) : Prop := forall l, (forall x, In x l -> f64_good x) ->
  f64_good (sumf l) /\ ((forall x, In x l -> SFeqb x (S754_zero false) = true) -> SFeqb (sumf l) (S754_zero false) = true).
