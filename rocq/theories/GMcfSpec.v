(** What minimum_cost_flow must compute when stocks and capacities are floats.  [units] is the exact value of a finite
    float, with its sign, in units of 2^-1074. *)
From Coq Require Import ZArith SpecFloat Sorted.
From Verif Require Import Prelude Base Spec GSp Float64 FloatExact FloatSigned GCpmSpec FlowSpec GFlowSpec McfSpec.
Local Open Scope Z_scope.

(** a finite float *)
Definition finite_number (w : spec_float) : Prop := valid_binary 53 1024 w = true /\ exists z, sval 53 1024 w = Some z.
(** a finite float between -2^900 and 2^900 *)
Definition a_stock (w : spec_float) : Prop := finite_number w /\ Z.abs (units w) <= 2 ^ (1074 + 900).
(** [at_most k a b t]: a is at most b + k * t / 2^53 *)
Definition at_most (k a b t : Z) : Prop := 2 ^ 53 * (a - b) <= k * t.
(** the capacities that are accepted: not NaN, not negative; infinite is fine *)
Definition fcapacity_ok {A O} {EA : EqDec A} (costs : graph A O Z) (capacity : option (graph A O spec_float)) : Prop :=
  match capacity with
  | None => True
  | Some c => reachable c /\ (forall x y, has_edge c x y <-> has_edge costs x y) /\ forall x y v, edge c x y = Some v -> f64_good v
  end.
(** the capacity of a link: +inf if none is given *)
Definition fcap {A O} {EA : EqDec A} (capacity : option (graph A O spec_float)) (x y : A) : option spec_float :=
  match capacity with None => Some (S754_infinity false) | Some c => edge c x y end.
(** the stock of a node in exact units, 0 if the inventory does not mention it *)
Definition exact_stock {A} {EA : EqDec A} (inventory : dict A spec_float) (x : A) : Z := match dget x inventory with Some v => units v | None => 0 end.
(** list.sort on (stock, node) pairs of finite floats: by stock first *)
Definition sorts_by_float {A} (srt : list (spec_float * A) -> list (spec_float * A)) : Prop :=
  forall l, (forall x, In x l -> finite_number (fst x)) -> Permutation (srt l) l /\ StronglySorted (fun x y => SFltb (fst y) (fst x) = false) (srt l).
(** the first of the sorted list of (distance, stock, node): one with the least distance *)
Definition picks_least {B} (near : list (ext * B) -> ext * B) : Prop :=
  forall l, l <> [] -> In (near l) l /\ forall y, In y l -> ext_le (fst (near l)) (fst y).
Section S.
Context {A O : Type} {EA : EqDec A}.
Implicit Types (costs : graph A O Z) (capacity : option (graph A O spec_float)) (inventory : dict A spec_float) (f : A -> A -> Z) (left : A -> Z).
(** [f] ships exact amounts and leaves [left] x of the stock of x: only over links, at most a little over their capacity;
    no supply is overdrawn and no demand overfilled; what x sends out more than it receives is nearly what it gave away *)
Definition float_shipment (k : Z) costs capacity inventory f left : Prop :=
  (forall x y, 0 <= f x y /\ (f x y <> 0 -> has_edge costs x y)) /\
  (forall x y c, fcap capacity x y = Some c -> finite_amount c -> at_most k (f x y) (units c) (units c)) /\
  (forall x, 0 <= left x <= exact_stock inventory x \/ exact_stock inventory x <= left x <= 0) /\
  (forall x, nearly k (exact_stock inventory x - left x) (net costs f x) (Z.abs (exact_stock inventory x))).
(** the same without the rounding errors *)
Definition exact_shipment costs capacity inventory f left : Prop :=
  (forall x y, 0 <= f x y /\ (f x y <> 0 -> has_edge costs x y)) /\
  (forall x y c, fcap capacity x y = Some c -> finite_amount c -> f x y <= units c) /\
  (forall x, 0 <= left x <= exact_stock inventory x \/ exact_stock inventory x <= left x <= 0) /\
  (forall x, net costs f x = exact_stock inventory x - left x).
(** everything that can be done is done: all demands are met, or all supplies are used up *)
Definition all_done inventory left : Prop :=
  (forall x, exact_stock inventory x < 0 -> left x = 0) \/ (forall x, 0 < exact_stock inventory x -> left x = 0).
(** a link that is (nearly) full *)
Definition full_link (k : Z) capacity f (x y : A) : Prop := exists c, fcap capacity x y = Some c /\ finite_amount c /\ nearly k (f x y) (units c) (units c).
(** some demand is left, some supply is left, and none of the supplies left gets there over links that are not full *)
Definition stuck (k : Z) costs capacity f left : Prop := exists t, left t < 0 /\ (exists s, 0 < left s) /\
  forall s, 0 < left s -> ~ reach (fun x y => has_edge costs x y /\ ~ full_link k capacity f x y) s t.
(** the numbers are multiples of 2^j units and at most 2^53 times that *)
Definition grid_amounts (j : Z) inventory capacity : Prop := 0 <= j /\
  (forall x, (2 ^ j | exact_stock inventory x) /\ Z.abs (exact_stock inventory x) <= 2 ^ (j + 53)) /\
  (forall x y c, fcap capacity x y = Some c -> finite_amount c -> (2 ^ j | units c) /\ units c <= 2 ^ (j + 53)).
End S.
