(** What minsum and minmax must compute when edge values are floats: exact sums and maxima of exact distances. *)
From Coq Require Import SpecFloat.
From Verif Require Import Prelude Base Spec GSp Float64 FloatSpec.
Local Open Scope Z_scope.

Section S.
Context {A O : Type} {EA : EqDec A}.
Implicit Types (g : graph A O spec_float) (x : A).
(** the exact sum and the exact maximum of the exact distances from x to all nodes (in units of 2^-1074; an infinite edge
    value is no edge) *)
Definition exact_total g x (t : ext) : Prop := exists ds, Forall2 (fun y d => dist (fin_edge g) x y d) (nodes g) ds /\ t = fold_right ext_add (Fin 0) ds.
Definition exact_max g x (t : ext) : Prop := exists ds, Forall2 (fun y d => dist (fin_edge g) x y d) (nodes g) ds /\ In t ds /\ forall d, In d ds -> ext_le d t.
End S.
(** [almost_le k t u]: t <= u up to k roundings of each: t (1 - 2^-53)^k <= u (1 + 2^-53)^k.  If u is infinite, or so large
    that u (1 + 2^-53)^k is beyond the largest float, nothing is said *)
Definition almost_le (k : Z) (t u : ext) : Prop :=
  match u with
  | Inf => True
  | Fin y => 2 ^ (1024 - SpecFloat.emin 53 1024) * (2 ^ 53) ^ k <= y * (2 ^ 53 + 1) ^ k \/
             match t with Inf => False | Fin x => x * (2 ^ 53 - 1) ^ k <= y * (2 ^ 53 + 1) ^ k end
  end.
(** the exact sum of floats *)
Definition exact_sum (l : list spec_float) : ext := fold_right ext_add (Fin 0) (map (ival 53 1024) l).
(** sum() of non-negative floats: at most one rounding for each *)
Definition sums_near (sumf : list spec_float -> spec_float) : Prop := forall l, (forall x, In x l -> f64_good x) ->
  f64_good (sumf l) /\ near_ext (Z.of_nat (length l)) (exact_sum l) (ival 53 1024 (sumf l)).
(** ... and exact for multiples of 2^j if the sum is at most 2^53 times that *)
Definition sums_grid (sumf : list spec_float -> spec_float) (j : Z) : Prop := forall l s, (forall x, In x l -> f64_good x) ->
  (forall x z, In x l -> ival 53 1024 x = Fin z -> (2 ^ j | z)) -> exact_sum l = Fin s -> s <= 2 ^ 53 * 2 ^ j -> ival 53 1024 (sumf l) = Fin s.
