(** What shortest_path must compute when addition may round: the value of a path is the sum of its edge
    values taken from left to right, each partial sum rounded. *)
From Verif Require Import Prelude Base GSp.

(** [lpath ar E a p b d]: p is a walk from a to b along E and ((0 + w1) + w2) + ... + wk = d. *)
Inductive lpath {A W} (ar : arith W) (E : A -> A -> option W) (a : A) : list A -> A -> W -> Prop :=
| lpath_one : lpath ar E a [a] a (a_zero ar)
| lpath_snoc p b c w d : lpath ar E a p b d -> E b c = Some w -> lpath ar E a (p ++ [c]) c (a_add ar d w).

(** The numbers x with [good x] (in a graph: the numbers which may occur as edge values) are ordered by <,
    adding one of them never decreases a sum, and adding the same number keeps the order of two sums.
    [x <= y] is "not y < x".  Associativity, commutativity and cancellation are not required. *)
Record lawful {W} (ar : arith W) (good : W -> Prop) : Prop := mkLawful {
  l_zero : good (a_zero ar);
  l_add : forall x w, good x -> good w -> good (a_add ar x w);
  l_asym : forall x y, good x -> good y -> a_ltb ar x y = true -> a_ltb ar y x = false;
  l_eqb : forall x y, good x -> good y -> a_eqb ar x y = true -> a_ltb ar y x = false;
  l_trans : forall x y z, good x -> good y -> good z -> a_ltb ar y x = false -> a_ltb ar z y = false -> a_ltb ar z x = false;
  l_mono : forall x y w, good x -> good y -> good w -> a_ltb ar y x = false -> a_ltb ar (a_add ar y w) (a_add ar x w) = false;
  l_infl : forall x w, good x -> good w -> a_ltb ar (a_add ar x w) x = false }.

(** every edge value is such a number *)
Definition good_edges {A O W} {EA : EqDec A} (good : W -> Prop) (g : graph A O W) : Prop :=
  forall a b w, edge g a b = Some w -> good w.

(** what the bidirectional search needs of the numbers beside [lawful]: sums commute, float("inf") is the
    largest number, and there is no infinite descent *)
Record lawful2 {W} (ar : arith W) (good : W -> Prop) (rk : W -> nat) : Prop := mkLawful2 {
  l_comm : forall x y, good x -> good y -> a_add ar x y = a_add ar y x;
  l_inf : good (a_inf ar);
  l_top : forall x, good x -> a_ltb ar (a_inf ar) x = false;
  l_rank : forall x y, good x -> good y -> a_ltb ar x y = true -> rk x < rk y }.
Definition gflip {A W} (E : A -> A -> option W) : A -> A -> option W := fun x y => E y x.
(** [cutsum E s1 s2 P d]: P is a walk from s1 to s2 that is cut at one of its nodes n; d is the sum, from left
    to right, of the edge values before n, plus the sum, from right to left, of the edge values after n *)
Definition cutsum {A W} (ar : arith W) (E : A -> A -> option W) (s1 s2 : A) (P : list A) (d : W) : Prop :=
  exists l1 n l2 dl dr, P = l1 ++ n :: l2 /\ lpath ar E s1 (l1 ++ [n]) n dl /\ lpath ar (gflip E) s2 (rev l2 ++ [n]) n dr /\ d = a_add ar dl dr.
