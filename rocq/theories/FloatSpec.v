(** What it means for a float to be an exact distance up to rounding. *)
From Coq Require Import SpecFloat.
From Verif Require Import Prelude Base Spec GSp GSpec Float64.
Local Open Scope Z_scope.

(** the exact value, in units of 2^-1074, of the edges of finite value *)
Definition fin_edge {A O} {EA : EqDec A} (g : graph A O spec_float) (u v : A) : option Z :=
  match edge g u v with Some w => match ival 53 1024 w with Fin z => Some z | Inf => None end | None => None end.
(** [near_ext k X D]: D is X up to a relative error of k roundings: X (1 - u)^k <= D <= X (1 + u)^k with
    u = 2^-53, and D is infinite only if X is, or if X (1 + u)^k is beyond the largest float (overflow) *)
Definition near_ext (k : Z) (X D : ext) : Prop :=
  match X, D with
  | Inf, _ => D = Inf
  | Fin x, Fin d => x * (2 ^ 53 - 1) ^ k <= d * (2 ^ 53) ^ k <= x * (2 ^ 53 + 1) ^ k
  | Fin x, Inf => 2 ^ (1024 - SpecFloat.emin 53 1024) * (2 ^ 53) ^ k <= x * (2 ^ 53 + 1) ^ k
  end.
(** X is the length of a shortest walk from a to b outside S (infinite if there is none) *)
Definition dist_clear {A} (E : A -> A -> option Z) (S : list A) (a b : A) (X : ext) : Prop :=
  match X with
  | Fin z => (exists p, wpath E a p b z /\ clear_of S p) /\ forall p z', wpath E a p b z' -> clear_of S p -> z <= z'
  | Inf => forall p z, wpath E a p b z -> ~ clear_of S p
  end.
