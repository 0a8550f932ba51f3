(** Prelude: Python values used by the model.
    - [exn]/[res]: Python exceptions as values; [OutOfFuel] marks a loop that did not finish within the
      given number of iterations (it is never confused with a normal result).
    - [dict]: Python's insertion ordered dict as an association list.
    - [ext]: a number or float('inf').
    Nothing here models a particular file of /repo; it is the part of Python the files rely on. *)
From Coq Require Export List Arith ZArith Lia Bool Permutation.
Export ListNotations.

Class EqDec (A : Type) := eq_dec : forall x y : A, {x = y} + {x <> y}.

#[export] Instance EqDec_nat : EqDec nat := Nat.eq_dec.
#[export] Instance EqDec_Z : EqDec Z := Z.eq_dec.
#[export] Instance EqDec_bool : EqDec bool := Bool.bool_dec.
#[export] Instance EqDec_prod {A B} {EA : EqDec A} {EB : EqDec B} : EqDec (A * B).
Proof. intros [a b] [c d]. destruct (EA a c) as [->|H]; [destruct (EB b d) as [->|H]|].
 - left; reflexivity. - right; congruence. - right; congruence. Defined.
#[export] Instance EqDec_option {A} {EA : EqDec A} : EqDec (option A).
Proof. intros [a|] [b|]; [destruct (EA a b) as [->|H]| | |]; try (left; reflexivity); right; congruence. Defined.
#[export] Instance EqDec_list {A} {EA : EqDec A} : EqDec (list A) := list_eq_dec EA.
#[export] Instance EqDec_sum {A B} {EA : EqDec A} {EB : EqDec B} : EqDec (A + B).
Proof. intros [a|a] [b|b]; [destruct (EA a b) as [->|H]| | |destruct (EB a b) as [->|H]];
  try (left; reflexivity); right; congruence. Defined.
#[export] Instance EqDec_unit : EqDec unit.
Proof. intros [] []; left; reflexivity. Defined.

(** ** Exceptions as values *)
Inductive exn :=
| ValueError | TypeError | KeyError | IndexError | AttributeError
| AssertionError | StopIteration | UnboundLocalError | BadLogic | StopCondition | UnSolvable | NoSolution.

Inductive res (X : Type) : Type :=
| Ok (x : X)          (* normal return *)
| Err (e : exn)       (* Python exception *)
| OutOfFuel.          (* the loop has not finished within the fuel *)
Arguments Ok {X} _. Arguments Err {X} _. Arguments OutOfFuel {X}.

Definition bind {X Y} (m : res X) (k : X -> res Y) : res Y :=
  match m with Ok x => k x | Err e => Err e | OutOfFuel => OutOfFuel end.
Notation "x <- m ;; k" := (bind m (fun x => k)) (at level 61, m at next level, right associativity).
Notation "'let*' ' p := m 'in' k" := (bind m (fun p => k)) (at level 61, p pattern, right associativity).

(** [for x in l: s := f s x], where the body may raise. *)
Fixpoint foldM {S X} (f : S -> X -> res S) (l : list X) (s : S) : res S :=
  match l with
  | [] => Ok s
  | x :: t => s' <- f s x ;; foldM f t s'
  end.

(** total version: the value if there is one, else the fallback.  Used only where a theorem shows
    that the computation is [Ok] on reachable states (the use cites the theorem). *)
Definition ok_or {X} (d : X) (m : res X) : X := match m with Ok x => x | _ => d end.

(** ** Membership *)
Section Mem.
  Context {A : Type} {EA : EqDec A}.
  Definition eqb (x y : A) : bool := if eq_dec x y then true else false.
  Fixpoint mem (x : A) (l : list A) : bool :=            (* Python: x in l *)
    match l with [] => false | y :: t => if eq_dec x y then true else mem x t end.
  Definition sadd (x : A) (s : list A) : list A :=       (* Python: s.add(x) *)
    if mem x s then s else s ++ [x].
  Definition sunion (s l : list A) : list A := fold_left (fun s x => sadd x s) l s.  (* s.update(l) *)
  Definition sremove (x : A) (s : list A) : list A := filter (fun y => negb (eqb x y)) s.
  Definition sdiff (s t : list A) : list A := filter (fun y => negb (mem y t)) s.   (* s - t *)
  Definition set_of (l : list A) : list A := sunion [] l.   (* Python: set(l) *)
  Fixpoint lremove (x : A) (l : list A) : list A :=      (* Python list.remove: first occurrence *)
    match l with [] => [] | y :: t => if eq_dec x y then t else y :: lremove x t end.
End Mem.

(** ** Dicts *)
Notation dict K V := (list (prod K V)) (only parsing).
Section Dict.
  Context {K V : Type} {EK : EqDec K}.
  Fixpoint dget (k : K) (d : dict K V) : option V :=     (* d.get(k) *)
    match d with
    | [] => None
    | (k', v) :: t => if eq_dec k k' then Some v else dget k t
    end.
  Fixpoint dset (k : K) (v : V) (d : dict K V) : dict K V :=   (* d[k] = v *)
    match d with
    | [] => [(k, v)]
    | (k', v') :: t => if eq_dec k k' then (k', v) :: t else (k', v') :: dset k v t
    end.
  Fixpoint ddel (k : K) (d : dict K V) : dict K V :=     (* del d[k] (no-op here if absent) *)
    match d with
    | [] => []
    | (k', v') :: t => if eq_dec k k' then t else (k', v') :: ddel k t
    end.
  Definition dkeys (d : dict K V) : list K := map fst d.  (* list(d) *)
  Definition dvals (d : dict K V) : list V := map snd d.  (* list(d.values()) *)
  Definition dmem (k : K) (d : dict K V) : bool := mem k (dkeys d).  (* k in d *)
End Dict.

(** nested dicts d[a][b] *)
Section NDict.
  Context {K V : Type} {EK : EqDec K}.
  Definition inner (d : dict K (dict K V)) (a : K) : dict K V :=   (* d.get(a, {}) *)
    match dget a d with Some o => o | None => [] end.
  Definition eget (d : dict K (dict K V)) (a b : K) : option V :=  (* d[a][b], None for KeyError *)
    match dget a d with Some o => dget b o | None => None end.
End NDict.

(** ** Numbers with infinity *)
Inductive ext := Fin (z : Z) | Inf.
Definition ext_add (a b : ext) : ext :=
  match a, b with Fin x, Fin y => Fin (x + y) | _, _ => Inf end.
Definition ext_ltb (a b : ext) : bool :=
  match a, b with Fin x, Fin y => (x <? y)%Z | Fin _, Inf => true | Inf, _ => false end.
Definition ext_leb (a b : ext) : bool :=
  match a, b with Fin x, Fin y => (x <=? y)%Z | _, Inf => true | Inf, Fin _ => false end.
Definition ext_eqb (a b : ext) : bool :=
  match a, b with Fin x, Fin y => (x =? y)%Z | Inf, Inf => true | _, _ => false end.
(** Python min(a,b): returns a unless b < a *)
Definition ext_min (a b : ext) : ext := if ext_ltb b a then b else a.
Definition ext_max (a b : ext) : ext := if ext_ltb a b then b else a.
(** the order on numbers with infinity *)
Definition ext_le (a b : ext) : Prop :=
  match a, b with Fin x, Fin y => (x <= y)%Z | _, Inf => True | Inf, Fin _ => False end.
#[export] Instance EqDec_ext : EqDec ext.
Proof. intros [x|] [y|]; [destruct (Z.eq_dec x y) as [->|H]| | |];
  try (left; reflexivity); right; congruence. Defined.

Definition is_nil {X} (l : list X) : bool := match l with [] => true | _ => false end.
