(** Model of /repo/graph/assignment_problem.py: wtap_solver.  Python's floats are modelled by exact rationals [Qc]. *)
From Coq Require Import QArith Qcanon.
From Verif Require Import Prelude Base Loop.

Section Wtap.
Context {A O : Type} {EA : EqDec A}.
Notation graph := (graph A O Qc).
(** [srt]: list.sort() of (value, target) pairs *)
Context (srt : list (Qc * A) -> list (Qc * A)).
Local Open Scope Qc_scope.

(** assignment_problem.py:190-200 _get_current_engagement *)
Definition engagement (w : A) (asg : graph) : option A :=
  if contains asg w then match edges_from asg w with [] => None | (_, t, _) :: _ => Some t end else None.
(** assignment_problem.py:164-168 and 179-183: w leaves its target, if it has one, for t.  (A missing probability, None in
    the code, would be a TypeError once it is used.) *)
Definition engage (prob : graph) (w t : A) (asg : graph) : res graph :=
  if match engagement w asg with Some c => if eq_dec c t then true else false | None => false end then Ok asg
  else asg <- match engagement w asg with Some c => if contains asg w then del_edge asg w c else Ok asg | None => Ok asg end ;;
       match edge prob w t with Some p => add_edge asg w t p false | None => Err TypeError end.
(** assignment_problem.py:214-219 the probabilities collected per target *)
Definition collect (prob : graph) (tv : dict A Qc) (es : list (A * A * Qc)) : res (dict A (list Qc)) :=
  foldM (fun (sv : dict A (list Qc)) e => let '(w, t, _) := e in
           match edge prob w t with None => Err TypeError | Some p =>
           match dget t sv with None => Err KeyError | Some l => Ok (dset t (l ++ [p]) sv) end end)
        es (map (fun x => (fst x, [])) tv).
(** assignment_problem.py:203-228 _damages *)
Definition damages (prob asg : graph) (tv : dict A Qc) : res Qc :=
  sv <- collect prob tv (edges asg) ;;
  foldM (fun acc x => match dget (fst x) tv with None => Err KeyError | Some v => Ok (acc + fold_left (fun p q => p * (1 - q)) (snd x) 1 * v) end) sv 0.
(** assignment_problem.py:162-171 the effect of engaging each target of w *)
Definition effects (prob : graph) (tv : dict A Qc) (w : A) (asg : graph) : res (graph * dict A Qc) :=
  foldM (fun (st : graph * dict A Qc) e => let '(asg, eff) := st in let '(_, t, _) := e in
           asg <- engage prob w t asg ;; v <- damages prob asg tv ;; Ok (asg, dset t v eff)) (edges_from prob w) (asg, []).
(** max(0, x) *)
Definition max0 (x : Qc) : Qc := if Qclt_le_dec 0 x then x else 0.
(** assignment_problem.py:160-184 one weapon; state (assignments, current_target_values, improvements) *)
Definition one_weapon (prob : graph) (tv : dict A Qc) (st : graph * Qc * dict A Qc) (w : A) : res (graph * Qc * dict A Qc) :=
  let '(asg, cur, imp) := st in
  ae <- effects prob tv w asg ;;
  match srt (map (fun x => (snd x, fst x)) (snd ae)) with
  | [] => Err IndexError
  | (v, t) :: _ =>
      asg <- engage prob w t (fst ae) ;;
      match dget t (snd ae) with None => Err KeyError | Some v' => Ok (asg, v', dset w (max0 (cur - v)) imp) end
  end.
Definition qsum (l : list Qc) : Qc := fold_left Qcplus l 0.
(** assignment_problem.py:159-186 one pass of the while loop *)
Definition one_pass (prob : graph) (tv : dict A Qc) (weapons : list A) (st : graph * Qc * dict A Qc) : (graph * Qc * dict A Qc) + res (Qc * graph) :=
  match foldM (one_weapon prob tv) weapons st with
  | Ok (asg, cur, imp) => if Qc_eq_dec (qsum (map snd imp)) 0 then inr (Ok (cur, asg)) else inl (asg, cur, imp)
  | Err e => inr (Err e) | OutOfFuel => inr OutOfFuel
  end.
(** assignment_problem.py:96-187 wtap_solver *)
Definition wtap_solver (fuel : nat) (prob : graph) (weapons : list A) (tv : dict A Qc) : res (Qc * graph) :=
  let targets := dkeys tv in
  let ptargets := map (fun e => snd (fst e)) (edges prob) in
  if existsb (fun w => mem w targets) weapons then Err ValueError
  else if forallb (fun t => mem t targets) ptargets && existsb (fun t => negb (mem t ptargets)) targets then Err ValueError
  else loop fuel (one_pass prob tv weapons) (empty_graph, qsum (map snd tv) + 1, []).
End Wtap.
