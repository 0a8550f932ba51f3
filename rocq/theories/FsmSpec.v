(** Specification of a finite state machine: a list of transitions and the current state. *)
From Verif Require Import Prelude Fsm.
Section S.
Context {N act : Type} {EN : EqDec N} {EA : EqDec act}.
Notation call := (call (N := N) (act := act)).
Notation tr := (N * act * N)%type.
Definition t_src (t : tr) : N := fst (fst t).
Definition t_act (t : tr) : act := snd (fst t).
Definition t_dst (t : tr) : N := snd t.
(** the transitions available in state s, in the order they were added *)
Definition available (ts : list tr) (s : N) : list tr := filter (fun t => eqb (t_src t) s) ts.

Definition spec_call (ts : list tr) (cur : option N) (c : call) : list tr * option N * res (list act) :=
  match c with
  | CAdd s1 a s2 => (ts ++ [(s1, a, s2)], cur, Ok [])
  | CInit s => match cur with
               | Some _ => (ts, cur, Err ValueError)                              (* already set *)
               | None => if mem s (map t_src ts) || mem s (map t_dst ts) then (ts, Some s, Ok []) else (ts, None, Err ValueError)
               end
  | CNext a => match cur with
               | None => (ts, cur, Err ValueError)                                (* not set *)
               | Some s => match available ts s with
                           | [] => (ts, cur, Err StopIteration)                   (* terminal *)
                           | av => match filter (fun t => eqb (t_act t) a) av with
                                   | t :: _ => (ts, Some (t_dst t), Ok [])        (* the first one added *)
                                   | [] => (ts, cur, Err ValueError)
                                   end
                           end
               end
  | COptions => match cur with
                | Some s => (ts, cur, Ok (map t_act (available ts s)))
                | None => (ts, cur, match ts with [] => Ok [] | _ => Err KeyError end)  (* no current state *)
                end
  end.
Fixpoint spec_calls (ts : list tr) (cur : option N) (cs : list call) : list (res (list act)) * option N :=
  match cs with
  | [] => ([], cur)
  | c :: t => let '(ts', cur', r) := spec_call ts cur c in let '(rs, s) := spec_calls ts' cur' t in (r :: rs, s)
  end.
(** the states a call mentions *)
Definition call_states (c : call) : list N := match c with CAdd s1 _ s2 => [s1; s2] | CInit s => [s] | _ => [] end.
End S.
(** a call of add_transition *)
Definition is_add {N act} (c : call (N := N) (act := act)) : bool := match c with CAdd _ _ _ => true | _ => false end.
