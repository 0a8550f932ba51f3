(** Specification vocabulary for traffic scheduling; nothing refers to the code. *)
From Verif Require Import Prelude Base FlowSpec.

(** one end per load, no end twice *)
Definition assignable {L E} (a : dict L (list E)) : Prop :=
  exists cs, Forall2 (fun x c => In c (snd x)) a cs /\ NoDup cs.

(** A move (load, from, to).  Positions list every load once with its location. *)
Section Plan.
Context {L N : Type} {EL : EqDec L} {EN : EqDec N}.
Notation positions := (dict L N).
Notation move := (L * N * N)%type.
(** [plan_from may P ms P']: the moves ms, one after the other, lead from P to P'; every move takes a load from where
    it is to a location that no load occupies and that [may] allows *)
Inductive plan_from (may : L -> N -> N -> Prop) : positions -> list move -> positions -> Prop :=
| plan_done P : plan_from may P [] P
| plan_step P l a b ms P' : dget l P = Some a -> ~ In b (dvals P) -> may l a b -> plan_from may (dset l b P) ms P' -> plan_from may P ((l, a, b) :: ms) P'.
End Plan.

(** ** Traffic jams.  A load as the user gives it: start, ends (None: it stays where it is), prohibited locations (None: none). *)
Section Jam.
Context {L N O : Type} {EL : EqDec L} {EN : EqDec N}.
Definition raw_start (r : N * option (list N) * option (list N)) : N := fst (fst r).
Definition raw_ends (r : N * option (list N) * option (list N)) : list N := match snd (fst r) with None => [fst (fst r)] | Some l => l end.
Definition raw_proh (r : N * option (list N) * option (list N)) : list N := match snd r with None => [] | Some l => l end.
Notation loads := (dict L (N * option (list N) * option (list N))).
Definition starts (ls : loads) : dict L N := map (fun x => (fst x, raw_start (snd x))) ls.
(** load l may move from a to b: there is an edge and b is not prohibited for l *)
Definition may_move (g : graph N O Z) (ls : loads) (l : L) (a b : N) : Prop :=
  exists r d, dget l ls = Some r /\ edge g a b = Some d /\ ~ In b (raw_proh r).
(** the same, except that the ends of l count as permitted even if they are prohibited *)
Definition may_move_or_end (g : graph N O Z) (ls : loads) (l : L) (a b : N) : Prop :=
  exists r d, dget l ls = Some r /\ edge g a b = Some d /\ (~ In b (raw_proh r) \/ In b (raw_ends r)).
(** every load is at one of its ends, no two at the same *)
Definition arrived (ls : loads) (P : dict L N) : Prop :=
  dkeys P = dkeys ls /\ NoDup (dvals P) /\ forall l a, In (l, a) P -> exists r, dget l ls = Some r /\ In a (raw_ends r).
(** the moves of a list of groups, one after the other *)
Definition sequence (groups : list (dict L (N * N))) : list (L * N * N) :=
  concat (map (map (fun kv => (fst kv, fst (snd kv), snd (snd kv)))) groups).
(** total length of the edges a sequence of moves goes along *)
Definition plan_length (g : graph N O Z) (ms : list (L * N * N)) : Z :=
  sumZ ms (fun m => match edge g (snd (fst m)) (snd m) with Some d => d | None => 0%Z end).
End Jam.
