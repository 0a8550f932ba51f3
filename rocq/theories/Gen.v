(** The generators of the API, one call of next() at a time: breadth_first_walk (/repo/graph/bfs.py:38-67) and
    topological_sort (/repo/graph/topological_sort.py:4-36).  Bfs.v and Topo.v give the list of everything they yield on a
    graph that does not change; here the graph may be different at every call of next(), because a caller may edit the
    graph while the generator is suspended.  A generator does nothing until the first next(): the checks of the arguments
    are part of that call. *)
From Verif Require Import Prelude Base Loop Bfs Topo.

(** the outcome of one call of next(): a value, StopIteration, or an exception *)
Inductive event (A : Type) := Yield (x : A) | Stop | Raise (e : exn).
Arguments Yield {A}. Arguments Stop {A}. Arguments Raise {A}.

(** a generator driven by a caller: [next g st] is one call of next() in state [st] while the graph is [g]; [gs i] is the
    graph at call i *)
Section Drive.
Context {A G St : Type} (next : G -> St -> event A * St) (st0 : St) (gs : nat -> G).
Fixpoint state_at (k : nat) : St := match k with 0 => st0 | S k => snd (next (gs k) (state_at k)) end.
Definition event_at (k : nat) : event A := fst (next (gs k) (state_at k)).
End Drive.

Section Gen.
Context {A O V : Type} {EA : EqDec A}.
Notation graph := (graph A O V).

(** breadth_first_walk: not started; suspended at the yield of line 60 with its local variables; finished *)
Inductive walk_state := WNew | WAt (node : A) (visited : dict A (option A)) (q : list A) | WDone.
(** bfs.py:58-60: while q: node = q.popleft(); yield node *)
Definition walk_pop (visited : dict A (option A)) (q : list A) : event A * walk_state :=
  match q with [] => (Stop, WDone) | node :: q => (Yield node, WAt node visited q) end.
(** one next() of breadth_first_walk(graph, s, e, rev): up to the first yield (bfs.py:47-60), or from line 61 to the next *)
Definition walk_next (s : A) (e : option A) (rev : bool) (g : graph) (st : walk_state) : event A * walk_state :=
  match st with
  | WNew =>
      if negb (contains g s) then (Raise ValueError, WDone) else
      if match e with Some x => negb (contains g x) | None => false end then (Raise ValueError, WDone) else
      walk_pop [(s, None)] [s]
  | WAt node visited q =>
      if eq_dec (Some node) e then (Stop, WDone)
      else let '(visited, q) := bfs_push node (if rev then nodes_to g node else nodes_from g node) visited q in walk_pop visited q
  | WDone => (Stop, WDone)
  end.

(** topological_sort: not started; suspended at the yield of line 29 with g2, task and the rest of zero_in_degree; finished *)
Inductive topo_state := TNew | TAt (g2 : graph) (task : A) (rest : list A) | TDone.
(** topological_sort.py:25-29 and 33-36: sort the nodes with in-degree 0, yield the first *)
Definition topo_batch (srt : list A -> list A) (g2 : graph) : event A * topo_state :=
  match srt (nodes_in_degree g2 0) with
  | [] => (if is_nil (nodes g2) then Stop else Raise AttributeError, TDone)
  | task :: rest => (Yield task, TAt g2 task rest)
  end.
(** one next(): topological_sort.py:15-29, or from line 31 to the next yield *)
Definition topo_next (c : gclass) (srt : list A -> list A) (g : graph) (st : topo_state) : event A * topo_state :=
  match st with
  | TNew => match copy_of c g with Ok g2 => topo_batch srt g2 | Err e => (Raise e, TDone) | OutOfFuel => (Stop, TDone) end
  | TAt g2 task rest =>
      match del_node g2 task with
      | Ok g2 => match rest with [] => topo_batch srt g2 | task :: rest => (Yield task, TAt g2 task rest) end
      | Err e => (Raise e, TDone)
      | OutOfFuel => (Stop, TDone)
      end
  | TDone => (Stop, TDone)
  end.
End Gen.
Arguments walk_state A : clear implicits. Arguments topo_state A O V : clear implicits.
