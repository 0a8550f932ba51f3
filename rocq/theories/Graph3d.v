(** Model of /repo/graph/core.py:327-377: class Graph3D (copy is Base.copy3d, n_nearest_neighbours is in Nearest.v).
    A call maps the graph before to the graph after and to its outcome, also when it raises.
    Node values: a tuple of numbers and other things, or something that is not a tuple.  Numbers (int, float) are exact
    rationals; [PyObj i] stands for any other hashable object. *)
From Coq Require Import QArith Qcanon.
From Verif Require Import Prelude Base.
Open Scope nat_scope.

Inductive comp := Num (q : Qc) | PyObj (i : nat).
Inductive pynode := Tuple (l : list comp) | NotTuple (i : nat).
(** equality of numbers; computes, unlike the library's Qc_eq_dec *)
Definition Qc_dec (p q : Qc) : {p = q} + {p <> q} :=
  match Qeq_dec p q with
  | left h => left (Qc_is_canon p q h)
  | right n => right (fun e => n (match e in _ = x return (this p == this x)%Q with eq_refl => Qeq_refl p end))
  end.
#[export] Instance EqDec_comp : EqDec comp.
Proof. intros [p|i] [q|j]; [destruct (Qc_dec p q) as [H|H]; [left; congruence|right; congruence]|right; congruence|right; congruence|
  destruct (Nat.eq_dec i j) as [H|H]; [left; congruence|right; congruence]]. Defined.
Fixpoint comps_dec (l k : list comp) : {l = k} + {l <> k}.
Proof. destruct l as [|x l], k as [|y k]; [left; reflexivity|right; congruence|right; congruence|].
  destruct (eq_dec x y) as [H|H]; [|right; congruence]. destruct (comps_dec l k) as [H'|H']; [left; congruence|right; congruence]. Defined.
#[export] Instance EqDec_pynode : EqDec pynode.
Proof. intros [l|i] [k|j]; [destruct (comps_dec l k) as [H|H]; [left; congruence|right; congruence]|right; congruence|right; congruence|
  destruct (Nat.eq_dec i j) as [H|H]; [left; congruence|right; congruence]]. Defined.

(** core.py:339-346 _check_tuples: the exception it raises, if any *)
Definition is_num (c : comp) : bool := match c with Num _ => true | PyObj _ => false end.
Definition check_tuples (n : pynode) : option exn :=
  match n with
  | NotTuple _ => Some TypeError
  | Tuple l => if negb (length l =? 3) then Some ValueError
               else if negb (forallb is_num l) then Some TypeError else None
  end.

(** core.py:348-361 distance, without the final ** (1/2): the square of the distance, computed exactly *)
Definition Qcabs' (q : Qc) : Qc := if Qclt_le_dec q 0 then (- q)%Qc else q.
Definition distance_sq (n1 n2 : pynode) : res Qc :=
  match check_tuples n1 with
  | Some e => Err e
  | None =>
    match check_tuples n2 with
    | Some e => Err e
    | None =>
      match n1, n2 with
      | Tuple [Num x1; Num y1; Num z1], Tuple [Num x2; Num y2; Num z2] =>
          let a := Qcabs' (x2 - x1) in let b := Qcabs' (y2 - y1) in let c := Qcabs' (z2 - z1) in
          Ok (a * a + b * b + c * c)%Qc
      | _, _ => Err ValueError                           (* unpacking; not reached after the checks *)
      end
    end
  end.

Section Graph3D.
Context {O V : Type} (is_coll : V -> bool).
Notation graph := (graph pynode O V).

(** core.py:369-378 add_node: the check, BasicGraph.add_node, and [self._nodes[node_id] = obj] once more *)
Definition add_node3 (g : graph) (n : pynode) (o : option O) : graph * res unit :=
  match check_tuples n with
  | Some e => (g, Err e)
  | None =>
      let g1 := add_node g n o in
      (mkG (dset n o (g_nodes g1)) (g_edges g1) (g_count g1) (g_rev g1) (g_indeg g1) (g_outdeg g1), Ok tt)
  end.
(** [f then k]: k runs on the graph f left, unless f raised *)
Definition then3 (r : graph * res unit) (k : graph -> graph * res unit) : graph * res unit :=
  match r with (g, Ok _) => k g | (g, r) => (g, r) end.
(** core.py:363-367 add_edge and base.py:74-106 BasicGraph.add_edge, whose [self.add_node] is add_node3.  [None] is
    Python's None as value.  With both nodes present the rest of BasicGraph.add_edge is [add_edge1]; it does not raise
    on graphs (Graph3dFacts), [Err] keeps the graph. *)
Definition add_edge3_1 (g : graph) (a b : pynode) (v : option V) : graph * res unit :=
  match check_tuples a with Some e => (g, Err e) | None =>
  match check_tuples b with Some e => (g, Err e) | None =>
  match v with None => (g, Err AssertionError) | Some v =>
  if is_coll v then (g, Err ValueError) else
  then3 (if dmem a (g_nodes g) then (g, Ok tt) else add_node3 g a None) (fun g =>
  then3 (if dmem b (g_nodes g) then (g, Ok tt) else add_node3 g b None) (fun g =>
  match add_edge1 g a b v with Ok g' => (g', Ok tt) | Err e => (g, Err e) | OutOfFuel => (g, OutOfFuel) end))
  end end end.
(** base.py:108-109: [self.add_edge(node2, node1, value, bidirectional=False)] is Graph3D's again *)
Definition add_edge3 (g : graph) (a b : pynode) (v : option V) (bi : bool) : graph * res unit :=
  then3 (add_edge3_1 g a b v) (fun g => if bi then add_edge3_1 g b a v else (g, Ok tt)).
(** a loop over entries that stops at the first that raises *)
Fixpoint each3 {X} (f : graph -> X -> graph * res unit) (xs : list X) (g : graph) : graph * res unit :=
  match xs with [] => (g, Ok tt) | x :: t => then3 (f g x) (each3 f t) end.
(** base.py:312-332 from_list: an entry is (node,), (n1, n2), (n1, n2, value), (n1, n2, value, bidirectional), or
    something that raises by itself *)
Inductive entry3 := ENode (n : pynode) | EPair (a b : pynode) | EEdge (a b : pynode) (v : option V) | EEdgeBi (a b : pynode) (v : option V) (bi : bool) | EBad (e : exn).
Definition add_entry3 (g : graph) (x : entry3) : graph * res unit :=
  match x with
  | ENode n => add_node3 g n None
  | EPair a b => add_edge3 g a b None false
  | EEdge a b v => add_edge3 g a b v false
  | EEdgeBi a b v bi => add_edge3 g a b v bi
  | EBad e => (g, Err e)
  end.
Definition from_list3 (g : graph) (xs : list entry3) : graph * res unit := each3 add_entry3 xs g.
(** base.py:282-301 from_dict *)
Definition from_dict3 (g : graph) (d : dict pynode (dict pynode (option V))) : graph * res unit :=
  each3 (fun g p => if is_nil (snd p) then add_node3 g (fst p) None
                    else each3 (fun g q => add_edge3 g (fst p) (fst q) (snd q) false) (snd p) g) d g.

(** Calls a user makes on a Graph3D, exceptions caught; del_edge, del_node, in_degree, out_degree are BasicGraph's *)
Inductive call3 :=
| C3AddNode (n : pynode) (o : option O) | C3AddEdge (a b : pynode) (v : option V) (bi : bool)
| C3FromList (xs : list entry3) | C3FromDict (d : dict pynode (dict pynode (option V)))
| C3DelEdge (a b : pynode) | C3DelNode (n : pynode) | C3InDegree (n : pynode) | C3OutDegree (n : pynode).
Definition call3_step (g : graph) (c : call3) : graph * res unit :=
  let base (r : res graph) := match r with Ok g' => (g', Ok tt) | Err e => (g, Err e) | OutOfFuel => (g, OutOfFuel) end in
  match c with
  | C3AddNode n o => add_node3 g n o
  | C3AddEdge a b v bi => add_edge3 g a b v bi
  | C3FromList xs => from_list3 g xs
  | C3FromDict d => from_dict3 g d
  | C3DelEdge a b => base (del_edge g a b)
  | C3DelNode n => base (del_node g n)
  | C3InDegree n => (snd (in_degree g n), Ok tt)
  | C3OutDegree n => (snd (out_degree g n), Ok tt)
  end.
Definition run3 (cs : list call3) : graph := fold_left (fun g c => fst (call3_step g c)) cs empty_graph.
End Graph3D.
Arguments entry3 : clear implicits.
Arguments call3 : clear implicits.
