(** Model of the search functions of /repo/graph/base.py: is_connected, network_size, components. *)
From Verif Require Import Prelude Base Loop.

Section BaseAlg.
Context {A O V : Type} {EA : EqDec A}.
Notation graph := (graph A O V).

(** base.py:347-353 the for loop of is_connected over the children of the popped node.
    [None]: `return True` was executed; [Some q]: the queue afterwards. *)
Fixpoint conn_scan (n2 : A) (visited cs q : list A) : option (list A) :=
  match cs with
  | [] => Some q
  | c :: cs' =>
      if eq_dec c n2 then None
      else if mem c visited then conn_scan n2 visited cs' q
      else conn_scan n2 visited cs' (q ++ [c])
  end.
(** base.py:343-354 one iteration of the while loop; state (q, visited) *)
Definition conn_step (g : graph) (n2 : A) (s : list A * list A) : (list A * list A) + res bool :=
  let '(q, visited) := s in
  match q with
  | [] => inr (Ok false)
  | n :: q' =>
      let visited' := sadd n visited in
      match conn_scan n2 visited' (dkeys (inner (g_edges g) n)) q' with
      | None => inr (Ok true)
      | Some q'' => inl (q'', visited')
      end
  end.
(** base.py:338-354 is_connected *)
Definition is_connected (fuel : nat) (g : graph) (n1 n2 : A) : res bool :=
  if dmem n1 (g_edges g) then loop fuel (conn_step g n2) ([n1], []) else Ok false.

(** base.py:485-491 the for loop of network_size over the set q, in the order [l] *)
Definition net_scan (g : graph) (l : list A) (network new_q : list A) : list A * list A :=
  fold_left (fun (s : list A * list A) peer =>
               let '(network, new_q) := s in
               if mem peer network then (network, new_q)
               else let network' := sadd peer network in
                    (network', sunion new_q (sdiff (nodes_from g peer) network')))
            l (network, new_q).
(** base.py:475-493; state (network, q, scan_depth).  [ord i s]: the order in which Python iterates
    over the set s in iteration i. *)
Definition net_step (ord : nat -> list A -> list A) (g : graph) (k : option Z)
    (s : list A * list A * nat) : (list A * list A * nat) + res (list A) :=
  let '(network, q, depth) := s in
  if is_nil q then inr (Ok network) else
  if match k with Some z => (z <? Z.of_nat depth)%Z | None => false end then inr (Ok network) else
  let '(network', q') := net_scan g (ord depth q) network [] in
  inl (network', q', S depth).
(** base.py:455-494 network_size *)
Definition network_size (ord : nat -> list A -> list A) (fuel : nat) (g : graph) (n1 : A) (k : option Z)
  : res (list A) :=
  if negb (contains g n1) then Err ValueError else
  loop fuel (net_step ord g k) ([n1], set_of (nodes_from g n1), 1).

(** base.py:507-520: `nodes.pop()` and `new_nodes.pop()` remove an arbitrary element; [pick i s] is the
    element removed from the set s by the i-th pop. *)
Definition comp_step (pick : nat -> list A -> A) (g : graph)
    (s : list A * list A * nat) : (list A * list A * nat) + res (list A * nat) :=
  let '(comp, new_nodes, i) := s in
  if is_nil new_nodes then inr (Ok (comp, i)) else
  let n := pick i new_nodes in
  let rest := sremove n new_nodes in
  let comp' := sadd n comp in
  let rest1 := sunion rest (filter (fun x => negb (mem x comp')) (nodes_from g n)) in
  let rest2 := sunion rest1 (filter (fun x => negb (mem x comp')) (nodes_to g n)) in
  inl (comp', rest2, S i).
Definition comps_step (pick : nat -> list A -> A) (g : graph) (fuel : nat)
    (s : list A * list (list A) * nat) : (list A * list (list A) * nat) + res (list (list A)) :=
  let '(ns, comps, i) := s in
  if is_nil ns then inr (Ok comps) else
  let n := pick i ns in
  let ns' := sremove n ns in
  match loop fuel (comp_step pick g) ([n], sunion (set_of (nodes_from g n)) (nodes_to g n), S i) with
  | Ok (comp, i') => inl (sdiff ns' comp, comps ++ [comp], i')
  | Err e => inr (Err e)
  | OutOfFuel => inr OutOfFuel
  end.
(** base.py:497-521 components *)
Definition components (pick : nat -> list A -> A) (fuel : nat) (g : graph) : res (list (list A)) :=
  loop fuel (comps_step pick g fuel) (set_of (nodes g), [], 0).
End BaseAlg.
