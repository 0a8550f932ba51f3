(** Model of /repo/graph/base.py: class BasicGraph and the module level helpers.
    Proofs are in BaseFacts.v. *)
From Verif Require Import Prelude.

Section Base.
Context {A O V : Type} {EA : EqDec A}.

(** base.py:13-24 BasicGraph.__init__: the six attributes.
    Node objects are [option O] where [None] is Python's None (the default of add_node).
    Simplification: edge values are never Python's None (docstring base.py:78: numeric). *)
Record graph := mkG {
  g_nodes  : dict A (option O);        (* _nodes *)
  g_edges  : dict A (dict A V);        (* _edges *)
  g_count  : Z;                        (* _edge_count *)
  g_rev    : dict A (dict A V);        (* _reverse_edges *)
  g_indeg  : dict A Z;                 (* _in_degree (defaultdict(int)) *)
  g_outdeg : dict A Z }.               (* _out_degree (defaultdict(int)) *)

Definition empty_graph : graph := mkG [] [] 0 [] [] [].

(** value of a defaultdict(int) entry *)
Definition deg (d : dict A Z) (n : A) : Z := match dget n d with Some z => z | None => 0%Z end.

(** base.py:56-60 __contains__ *)
Definition contains (g : graph) (n : A) : bool := dmem n (g_nodes g).

(** base.py:152-163 add_node *)
Definition add_node (g : graph) (n : A) (o : option O) : graph :=
  if dmem n (g_nodes g) then
    mkG (dset n o (g_nodes g)) (g_edges g) (g_count g) (g_rev g) (g_indeg g) (g_outdeg g)
  else
    mkG (dset n o (g_nodes g)) (g_edges g) (g_count g) (g_rev g)
        (dset n 0%Z (g_indeg g)) (dset n 0%Z (g_outdeg g)).

(** base.py:74-106 add_edge with bidirectional=False.  The type check of [value] is done by typing.
    [self._reverse_edges[node2][node1] = value] in the update branch raises KeyError if
    _reverse_edges has no node2. *)
Definition add_edge1 (g : graph) (n1 n2 : A) (v : V) : res graph :=
  let g := if dmem n1 (g_nodes g) then g else add_node g n1 None in
  let g := if dmem n2 (g_nodes g) then g else add_node g n2 None in
  match eget (g_edges g) n1 n2 with
  | Some _ =>                                            (* it's a value update *)
      let edges := dset n1 (dset n2 v (inner (g_edges g) n1)) (g_edges g) in
      match dget n2 (g_rev g) with
      | None => Err KeyError
      | Some inn =>
          Ok (mkG (g_nodes g) edges (g_count g) (dset n2 (dset n1 v inn) (g_rev g))
                  (g_indeg g) (g_outdeg g))
      end
  | None =>                                              (* it's a new edge *)
      let edges := match dget n1 (g_edges g) with
                   | None => dset n1 [(n2, v)] (g_edges g)
                   | Some out => dset n1 (dset n2 v out) (g_edges g) end in
      let rev := match dget n2 (g_rev g) with
                 | None => dset n2 [(n1, v)] (g_rev g)
                 | Some inn => dset n2 (dset n1 v inn) (g_rev g) end in
      Ok (mkG (g_nodes g) edges (g_count g + 1)%Z rev
              (dset n2 (deg (g_indeg g) n2 + 1)%Z (g_indeg g))
              (dset n1 (deg (g_outdeg g) n1 + 1)%Z (g_outdeg g)))
  end.

(** base.py:74-109 add_edge *)
Definition add_edge (g : graph) (n1 n2 : A) (v : V) (bidirectional : bool) : res graph :=
  g1 <- add_edge1 g n1 n2 v ;;
  if bidirectional then add_edge1 g1 n2 n1 v else Ok g1.

(** base.py:111-122 edge; [None] is the default *)
Definition edge (g : graph) (n1 n2 : A) : option V := eget (g_edges g) n1 n2.
Definition edge_default (g : graph) (n1 n2 : A) (d : V) : V :=
  match edge g n1 n2 with Some v => v | None => d end.

(** base.py:124-129 reverse_edge *)
Definition reverse_edge (g : graph) (n2 n1 : A) : option V := eget (g_rev g) n2 n1.

(** base.py:131-150 del_edge *)
Definition del_edge (g : graph) (n1 n2 : A) : res graph :=
  match dget n1 (g_edges g) with
  | None => Ok g                                         (* except KeyError: return *)
  | Some out =>
    match dget n2 out with
    | None => Ok g                                       (* except KeyError: return *)
    | Some _ =>
      let out' := ddel n2 out in
      let edges := if is_nil out' then ddel n1 (dset n1 out' (g_edges g)) else dset n1 out' (g_edges g) in
      match dget n2 (g_rev g) with
      | None => Err KeyError
      | Some inn =>
        match dget n1 inn with
        | None => Err KeyError
        | Some _ =>
          let inn' := ddel n1 inn in
          let rev := if is_nil inn' then ddel n2 (dset n2 inn' (g_rev g)) else dset n2 inn' (g_rev g) in
          Ok (mkG (g_nodes g) edges (g_count g - 1)%Z rev
                  (dset n2 (deg (g_indeg g) n2 - 1)%Z (g_indeg g))
                  (dset n1 (deg (g_outdeg g) n1 - 1)%Z (g_outdeg g)))
        end
      end
    end
  end.

(** base.py:165-171 node *)
Definition node (g : graph) (n : A) : option O :=
  match dget n (g_nodes g) with Some o => o | None => None end.

(** base.py:173-202 del_node *)
Definition del_node (g : graph) (n : A) : res graph :=
  if negb (dmem n (g_nodes g)) then Ok g else
  g1 <- (if Z.eqb (deg (g_outdeg g) n) 0 then Ok g else
           match dget n (g_edges g) with
           | None => Err KeyError
           | Some out => foldM (fun g n2 => del_edge g n n2) (dkeys out) g
           end) ;;
  g2 <- (if Z.eqb (deg (g_indeg g1) n) 0 then Ok g1 else
           match dget n (g_rev g1) with
           | None => Err KeyError
           | Some inn => foldM (fun g n1 => del_edge g n1 n) (dkeys inn) g1
           end) ;;
  Ok (mkG (ddel n (g_nodes g2)) (ddel n (g_edges g2)) (g_count g2) (ddel n (g_rev g2))
          (ddel n (g_indeg g2)) (ddel n (g_outdeg g2))).

(** base.py:204-241 nodes; one function per selector and the dispatcher [nodes_q] *)
Definition nodes (g : graph) : list A := dkeys (g_nodes g).
Definition nodes_from (g : graph) (n : A) : list A := dkeys (inner (g_edges g) n).
Definition nodes_to (g : graph) (n : A) : list A := dkeys (inner (g_rev g) n).
Definition nodes_in_degree (g : graph) (k : Z) : list A :=
  map fst (filter (fun p => Z.eqb (snd p) k) (g_indeg g)).
Definition nodes_out_degree (g : graph) (k : Z) : list A :=
  map fst (filter (fun p => Z.eqb (snd p) k) (g_outdeg g)).

Definition opt_count {X} (o : option X) : nat := match o with Some _ => 1 | None => 0 end.
Definition nodes_q (g : graph) (from_node to_node : option A) (in_degree out_degree : option Z)
  : res (list A) :=
  if 1 <? opt_count from_node + opt_count to_node + opt_count in_degree + opt_count out_degree
  then Err ValueError else
  match from_node, to_node, in_degree, out_degree with
  | Some n, _, _, _ => Ok (nodes_from g n)
  | _, Some n, _, _ => Ok (nodes_to g n)
  | _, _, Some k, _ => if Z.ltb k 0 then Err ValueError else Ok (nodes_in_degree g k)
  | _, _, _, Some k => if Z.ltb k 0 then Err ValueError else Ok (nodes_out_degree g k)
  | None, None, None, None => Ok (nodes g)
  end.

(** base.py:243-280 edges *)
Definition edges (g : graph) : list (A * A * V) :=
  flat_map (fun p => map (fun q => (fst p, fst q, snd q)) (snd p)) (g_edges g).
Definition edges_from (g : graph) (n : A) : list (A * A * V) :=
  map (fun q => (n, fst q, snd q)) (inner (g_edges g) n).
Definition edges_to (g : graph) (n : A) : list (A * A * V) :=
  map (fun q => (fst q, n, snd q)) (inner (g_rev g) n).
Fixpoint edges_along (g : graph) (path : list A) : res (list (A * A * V)) :=
  match path with
  | a :: ((b :: _) as t) =>
      match edge g a b with
      | None => Err KeyError
      | Some v => rest <- edges_along g t ;; Ok ((a, b, v) :: rest)
      end
  | _ => Ok []
  end.
Definition edges_path (g : graph) (path : list A) : res (list (A * A * V)) :=
  if length path <? 2 then Err ValueError else edges_along g path.

(** base.py:356-362 in_degree / out_degree: reading a defaultdict creates a missing entry. *)
Definition in_degree (g : graph) (n : A) : Z * graph :=
  match dget n (g_indeg g) with
  | Some z => (z, g)
  | None => (0%Z, mkG (g_nodes g) (g_edges g) (g_count g) (g_rev g) (dset n 0%Z (g_indeg g)) (g_outdeg g))
  end.
Definition out_degree (g : graph) (n : A) : Z * graph :=
  match dget n (g_outdeg g) with
  | Some z => (z, g)
  | None => (0%Z, mkG (g_nodes g) (g_edges g) (g_count g) (g_rev g) (g_indeg g) (dset n 0%Z (g_outdeg g)))
  end.

(** base.py:282-301 from_dict *)
Definition from_dict (g : graph) (d : dict A (dict A V)) : res graph :=
  foldM (fun g (p : A * dict A V) =>
           if is_nil (snd p) then Ok (add_node g (fst p) None)
           else foldM (fun g (q : A * V) => add_edge g (fst p) (fst q) (snd q) false) (snd p) g) d g.

(** base.py:303-310 to_dict.  [d[n1][n2] = dist] is a KeyError if n1 is not a key. *)
Definition to_dict (g : graph) : res (dict A (dict A V)) :=
  foldM (fun d (e : A * A * V) =>
           let '(n1, n2, v) := e in
           match dget n1 d with
           | None => Err KeyError
           | Some inn => Ok (dset n1 (dset n2 v inn) d)
           end)
        (edges g) (map (fun n => (n, [])) (nodes g)).

(** base.py:312-332 from_list; items are edges (n1,n2,value), (n1,n2,value,bidirectional) or (node,).
    Simplification: 2-tuples (default value 1) are written with their value. *)
Inductive link := LEdge (n1 n2 : A) (v : V) | LEdgeBi (n1 n2 : A) (v : V) (bi : bool) | LNode (n : A).
Definition add_link (g : graph) (l : link) : res graph :=
  match l with
  | LEdge a b v => add_edge g a b v false
  | LEdgeBi a b v bi => add_edge g a b v bi
  | LNode n => Ok (add_node g n None)
  end.
Definition from_list (g : graph) (ls : list link) : res graph := foldM add_link ls g.

(** base.py:334-336 to_list *)
Definition to_list (g : graph) : list link :=
  map (fun e => LEdge (fst (fst e)) (snd (fst e)) (snd e)) (edges g) ++ map LNode (nodes g).

(** base.py:65-72 copy (for classes Graph and BasicGraph) *)
Definition copy (g : graph) : res graph :=
  let g0 := fold_left (fun g' (p : A * option O) => add_node g' (fst p) (snd p)) (g_nodes g) empty_graph in
  foldM (fun g' (e : A * A * V) => let '(a, b, v) := e in add_edge g' a b v false) (edges g) g0.

(** core.py:333-335 Graph3D.copy *)
Definition copy3d (g : graph) : res graph :=
  d <- to_dict g ;; from_dict empty_graph d.

(** The class of the object a method of Graph is called on: `graph.copy()` in an algorithm is the copy of that class
    (core.py:327 `class Graph3D(Graph)`, core.py:333-335 overrides base.py:65-72). *)
Inductive gclass := IsGraph | IsGraph3D.
Definition copy_of (c : gclass) (g : graph) : res graph := match c with IsGraph => copy g | IsGraph3D => copy3d g end.

(** Operation histories *)
Inductive op :=
| OpAddNode (n : A) (o : option O)
| OpAddEdge (n1 n2 : A) (v : V) (bi : bool)
| OpDelEdge (n1 n2 : A)
| OpDelNode (n : A)
| OpFromDict (d : dict A (dict A V))
| OpFromList (l : list link)
| OpInDegree (n : A)
| OpOutDegree (n : A).
Definition step (g : graph) (o : op) : res graph :=
  match o with
  | OpAddNode n o => Ok (add_node g n o)
  | OpAddEdge a b v bi => add_edge g a b v bi
  | OpDelEdge a b => del_edge g a b
  | OpDelNode n => del_node g n
  | OpFromDict d => from_dict g d
  | OpFromList l => from_list g l
  | OpInDegree n => Ok (snd (in_degree g n))
  | OpOutDegree n => Ok (snd (out_degree g n))
  end.
Definition run (ops : list op) : res graph := foldM step ops empty_graph.

(** Total versions used by the algorithm models.  BaseFacts shows that on every reachable graph the
    operations do not raise, so the fallback is never taken there. *)
Definition add_edge_t (g : graph) (a b : A) (v : V) : graph := ok_or g (add_edge g a b v false).
Definition del_edge_t (g : graph) (a b : A) : graph := ok_or g (del_edge g a b).
Definition del_node_t (g : graph) (n : A) : graph := ok_or g (del_node g n).
Definition copy_t (g : graph) : graph := ok_or g (copy g).
End Base.
Arguments graph : clear implicits.
Arguments op : clear implicits.
Arguments link : clear implicits.

(** ** Equality: base.py:33-45 __eq__ / __ne__ *)
Section Eq.
Context {A O V : Type} {EA : EqDec A} {EO : EqDec O} {EV : EqDec V}.
(** Python dict equality: same size, and every key of the first maps to an equal value in the second *)
Definition dict_eqb {K X} {EK : EqDec K} (xeq : X -> X -> bool) (d1 d2 : dict K X) : bool :=
  Nat.eqb (length d1) (length d2) &&
  forallb (fun p => match dget (fst p) d2 with Some x => xeq (snd p) x | None => false end) d1.
Definition graph_eqb (g1 g2 : graph A O V) : bool :=
  dict_eqb (fun a b => eqb a b) (g_nodes g1) (g_nodes g2) &&
  Z.eqb (g_count g1) (g_count g2) &&
  dict_eqb (dict_eqb (fun a b => eqb a b)) (g_edges g1) (g_edges g2).
Definition graph_neb (g1 g2 : graph A O V) : bool := negb (graph_eqb g1 g2).
End Eq.

(** ** Module level helpers of base.py *)
Section Helpers.
Context {A O V : Type} {EA : EqDec A}.
Notation graph := (graph A O V).

(** base.py:372-392 subgraph *)
Definition subgraph (g : graph) (ns : list A) : res graph :=
  foldM (fun g' n1 =>
           let g1 := add_node g' n1 (node g n1) in
           foldM (fun g'' n2 =>
                    if mem n2 ns then
                      match edge g n1 n2 with
                      | Some v => add_edge g'' n1 n2 v false
                      | None => Err TypeError   (* value None: not reachable, see BaseFacts *)
                      end
                    else Ok g'') (nodes_from g n1) g1)
        ns empty_graph.

(** base.py:395-411 is_subgraph *)
Definition is_subgraph {EV : EqDec V} (g1 g2 : graph) : bool :=
  forallb (fun n => mem n (nodes g2)) (nodes g1) &&
  forallb (fun e => mem e (edges g2)) (edges g1).

(** base.py:414-433 same_path (for lists and tuples; [same_object] is Python's `path1 is path2`).
    set(path1) != set(path2) is mutual inclusion. *)
Definition same_set (l1 l2 : list A) : bool :=
  forallb (fun x => mem x l2) l1 && forallb (fun x => mem x l1) l2.
Fixpoint enumerate_from {X} (i : nat) (l : list X) : list (nat * X) :=
  match l with [] => [] | x :: t => (i, x) :: enumerate_from (S i) t end.
Definition same_path (same_object : bool) (p1 p2 : list A) : bool :=
  if same_object then true else
  if negb (Nat.eqb (length p1) (length p2)) || negb (same_set p1 p2) then false else
  match p1 with
  | [] => false   (* enumerate(path2) is empty, so any() is over nothing *)
  | h :: _ =>
    let starts := map fst (filter (fun p => eqb h (snd p)) (enumerate_from 0 p2)) in
    existsb (fun start => forallb (fun q => eqb (fst q) (snd q))
                            (combine p1 (skipn start p2 ++ firstn start p2))) starts
  end.

(** base.py:436-452 has_path *)
Fixpoint has_path_loop (g : graph) (v1 : A) (rest : list A) : bool :=
  match rest with
  | [] => true
  | v2 :: t => match edge g v1 v2 with None => false | Some _ => has_path_loop g v2 t end
  end.
Definition has_path (g : graph) (path : list A) : res bool :=
  match path with
  | [] => Err IndexError
  | v1 :: t => Ok (has_path_loop g v1 t)
  end.
End Helpers.

(** base.py:364-369 distance: sum(edge(nodes[i-1], nodes[i]) for i in range(len(nodes))).
    nodes[-1] is the last element; a missing edge gives None and sum raises TypeError. *)
Section Distance.
Context {A O : Type} {EA : EqDec A}.
Fixpoint sum_edges (g : graph A O Z) (prev : A) (l : list A) : res Z :=
  match l with
  | [] => Ok 0%Z
  | x :: t => match edge g prev x with
              | None => Err TypeError
              | Some d => r <- sum_edges g x t ;; Ok (d + r)%Z
              end
  end.
Definition distance (g : graph A O Z) (ns : list A) (return_to_start : bool) : res Z :=
  match ns with
  | [] => if return_to_start then Err IndexError else Ok 0%Z
  | h :: _ =>
    len <- sum_edges g (last ns h) ns ;;
    if return_to_start then
      match edge g (last ns h) h with None => Err TypeError | Some d => Ok (len + d)%Z end
    else Ok len
  end.
End Distance.
