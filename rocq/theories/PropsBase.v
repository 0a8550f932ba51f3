(** Property theorems C01-C14 and C68 (base.py). *)
From Verif Require Import Prelude PreludeFacts Base BaseFacts BaseFacts2 BaseFacts3 Spec.

Section P.
Context {A O V : Type} {EA : EqDec A}.
Notation graph := (graph A O V).
Implicit Types (g : graph) (a b n x y : A) (v : V) (ops : list (op A O V)).

(** C01: no history raises, and afterwards all observers agree. *)
Theorem C01_views_consistent ops :
  exists g, run ops = Ok g /\
    (forall a b, reverse_edge g b a = edge g a b) /\
    (forall a b v, In (a, b, v) (edges g) <-> edge g a b = Some v) /\
    (forall n a b v, In (a, b, v) (edges_from g n) <-> a = n /\ edge g a b = Some v) /\
    (forall n a b v, In (a, b, v) (edges_to g n) <-> b = n /\ edge g a b = Some v) /\
    (forall a b, In b (nodes_from g a) <-> has_edge g a b) /\
    (forall a b, In a (nodes_to g b) <-> has_edge g a b) /\
    NoDup (nodes g) /\ NoDup (map fst (edges g)) /\
    (forall n, NoDup (map fst (edges_from g n)) /\ NoDup (map fst (edges_to g n)) /\
               NoDup (nodes_from g n) /\ NoDup (nodes_to g n)) /\
    (forall a b, has_edge g a b -> contains g a = true /\ contains g b = true) /\
    (forall n, contains g n = true <-> In n (nodes g)) /\
    (forall n, fst (in_degree g n) = Z.of_nat (length (edges_to g n)) /\
               fst (out_degree g n) = Z.of_nat (length (edges_from g n))) /\
    g_count g = Z.of_nat (length (edges g)).
Proof. exact (views_consistent ops). Qed.

(** C02: effects of the mutators, on every reachable graph *)
Theorem C02_add_node_effect g n o : reachable g ->
  let g' := add_node g n o in
  (forall x, contains g' x = true <-> x = n \/ contains g x = true) /\
  node g' n = o /\ (forall x, x <> n -> node g' x = node g x) /\
  (forall a b, edge g' a b = edge g a b).
Proof. exact (add_node_effect g n o). Qed.

Theorem C02_add_edge_effect g a b v bi : reachable g ->
  exists g', add_edge g a b v bi = Ok g' /\
  (forall x, contains g' x = true <-> x = a \/ x = b \/ contains g x = true) /\
  (forall x, node g' x = node g x) /\
  edge g' a b = Some v /\ (bi = true -> edge g' b a = Some v) /\
  (forall x y, (x, y) <> (a, b) -> (bi = true -> (x, y) <> (b, a)) -> edge g' x y = edge g x y).
Proof. exact (add_edge_effect g a b v bi). Qed.

Theorem C02_del_edge_effect g a b : reachable g ->
  exists g', del_edge g a b = Ok g' /\
  (forall x, contains g' x = contains g x) /\ (forall x, node g' x = node g x) /\
  edge g' a b = None /\ (forall x y, (x, y) <> (a, b) -> edge g' x y = edge g x y) /\
  (edge g a b = None -> g' = g).
Proof. exact (del_edge_effect g a b). Qed.

Theorem C02_del_node_effect g n : reachable g ->
  exists g', del_node g n = Ok g' /\
  (forall x, contains g' x = true <-> x <> n /\ contains g x = true) /\
  (forall x, x <> n -> node g' x = node g x) /\
  (forall x y, edge g' x y = if eq_dec x n then None else if eq_dec y n then None else edge g x y) /\
  (contains g n = false -> g' = g).
Proof. exact (del_node_effect g n). Qed.

(** C03 (true part): reading the degree of a node leaves the graph as it was; for an absent node only
    nodes(in_degree=0) / nodes(out_degree=0) can change.  Missing: the absent-node case, which is false
    (see C03_refuted). *)
Theorem C03_degree_read_partial g n : reachable g ->
  (contains g n = true -> snd (in_degree g n) = g /\ snd (out_degree g n) = g) /\
  (forall g', g' = snd (in_degree g n) \/ g' = snd (out_degree g n) ->
     nodes g' = nodes g /\ edges g' = edges g /\
     (forall x y, edge g' x y = edge g x y /\ reverse_edge g' x y = reverse_edge g x y) /\
     (forall x, node g' x = node g x /\ nodes_from g' x = nodes_from g x /\ nodes_to g' x = nodes_to g x) /\
     (forall x, fst (in_degree g' x) = fst (in_degree g x) /\ fst (out_degree g' x) = fst (out_degree g x)) /\
     (forall k, k <> 0%Z -> nodes_in_degree g' k = nodes_in_degree g k /\ nodes_out_degree g' k = nodes_out_degree g k)).
Proof. exact (degree_read g n). Qed.

(** C04, for histories in which in_degree/out_degree are only asked of nodes that are in the graph. *)
Theorem C04_nodes_by_degree ops g : reads_present ops -> run ops = Ok g ->
  forall k, (0 <= k)%Z ->
    exists li lo, nodes_q g None None (Some k) None = Ok li /\ nodes_q g None None None (Some k) = Ok lo /\
      NoDup li /\ NoDup lo /\
      (forall n, In n li <-> In n (nodes g) /\ Z.of_nat (length (edges_to g n)) = k) /\
      (forall n, In n lo <-> In n (nodes g) /\ Z.of_nat (length (edges_from g n)) = k).
Proof. exact (nodes_by_degree ops g). Qed.
Theorem C04_nodes_bad_arguments g k : (k < 0)%Z ->
  nodes_q g None None (Some k) None = Err ValueError /\ nodes_q g None None None (Some k) = Err ValueError /\
  (forall f t i o, 1 < opt_count f + opt_count t + opt_count i + opt_count o -> nodes_q g f t i o = Err ValueError).
Proof. exact (nodes_bad_arguments g k). Qed.

(** C07 *)
Theorem C07_dict_round_trip g : reachable g ->
  exists d g', to_dict g = Ok d /\ from_dict empty_graph d = Ok g' /\
    (forall n, In n (dkeys d) <-> In n (nodes g)) /\ NoDup (dkeys d) /\
    (forall a b, eget d a b = edge g a b) /\
    (forall n, In n (nodes g') <-> In n (nodes g)) /\ (forall a b, edge g' a b = edge g a b) /\
    g_count g' = g_count g.
Proof. exact (dict_round_trip g). Qed.

(** C08 *)
Theorem C08_list_round_trip g : reachable g ->
  exists g', from_list empty_graph (to_list g) = Ok g' /\
    (forall n, In n (nodes g') <-> In n (nodes g)) /\ (forall a b, edge g' a b = edge g a b) /\
    g_count g' = g_count g.
Proof. exact (list_round_trip g). Qed.

(** C10 *)
Theorem C10_subgraph_induced g ns : reachable g ->
  exists g', subgraph g ns = Ok g' /\
    (forall n, In n (nodes g') <-> In n ns) /\
    (forall n, In n ns -> node g' n = node g n) /\
    (forall a b v, edge g' a b = Some v <-> In a ns /\ In b ns /\ edge g a b = Some v).
Proof. exact (subgraph_induced g ns). Qed.

(** C13 *)
Theorem C13_has_path_exact g p : p <> [] ->
  exists r, has_path g p = Ok r /\
    (r = true <-> exists a b, path (has_edge g) a p b).
Proof. exact (has_path_exact g p). Qed.
Theorem C13_has_path_empty g : has_path g [] = Err IndexError.
Proof. exact (has_path_empty g). Qed.

(** C14 *)
Theorem C14_edges_along_path g p : reachable g -> 2 <= length p ->
  ((exists a b, path (has_edge g) a p b) ->
     exists l, edges_path g p = Ok l /\ length l = length p - 1 /\
       forall i e, nth_error l i = Some e ->
         exists a b v, e = (a, b, v) /\ nth_error p i = Some a /\ nth_error p (S i) = Some b /\ edge g a b = Some v) /\
  (~ (exists a b, path (has_edge g) a p b) -> edges_path g p = Err KeyError).
Proof. exact (edges_along_path g p). Qed.
Theorem C14_edges_short_path g p : length p < 2 -> edges_path g p = Err ValueError.
Proof. exact (edges_short_path g p). Qed.
End P.

Section PEq.
Context {A O V : Type} {EA : EqDec A} {EO : EqDec O} {EV : EqDec V}.
Notation graph := (graph A O V).
Implicit Types (g : graph).

(** C05 *)
Theorem C05_copy_equal g : reachable g ->
  exists g', copy g = Ok g' /\ graph_eqb g' g = true /\ graph_eqb g g' = true /\
    nodes g' = nodes g /\ (forall n, node g' n = node g n) /\ edges g' = edges g /\
    (forall n, fst (in_degree g' n) = fst (in_degree g n) /\ fst (out_degree g' n) = fst (out_degree g n)).
Proof. exact (copy_equal g). Qed.

(** C06 (true part): the copy of a Graph3D has the same nodes and edges.  Missing: node objects (refuted). *)
Theorem C06_copy3d_partial g : reachable g ->
  exists g', copy3d g = Ok g' /\ (forall n, In n (nodes g') <-> In n (nodes g)) /\
    (forall a b, edge g' a b = edge g a b) /\ (forall n, node g' n = None) /\
    (graph_eqb g' g = true <-> forall n, node g n = None).
Proof. exact (copy3d_partial g). Qed.

(** C09 *)
Theorem C09_equality_observational g1 g2 : reachable g1 -> reachable g2 ->
  (graph_eqb g1 g2 = true <->
    (forall n, contains g1 n = contains g2 n) /\ (forall n, node g1 n = node g2 n) /\
    (forall a b, edge g1 a b = edge g2 a b)).
Proof. exact (equality_observational g1 g2). Qed.
Theorem C09_equality_equivalence g1 g2 g3 : reachable g1 -> reachable g2 -> reachable g3 ->
  graph_eqb g1 g1 = true /\ graph_eqb g1 g2 = graph_eqb g2 g1 /\
  (graph_eqb g1 g2 = true -> graph_eqb g2 g3 = true -> graph_eqb g1 g3 = true) /\
  graph_neb g1 g2 = negb (graph_eqb g1 g2).
Proof. exact (equality_equivalence g1 g2 g3). Qed.

(** C11 *)
Theorem C11_is_subgraph_exact g1 g2 : reachable g1 -> reachable g2 ->
  (is_subgraph g1 g2 = true <->
   (forall n, In n (nodes g1) -> In n (nodes g2)) /\ (forall a b v, edge g1 a b = Some v -> edge g2 a b = Some v)).
Proof. exact (is_subgraph_exact g1 g2). Qed.
Theorem C11_is_subgraph_preorder g1 g2 g3 : reachable g1 -> reachable g2 -> reachable g3 ->
  is_subgraph g1 g1 = true /\
  (is_subgraph g1 g2 = true -> is_subgraph g2 g3 = true -> is_subgraph g1 g3 = true).
Proof. exact (is_subgraph_preorder g1 g2 g3). Qed.
Theorem C11_subgraph_is_subgraph g ns g' : reachable g -> (forall n, In n ns -> In n (nodes g)) ->
  subgraph g ns = Ok g' -> is_subgraph g' g = true.
Proof. exact (subgraph_is_subgraph g ns g'). Qed.
End PEq.

(** C12 *)
Theorem C12_same_path_rotation {A} {EA : EqDec A} (p1 p2 : list A) : p1 <> [] ->
  (same_path false p1 p2 = true <-> exists l1 l2, p1 = l1 ++ l2 /\ p2 = l2 ++ l1).
Proof. exact (same_path_spec p1 p2). Qed.
Theorem C12_same_object {A} {EA : EqDec A} (p : list A) : same_path true p p = true.
Proof. exact (same_path_obj p). Qed.
(** two distinct empty lists are rotations of each other, yet the answer is False *)
Theorem C12_empty_refuted : exists p1 p2 : list nat, (exists l1 l2, p1 = l1 ++ l2 /\ p2 = l2 ++ l1) /\ same_path false p1 p2 = false.
Proof. exact same_path_empty_refuted. Qed.

(** C03, C06 refutations *)
Theorem C03_refuted : exists (g : graph nat unit Z) n, reachable g /\ contains g n = false /\
  ~ In n (nodes_in_degree g 0) /\ In n (nodes_in_degree (snd (in_degree g n)) 0).
Proof. exact degree_read_refuted. Qed.
Theorem C06_refuted : exists (g g' : graph nat nat Z), reachable g /\ copy3d g = Ok g' /\ graph_eqb g' g = false.
Proof. exact copy3d_refuted. Qed.

(** C68: distance(nodes) always includes the closing edge, and return_to_start counts it a second time. *)
Theorem C68_distance_partial {A O} {EA : EqDec A} (g : graph A O Z) h t rts d e :
  wpath (edge g) h (h :: t) (last (h :: t) h) d -> edge g (last (h :: t) h) h = Some e ->
  distance g (h :: t) rts = Ok (d + e + if rts then e else 0)%Z.
Proof. exact (distance_closed g h t rts d e). Qed.
Theorem C68_distance_refuted : exists (g : graph nat unit Z) p d,
  reachable g /\ (exists a b, wpath (edge g) a p b d) /\ distance g p false <> Ok d /\
  (exists e a b, edge g b a = Some e /\ wpath (edge g) a p b d /\ distance g p true <> Ok (d + e)%Z).
Proof. exact distance_refuted. Qed.

(** Hypotheses are satisfiable: a concrete history with a self loop, a bidirectional edge and deletions. *)
Definition ex_ops : list (op nat nat Z) :=
  [OpAddEdge 1 2 5%Z true; OpAddEdge 2 3 7%Z false; OpAddNode 4 (Some 9); OpAddEdge 3 3 1%Z false;
   OpInDegree 4; OpDelEdge 2 1; OpAddEdge 4 1 2%Z false; OpDelNode 3].
Example ex_reachable : exists g, run ex_ops = Ok g /\ edges g = [((1, 2), 5%Z); ((4, 1), 2%Z)] /\ nodes g = [1; 2; 4].
Proof. eexists; vm_compute; repeat split. Qed.
Example ex_reads_present : reads_present ex_ops.
Proof. intros pre o post g E H. unfold ex_ops in E.
  do 8 (destruct pre as [|? pre];
    [cbn [app] in E; injection E as <- _; try exact I; vm_compute in H; injection H as <-; reflexivity
    |cbn [app] in E; injection E as <- E]). clear H; destruct pre; discriminate E. Qed.
Example ex_path : exists g p, run ex_ops = Ok g /\ 2 <= length p /\ path (has_edge g) 4 p 2.
Proof. eexists. exists [4; 1; 2]. split; [vm_compute; reflexivity|]. split; [cbn; lia|].
  apply (path_cons _ 4 1); [eexists; vm_compute; reflexivity|]. apply (path_cons _ 1 2); [eexists; vm_compute; reflexivity|]. constructor. Qed.
