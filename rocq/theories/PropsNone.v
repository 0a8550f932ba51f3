(** C92: the selectors of nodes(...) and edges(...), and None as a node. *)
From Verif Require Import Prelude PreludeFacts Base BaseFacts BaseFacts2 BaseFacts3 Spec SpecFacts Loop SearchFacts BaseAlgFacts Sp SpFacts Bfs Selectors PropsFlow.
Open Scope nat_scope.

Section Props.
Context {B O V : Type} {EB : EqDec B}.
Notation node := (option B).
Implicit Types (g : graph node O V) (b : B).
(** nodes(from_node=b), nodes(to_node=b), edges(from_node=b), edges(to_node=b) for a b that is not None: each neighbour, each edge
    once; without selectors, everything *)
Theorem C92_selectors g b : reachable g ->
  (exists l, nodes_call g (Some b) None None None = Ok l /\ NoDup l /\ forall y, In y l <-> exists v, edge g (Some b) y = Some v) /\
  (exists l, nodes_call g None (Some b) None None = Ok l /\ NoDup l /\ forall x, In x l <-> exists v, edge g x (Some b) = Some v) /\
  (exists l, edges_call g None (Some b) None = Ok l /\ NoDup (map fst l) /\ forall x y v, In (x, y, v) l <-> x = Some b /\ edge g x y = Some v) /\
  (exists l, edges_call g None None (Some b) = Ok l /\ NoDup (map fst l) /\ forall x y v, In (x, y, v) l <-> y = Some b /\ edge g x y = Some v) /\
  (exists l, nodes_call g None None None None = Ok l /\ NoDup l /\ forall x, In x l <-> contains g x = true) /\
  (exists l, edges_call g None None None = Ok l /\ NoDup (map fst l) /\ forall x y v, In (x, y, v) l <-> edge g x y = Some v).
Proof. intros R. pose proof (reachable_wf _ R) as W. splits; eexists; (split; [reflexivity|]).
  - split; [apply NoDup_nodes_from, W|]. intros y. rewrite (In_from g (Some b) y W). unfold has_edge. tauto.
  - split; [apply NoDup_nodes_to, W|]. intros x. rewrite (In_to g x (Some b) W). unfold has_edge. tauto.
  - split; [exact (NoDup_edges_from g (Some b) W)|]. intros x y v. rewrite (In_edges_from g (Some b) (x, y, v) W). split; [intros (c & w & E & H); injection E as -> -> ->; auto|intros [-> H]; eauto].
  - split; [exact (NoDup_edges_to g (Some b) W)|]. intros x y v. rewrite (In_edges_to g (Some b) (x, y, v) W). split; [intros (c & w & E & H); injection E as -> -> ->; auto|intros [-> H]; eauto].
  - split; [apply wf_nodes, W|]. intros x. symmetry. apply contains_In.
  - split; [exact (NoDup_edges g W)|]. intros x y v. apply In_edges, W. Qed.
(** more than one selector, a degree that is not an int >= 0, a path that is not a list of two nodes or more: ValueError *)
Theorem C92_bad_selectors g :
  (forall f t i o, 2 <= opt_count f + opt_count t + opt_count i + opt_count o -> nodes_call g f t i o = Err ValueError) /\
  (forall p f t, 2 <= opt_count p + opt_count f + opt_count t -> edges_call g p f t = Err ValueError) /\
  (forall d, (forall k, d = DInt k -> (k < 0)%Z) -> nodes_call g None None (Some d) None = Err ValueError /\ nodes_call g None None None (Some d) = Err ValueError) /\
  (forall p, (forall l, p = PList l -> length l < 2) -> edges_call g (Some p) None None = Err ValueError).
Proof. splits.
  - intros f t i o H. unfold nodes_call. replace (1 <? _) with true by (symmetry; apply Nat.ltb_lt; lia). reflexivity.
  - intros p f t H. unfold edges_call. replace (1 <? _) with true by (symmetry; apply Nat.ltb_lt; lia). reflexivity.
  - intros d H. unfold nodes_call. cbn [opt_count Nat.add Nat.ltb Nat.leb]. destruct d as [k|]; [|split; reflexivity]. specialize (H k eq_refl). apply Z.ltb_lt in H. cbn [by_degree]. rewrite H. split; reflexivity.
  - intros p H. unfold edges_call. cbn [opt_count Nat.add Nat.ltb Nat.leb]. destruct p as [l|]; [|reflexivity]. specialize (H l eq_refl). unfold edges_path. apply Nat.ltb_lt in H. rewrite H. reflexivity. Qed.
(** edge(a, b, default) *)
Theorem C92_edge_default g (a c : node) (d : V) : (forall v, edge g a c = Some v -> edge_default g a c d = v) /\ (edge g a c = None -> edge_default g a c d = d).
Proof. unfold edge_default. destruct (edge g a c); split; intros; congruence. Qed.

(** *** graphs without a node None *)
Definition flat (x : option node) : node := match x with Some n => n | None => None end.
Definition vmap (d : dict node (option node)) : dict node node := map (fun p => (fst p, flat (snd p))) d.
Lemma vmap_get k d : dget k (vmap d) = option_map flat (dget k d).
Proof. induction d as [|[k1 v] d IH]; [reflexivity|]. cbn [vmap map dget fst snd]. destruct (eq_dec k k1); [reflexivity|exact IH]. Qed.
Lemma vmap_mem k d : dmem k (vmap d) = dmem k d.
Proof. unfold dmem, dkeys, vmap. rewrite map_map. reflexivity. Qed.
Lemma vmap_set k v d : vmap (dset k v d) = dset k (flat v) (vmap d).
Proof. induction d as [|[k1 v1] d IH]; [reflexivity|]. cbn [vmap map dset fst snd]. destruct (eq_dec k k1); cbn [map fst snd]; [reflexivity|]. f_equal. exact IH. Qed.
Definition some_vals (d : dict node (option node)) : Prop := forall k v, dget k d = Some (Some v) -> v <> None.
Lemma back_sim fuel d : some_vals d -> forall x path, (forall n, x = Some n -> n <> None) -> bfs_back fuel (vmap d) (flat x) path = bfs_trace fuel d x path.
Proof. intros Hd. induction fuel as [|fuel IH]; intros x path Hx; destruct x as [[n|]|]; try reflexivity; try (exfalso; apply (Hx None eq_refl); reflexivity).
  cbn [bfs_back bfs_trace flat]. rewrite vmap_get. destruct (dget (Some n) d) as [p|] eqn:E; [|reflexivity]. cbn [option_map]. apply IH. intros m ->. apply (Hd _ _ E). Qed.
Lemma next_sim n l : n <> None -> forall d q, some_vals d -> bfs_next n l (vmap d) q = (vmap (fst (bfs_push n l d q)), snd (bfs_push n l d q)) /\ some_vals (fst (bfs_push n l d q)).
Proof. intros Hn. unfold bfs_next, bfs_push. induction l as [|y l IH]; intros d q Hd; cbn [fold_left]; [auto|]. rewrite vmap_mem. destruct (dmem y d); [apply IH, Hd|]. replace (dset y n (vmap d)) with (vmap (dset y (Some n) d)) by (rewrite vmap_set; reflexivity). apply IH. intros k v. rewrite dget_dset. destruct (eq_dec k y); [intros E; injection E as <-; exact Hn|apply Hd]. Qed.
Lemma push_queue g n l : forall d q, (forall y, In y l -> y <> None) -> (forall y, In y q -> y <> None) -> forall y, In y (snd (bfs_push (A := node) n l d q)) -> y <> None.
Proof. unfold bfs_push. induction l as [|z l IH]; intros d q Hl Hq; cbn [fold_left]; [exact Hq|]. destruct (dmem z d); apply IH; auto; try (intros y Hy; apply Hl; right; exact Hy). intros y Hy. apply in_app_iff in Hy. destruct Hy as [Hy|[<-|[]]]; [apply Hq, Hy|apply Hl; left; reflexivity]. Qed.
Lemma nodes_no_none g x : contains g None = false -> In x (nodes g) -> x <> None.
Proof. intros H Hx ->. apply contains_In in Hx. congruence. Qed.
(** without a node None, breadth_first_search is the function of C18/C19 *)
Theorem C92_bfs_without_none g s e n : reachable g -> contains g None = false -> bfs_call n g s e = breadth_first_search n g s e.
Proof. intros R HN. pose proof (reachable_wf _ R) as W. unfold bfs_call, breadth_first_search. destruct (contains g s) eqn:Es; [|reflexivity]. destruct (contains g e) eqn:Ee; [|reflexivity]. cbn [negb].
  assert (s <> None) as Hs by (intros ->; congruence). assert (e <> None) as He by (intros ->; congruence).
  assert (forall m k d q, some_vals d -> (forall y, In y q -> y <> None) -> loop m (bfs_call_step g e k) (vmap d, q) = loop m (bfs_step g e k) (d, q)) as K.
  { intros m k. induction m as [|m IH]; intros d q Hd Hq; [reflexivity|]. cbn [loop]. unfold bfs_call_step at 1, bfs_step at 1. destruct q as [|x q]; [reflexivity|]. destruct (eq_dec x e) as [->|]; [exact (back_sim k d Hd (Some e) [] ltac:(intros ? Ex; injection Ex as <-; exact He))|].
    pose proof (Hq x (or_introl eq_refl)) as Hx. destruct x as [x|]; [|congruence]. unfold nodes_call. cbn [opt_count Nat.add Nat.ltb Nat.leb]. destruct (next_sim (Some x) (nodes_from g (Some x)) Hx d q Hd) as [-> N2]. rewrite (surjective_pairing (bfs_push (Some x) (nodes_from g (Some x)) d q)) at 3. apply IH; [exact N2|].
    apply (push_queue g); [|intros y Hy; apply Hq; right; exact Hy]. intros y Hy. apply (In_from g (Some x) y W) in Hy. destruct Hy as [v Hv]. apply (nodes_no_none g y HN). exact (proj2 (wf_ends _ W _ _ _ Hv)). }
  apply (K n n [(s, None)] [s]); [intros k v; cbn; destruct (eq_dec k s); discriminate|intros y [<-|[]]; exact Hs]. Qed.
End Props.
Section PropsZ.
Context {B O : Type} {EB : EqDec B}.
Notation node := (option B).
Implicit Types (g : graph node O Z).
Lemma relax_queue cost path vis (es : list (node * node * Z)) : forall q M i, (forall x, In x es -> snd (fst x) <> None) -> (forall x, In x q -> fst (snd x) <> None) ->
  forall x, In x (fst (fst (fold_left (sp_relax cost path vis) es (q, M, i)))) -> fst (snd x) <> None.
Proof. induction es as [|[[a y] v] es IH]; intros q M i He Hq; cbn [fold_left]; [exact Hq|]. assert (forall x, In x es -> snd (fst x) <> None) as He' by (intros x Hx; apply He; right; exact Hx). unfold sp_relax at 2. destruct (mem y vis); [apply IH; assumption|]. destruct (match dget y M with None => true | Some prev => (cost + v <? prev)%Z end); apply IH; auto. intros x [<-|Hx]; [exact (He (a, y, v) (or_introl eq_refl))|apply Hq, Hx]. Qed.
(** ... and shortest_path the function of C23 and C24 *)
Theorem C92_shortest_path_without_none g s e S n : reachable g -> contains g None = false -> sp_call n g s e S = shortest_path n g s e S.
Proof. intros R HN. pose proof (reachable_wf _ R) as W. unfold sp_call, shortest_path. destruct (contains g s) eqn:Es; [|reflexivity]. destruct (contains g e) eqn:Ee; [|reflexivity]. cbn [negb]. assert (s <> None) as Hs by (intros ->; congruence).
  assert (forall m q M i vis, (forall x, In x q -> fst (snd x) <> None) -> loop m (sp_call_step g e) (q, M, i, vis) = loop m (sp_step g e) (q, M, i, vis)) as K; [|apply K; intros x [<-|[]]; exact Hs].
  intros m. induction m as [|m IH]; intros q M i vis Hq; [reflexivity|]. cbn [loop]. unfold sp_call_step at 1, sp_step at 1. pose proof (heappop_spec q) as Hpop. destruct (heappop q) as [[[[cost j] [v1 path]] q1]|]; [|reflexivity]. destruct Hpop as [Hp _].
  assert (forall x, In x q1 -> fst (snd x) <> None) as Hq1 by (intros x Hx; apply Hq, (Permutation_in _ (Permutation_sym Hp)); right; exact Hx). assert (v1 <> None) as Hv by (apply (Hq (cost, j, (v1, path))), (Permutation_in _ (Permutation_sym Hp)); left; reflexivity).
  destruct (mem v1 vis); [apply IH, Hq1|]. destruct (eq_dec v1 e); [reflexivity|]. destruct v1 as [v1|]; [|congruence]. unfold edges_call. cbn [opt_count Nat.add Nat.ltb Nat.leb].
  pose proof (relax_queue cost (Some v1 :: path) (sadd (Some v1) vis) (edges_from g (Some v1)) q1 M i) as K. destruct (fold_left (sp_relax cost (Some v1 :: path) (sadd (Some v1) vis)) (edges_from g (Some v1)) (q1, M, i)) as [[q2 M2] i2]. cbn [fst] in K. apply IH, K; [|exact Hq1].
  intros [[a y] v] Hx. cbn [fst snd]. apply (In_edges_from g _ _ W) in Hx. destruct Hx as (y' & v' & E & Hv'). injection E as -> -> ->. apply (nodes_no_none g y' HN). exact (proj2 (wf_ends _ W _ _ _ Hv')). Qed.
End PropsZ.

(** *** with a node None *)
Definition ops_none : list (op (option nat) unit Z) := [OpAddEdge None (Some 1) 5%Z false; OpAddEdge (Some 1) (Some 2) 4%Z false; OpAddEdge (Some 2) None 1%Z false].
Definition g_none : graph (option nat) unit Z := ok_or empty_graph (run ops_none).
(** add_node takes any hashable, so None may be a node; but nodes(from_node=None) is every node and edges(from_node=None) every edge;
    shortest_path reports a shorter way along an edge that does not exist; breadth_first_search finds no way to None *)
Theorem C92_none_refuted : reachable g_none /\ nonneg g_none /\ contains g_none None = true /\
  nodes_call g_none None None None None = Ok [None; Some 1; Some 2] /\ (forall y, (exists v, edge g_none None y = Some v) <-> y = Some 1) /\
  edges_call g_none None None None = Ok [(None, Some 1, 5%Z); (Some 1, Some 2, 4%Z); (Some 2, None, 1%Z)] /\
  returns (fun n => sp_call n g_none None (Some 2) []) (Ok (Fin 4, [None; Some 2])) /\ edge g_none None (Some 2) = None /\ wpath (edge g_none) None [None; Some 1; Some 2] (Some 2) 9 /\
  returns (fun n => bfs_call n g_none (Some 2) None) (Ok []) /\ edge g_none (Some 2) None = Some 1%Z.
Proof. assert (reachable g_none) as R by (exists ops_none; vm_compute; reflexivity). splits; try (vm_compute; reflexivity); auto.
  - apply nonneg_check; [apply reachable_wf, R|vm_compute; reflexivity].
  - intros y. split; [intros [v E]|intros ->; exists 5%Z; vm_compute; reflexivity]. pose proof (proj2 (In_edges g_none None y v (reachable_wf _ R)) E) as K. assert (edges g_none = [(None, Some 1, 5%Z); (Some 1, Some 2, 4%Z); (Some 2, None, 1%Z)]) as Ee by (vm_compute; reflexivity). rewrite Ee in K. destruct K as [K|[K|[K|[]]]]; congruence.
  - refine (loop_returns_at (sp_call_step g_none (Some 2)) 10 _ _ _ _); [vm_compute; reflexivity|discriminate].
  - apply (wpath_cons _ None (Some 1) [Some 1; Some 2] (Some 2) 5 4); [vm_compute; reflexivity|]. apply (wpath_cons _ (Some 1) (Some 2) [Some 2] (Some 2) 4 0); [vm_compute; reflexivity|]. apply wpath_one.
  - split; [discriminate|]. split; [exists 2; intros [|[|n]] Hn; [lia|lia|vm_compute; reflexivity]|]. intros [|[|n]]; [left|left|right]; vm_compute; reflexivity. Qed.
(** the hypotheses of the theorems above are met by a graph with nodes and edges *)
Definition ops_plain : list (op (option nat) unit Z) := [OpAddEdge (Some 1) (Some 2) 4%Z false; OpAddEdge (Some 2) (Some 3) 1%Z true].
Definition g_plain : graph (option nat) unit Z := ok_or empty_graph (run ops_plain).
Example ex_plain : reachable g_plain /\ contains g_plain None = false /\ returns (fun n => sp_call n g_plain (Some 1) (Some 3) []) (Ok (Fin 5, [Some 1; Some 2; Some 3])) /\
  bfs_call 10 g_plain (Some 1) (Some 3) = Ok [Some 1; Some 2; Some 3] /\ nodes_call g_plain None (Some 2) None None = Ok [Some 1; Some 3].
Proof. assert (reachable g_plain) as R by (exists ops_plain; vm_compute; reflexivity). splits; try (vm_compute; reflexivity); [exact R|]. refine (loop_returns_at (sp_call_step g_plain (Some 3)) 10 _ _ _ _); [vm_compute; reflexivity|discriminate]. Qed.
