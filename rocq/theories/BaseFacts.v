(** Representation invariant of BasicGraph and its preservation; characterisation of the mutators. *)
From Verif Require Import Prelude PreludeFacts Base.

Section Facts.
Context {A O V : Type} {EA : EqDec A}.
Notation graph := (graph A O V).
Implicit Types (g : graph) (a b n x y : A) (v : V).

Record wf g : Prop := {
  wf_nodes : NoDup (nodes g);
  wf_e : nwf (g_edges g);
  wf_r : nwf (g_rev g);
  wf_mirror : forall a b, eget (g_edges g) a b = eget (g_rev g) b a;
  wf_ends : forall a b v, eget (g_edges g) a b = Some v -> In a (nodes g) /\ In b (nodes g);
  wf_out : forall n, deg (g_outdeg g) n = Z.of_nat (length (inner (g_edges g) n));
  wf_in : forall n, deg (g_indeg g) n = Z.of_nat (length (inner (g_rev g) n));
  wf_outk : incl (nodes g) (dkeys (g_outdeg g));
  wf_ink : incl (nodes g) (dkeys (g_indeg g));
  wf_ond : NoDup (dkeys (g_outdeg g));
  wf_ind : NoDup (dkeys (g_indeg g));
  wf_count : g_count g = Z.of_nat (tot (g_edges g)) }.

(** no entry of the degree dicts belongs to a node that is not in the graph *)
Definition clean g : Prop := dkeys (g_indeg g) = nodes g /\ dkeys (g_outdeg g) = nodes g.

Lemma wf_empty : wf empty_graph.
Proof. split; cbn; try constructor; try (intros; congruence); try (intros; reflexivity);
  try (cbn; constructor); try (cbn; congruence); try (intros ? []). Qed.
Lemma clean_empty : clean empty_graph.
Proof. split; reflexivity. Qed.

Lemma inner_nil_of (d : dict A (dict A V)) a : (forall b, eget d a b = None) -> inner d a = [].
Proof. intros H. destruct (inner d a) as [|[k v] o] eqn:E; [reflexivity|].
  specialize (H k). rewrite eget_inner, E in H. cbn in H. destruct (eq_dec k k); congruence. Qed.

Lemma wf_notin_out g n : wf g -> ~ In n (nodes g) -> inner (g_edges g) n = [].
Proof. intros W H. apply inner_nil_of. intros b. destruct (eget (g_edges g) n b) eqn:E; [|reflexivity].
  apply (wf_ends _ W) in E. tauto. Qed.
Lemma wf_notin_in g n : wf g -> ~ In n (nodes g) -> inner (g_rev g) n = [].
Proof. intros W H. apply inner_nil_of. intros b. destruct (eget (g_rev g) n b) eqn:E; [|reflexivity].
  rewrite <- (wf_mirror _ W) in E. apply (wf_ends _ W) in E. tauto. Qed.

Lemma deg_dset d n x (z : Z) : deg (dset n z d) x = if eq_dec x n then z else deg d x.
Proof. unfold deg. rewrite dget_dset. destruct (eq_dec x n); reflexivity. Qed.
Lemma deg_ddel d n x : NoDup (dkeys d) -> deg (ddel n d) x = if eq_dec x n then 0%Z else deg d x.
Proof. intros H. unfold deg. rewrite dget_ddel by exact H. destruct (eq_dec x n); reflexivity. Qed.

(** ** add_node *)
Lemma nodes_add_node g n o : nodes (add_node g n o) = sadd n (nodes g).
Proof. unfold add_node, nodes. destruct (dmem n (g_nodes g)) eqn:E; cbn [g_nodes]; apply dkeys_dset_sadd. Qed.
Lemma add_node_edges g n o : g_edges (add_node g n o) = g_edges g.
Proof. unfold add_node. destruct (dmem n (g_nodes g)); reflexivity. Qed.
Lemma add_node_rev g n o : g_rev (add_node g n o) = g_rev g.
Proof. unfold add_node. destruct (dmem n (g_nodes g)); reflexivity. Qed.
Lemma add_node_count g n o : g_count (add_node g n o) = g_count g.
Proof. unfold add_node. destruct (dmem n (g_nodes g)); reflexivity. Qed.
Lemma add_node_nodes g n o : g_nodes (add_node g n o) = dset n o (g_nodes g).
Proof. unfold add_node. destruct (dmem n (g_nodes g)); reflexivity. Qed.
Lemma node_add_node g n o x : node (add_node g n o) x = if eq_dec x n then o else node g x.
Proof. unfold node. rewrite add_node_nodes, dget_dset. destruct (eq_dec x n); reflexivity. Qed.
Lemma edge_add_node g n o x y : edge (add_node g n o) x y = edge g x y.
Proof. unfold edge. rewrite add_node_edges. reflexivity. Qed.

Lemma wf_add_node g n o : wf g -> wf (add_node g n o).
Proof. intros W. split.
  - rewrite nodes_add_node. apply NoDup_sadd, W.
  - rewrite add_node_edges. apply W.
  - rewrite add_node_rev. apply W.
  - intros a b. rewrite add_node_edges, add_node_rev. apply W.
  - intros a b v. rewrite add_node_edges, nodes_add_node, !In_sadd. intros H. apply (wf_ends _ W) in H. tauto.
  - intros x. rewrite add_node_edges. unfold add_node. destruct (dmem n (g_nodes g)) eqn:E; cbn [g_outdeg]; [apply W|].
    rewrite deg_dset. destruct (eq_dec x n) as [->|]; [|apply W].
    apply dmem_nokey in E. rewrite wf_notin_out; [reflexivity|exact W|exact E].
  - intros x. rewrite add_node_rev. unfold add_node. destruct (dmem n (g_nodes g)) eqn:E; cbn [g_indeg]; [apply W|].
    rewrite deg_dset. destruct (eq_dec x n) as [->|]; [|apply W].
    apply dmem_nokey in E. rewrite wf_notin_in; [reflexivity|exact W|exact E].
  - rewrite nodes_add_node. unfold add_node. destruct (dmem n (g_nodes g)) eqn:E; cbn [g_outdeg]; intros x.
    + apply dmem_key in E. rewrite In_sadd. intros [->|H]; apply (wf_outk _ W); assumption.
    + rewrite In_dkeys_dset, In_sadd. intros [->|H]; [auto|right; apply (wf_outk _ W), H].
  - rewrite nodes_add_node. unfold add_node. destruct (dmem n (g_nodes g)) eqn:E; cbn [g_indeg]; intros x.
    + apply dmem_key in E. rewrite In_sadd. intros [->|H]; apply (wf_ink _ W); assumption.
    + rewrite In_dkeys_dset, In_sadd. intros [->|H]; [auto|right; apply (wf_ink _ W), H].
  - unfold add_node. destruct (dmem n (g_nodes g)); cbn [g_outdeg]; [apply W|apply NoDup_dset, W].
  - unfold add_node. destruct (dmem n (g_nodes g)); cbn [g_indeg]; [apply W|apply NoDup_dset, W].
  - rewrite add_node_count, add_node_edges. apply W. Qed.

Lemma clean_add_node g n o : clean g -> clean (add_node g n o).
Proof. intros [C1 C2]. unfold clean. rewrite nodes_add_node. unfold add_node.
  destruct (dmem n (g_nodes g)) eqn:E; cbn [g_indeg g_outdeg].
  - assert (sadd n (nodes g) = nodes g) as -> by (unfold sadd; unfold dmem in E; unfold nodes; rewrite E; reflexivity).
    split; assumption.
  - rewrite !dkeys_dset_sadd, C1, C2. split; reflexivity. Qed.

(** ** add_edge *)
(** the two implicit add_node calls *)
Definition ensure g n : graph := if dmem n (g_nodes g) then g else add_node g n None.
Lemma wf_ensure g n : wf g -> wf (ensure g n).
Proof. unfold ensure. destruct (dmem n (g_nodes g)); [auto|apply wf_add_node]. Qed.
Lemma clean_ensure g n : clean g -> clean (ensure g n).
Proof. unfold ensure. destruct (dmem n (g_nodes g)); [auto|apply clean_add_node]. Qed.
Lemma nodes_ensure g n : nodes (ensure g n) = sadd n (nodes g).
Proof. unfold ensure. destruct (dmem n (g_nodes g)) eqn:E; [|apply nodes_add_node].
  unfold sadd. unfold dmem in E. unfold nodes. rewrite E. reflexivity. Qed.
Lemma ensure_edges g n : g_edges (ensure g n) = g_edges g.
Proof. unfold ensure. destruct (dmem n (g_nodes g)); [reflexivity|apply add_node_edges]. Qed.
Lemma ensure_rev g n : g_rev (ensure g n) = g_rev g.
Proof. unfold ensure. destruct (dmem n (g_nodes g)); [reflexivity|apply add_node_rev]. Qed.
Lemma ensure_count g n : g_count (ensure g n) = g_count g.
Proof. unfold ensure. destruct (dmem n (g_nodes g)); [reflexivity|apply add_node_count]. Qed.
Lemma node_ensure g n x : node (ensure g n) x = node g x.
Proof. unfold ensure. destruct (dmem n (g_nodes g)) eqn:E; [reflexivity|]. rewrite node_add_node.
  destruct (eq_dec x n) as [->|]; [|reflexivity]. unfold node. apply dmem_nokey, dget_None in E. rewrite E. reflexivity. Qed.

Definition is_some {X} (o : option X) : bool := match o with Some _ => true | None => false end.

(** the effect of add_edge1 on a well formed graph, in closed form *)
Definition add_edge1_result g a b v : graph :=
  let g2 := ensure (ensure g a) b in
  let isnew := negb (is_some (eget (g_edges g) a b)) in
  mkG (g_nodes g2) (nset a b v (g_edges g)) (if isnew then g_count g + 1 else g_count g)%Z (nset b a v (g_rev g))
      (if isnew then dset b (deg (g_indeg g2) b + 1)%Z (g_indeg g2) else g_indeg g2)
      (if isnew then dset a (deg (g_outdeg g2) a + 1)%Z (g_outdeg g2) else g_outdeg g2).

Lemma add_edge1_eq g a b v : wf g -> add_edge1 g a b v = Ok (add_edge1_result g a b v).
Proof. intros W. unfold add_edge1, add_edge1_result.
  change (if dmem a (g_nodes g) then g else add_node g a None) with (ensure g a). cbn zeta.
  change (if dmem b (g_nodes (ensure g a)) then ensure g a else add_node (ensure g a) b None) with (ensure (ensure g a) b).
  set (g2 := ensure (ensure g a) b).
  assert (wf g2) as W2 by (apply wf_ensure, wf_ensure, W).
  assert (g_edges g2 = g_edges g) as He by (unfold g2; rewrite !ensure_edges; reflexivity).
  assert (g_rev g2 = g_rev g) as Hr by (unfold g2; rewrite !ensure_rev; reflexivity).
  assert (g_count g2 = g_count g) as Hc by (unfold g2; rewrite !ensure_count; reflexivity).
  rewrite He, Hr, Hc. destruct (eget (g_edges g) a b) as [w|] eqn:E; cbn [is_some negb].
  - pose proof E as E'. rewrite (wf_mirror _ W) in E'. unfold eget in E'.
    destruct (dget b (g_rev g)) as [inn|] eqn:Er; [|congruence].
    unfold nset. f_equal. f_equal. unfold inner. rewrite Er. reflexivity.
  - f_equal. f_equal.
    + unfold nset, inner. destruct (dget a (g_edges g)); reflexivity.
    + unfold nset, inner. destruct (dget b (g_rev g)); reflexivity. Qed.

Lemma mem_inner_eget (d : dict A (dict A V)) a b : mem b (dkeys (inner d a)) = is_some (eget d a b).
Proof. rewrite eget_inner. change (mem b (dkeys (inner d a))) with (dmem b (inner d a)). rewrite dmem_dget.
  destruct (dget b (inner d a)); reflexivity. Qed.

Lemma wf_add_edge1_result g a b v : wf g -> wf (add_edge1_result g a b v).
Proof. intros W. unfold add_edge1_result. cbn zeta.
  set (g2 := ensure (ensure g a) b).
  assert (wf g2) as W2 by (apply wf_ensure, wf_ensure, W).
  assert (g_edges g2 = g_edges g) as He by (unfold g2; rewrite !ensure_edges; reflexivity).
  assert (g_rev g2 = g_rev g) as Hr by (unfold g2; rewrite !ensure_rev; reflexivity).
  assert (nodes g2 = sadd b (sadd a (nodes g))) as Hn by (unfold g2; rewrite !nodes_ensure; reflexivity).
  set (isnew := negb (is_some (eget (g_edges g) a b))).
  split; unfold nodes in *; cbn [g_nodes g_edges g_rev g_count g_indeg g_outdeg].
  - apply W2.
  - apply nwf_nset, W.
  - apply nwf_nset, W.
  - intros x y. rewrite !eget_nset. rewrite (wf_mirror _ W x y).
    destruct (eq_dec x a), (eq_dec y b); reflexivity.
  - intros x y w. rewrite eget_nset. fold (nodes g2) in *. rewrite Hn, !In_sadd.
    destruct (eq_dec x a) as [->|]; [destruct (eq_dec y b) as [->|]|].
    + intros _. auto.
    + intros H. apply (wf_ends _ W) in H. unfold nodes in H. tauto.
    + intros H. apply (wf_ends _ W) in H. unfold nodes in H. tauto.
  - intros x. rewrite inner_nset.
    pose proof (wf_out _ W2 x) as Hx. rewrite He in *.
    unfold isnew. rewrite <- (mem_inner_eget (g_edges g) a b).
    destruct (mem b (dkeys (inner (g_edges g) a))) eqn:Em; cbn [negb].
    + destruct (eq_dec x a) as [->|]; [|exact Hx]. rewrite length_dset, Em. exact Hx.
    + rewrite deg_dset. destruct (eq_dec x a) as [->|]; [|exact Hx]. rewrite length_dset, Em. lia.
  - intros x. rewrite inner_nset. pose proof (wf_in _ W2 x) as Hx. rewrite Hr in *.
    unfold isnew. rewrite (wf_mirror _ W a b), <- (mem_inner_eget (g_rev g) b a).
    destruct (mem a (dkeys (inner (g_rev g) b))) eqn:Em; cbn [negb].
    + destruct (eq_dec x b) as [->|]; [|exact Hx]. rewrite length_dset, Em. exact Hx.
    + rewrite deg_dset. destruct (eq_dec x b) as [->|]; [|exact Hx]. rewrite length_dset, Em. lia.
  - intros x Hx. apply (wf_outk _ W2) in Hx. destruct isnew; [|exact Hx]. rewrite In_dkeys_dset. auto.
  - intros x Hx. apply (wf_ink _ W2) in Hx. destruct isnew; [|exact Hx]. rewrite In_dkeys_dset. auto.
  - destruct isnew; [apply NoDup_dset|]; apply W2.
  - destruct isnew; [apply NoDup_dset|]; apply W2.
  - rewrite tot_nset, mem_inner_eget. unfold isnew. rewrite (wf_count _ W).
    destruct (is_some (eget (g_edges g) a b)); cbn [negb]; lia. Qed.

Lemma nodes_add_edge1_result g a b v : nodes (add_edge1_result g a b v) = sadd b (sadd a (nodes g)).
Proof. unfold add_edge1_result, nodes. cbn [g_nodes]. fold (nodes (ensure (ensure g a) b)).
  rewrite !nodes_ensure. reflexivity. Qed.
Lemma node_add_edge1_result g a b v x : node (add_edge1_result g a b v) x = node g x.
Proof. unfold add_edge1_result. unfold node at 1. cbn [g_nodes]. fold (node (ensure (ensure g a) b) x).
  rewrite !node_ensure. reflexivity. Qed.
Lemma edge_add_edge1_result g a b v x y :
  edge (add_edge1_result g a b v) x y =
  if eq_dec x a then (if eq_dec y b then Some v else edge g x y) else edge g x y.
Proof. unfold edge, add_edge1_result. cbn [g_edges]. apply eget_nset. Qed.
Lemma sadd_in (x : A) s : In x s -> sadd x s = s.
Proof. intros H. unfold sadd. apply mem_In in H. rewrite H. reflexivity. Qed.
Lemma clean_add_edge1_result g a b v : clean g -> clean (add_edge1_result g a b v).
Proof. intros C. assert (clean (ensure (ensure g a) b)) as [C1 C2] by (apply clean_ensure, clean_ensure, C).
  unfold clean. rewrite nodes_add_edge1_result. unfold add_edge1_result. cbn [g_indeg g_outdeg].
  rewrite <- nodes_ensure, <- nodes_ensure.
  destruct (negb _); [|split; assumption]. rewrite !dkeys_dset_sadd, C1, C2.
  rewrite !nodes_ensure. split; rewrite sadd_in; auto; rewrite !In_sadd; auto. Qed.

Definition add_edge_result g a b v bi : graph :=
  let g1 := add_edge1_result g a b v in if (bi : bool) then add_edge1_result g1 b a v else g1.
Lemma add_edge_eq g a b v bi : wf g -> add_edge g a b v bi = Ok (add_edge_result g a b v bi).
Proof. intros W. unfold add_edge. rewrite add_edge1_eq by exact W. cbn [bind].
  destruct bi; [|reflexivity]. rewrite add_edge1_eq; [reflexivity|]. apply wf_add_edge1_result, W. Qed.
Lemma wf_add_edge_result g a b v bi : wf g -> wf (add_edge_result g a b v bi).
Proof. intros W. unfold add_edge_result. destruct bi; repeat apply wf_add_edge1_result; exact W. Qed.
Lemma clean_add_edge_result g a b v bi : clean g -> clean (add_edge_result g a b v bi).
Proof. intros W. unfold add_edge_result. destruct bi; repeat apply clean_add_edge1_result; exact W. Qed.

(** ** del_edge *)
Definition del_edge_result g a b : graph :=
  if is_some (edge g a b) then
    mkG (g_nodes g) (ndel a b (g_edges g)) (g_count g - 1)%Z (ndel b a (g_rev g))
        (dset b (deg (g_indeg g) b - 1)%Z (g_indeg g)) (dset a (deg (g_outdeg g) a - 1)%Z (g_outdeg g))
  else g.

Lemma del_edge_eq g a b : wf g -> del_edge g a b = Ok (del_edge_result g a b).
Proof. intros W. unfold del_edge, del_edge_result, edge.
  pose proof (wf_mirror _ W a b) as M. unfold eget in *.
  destruct (dget a (g_edges g)) as [out|] eqn:Ea; [|reflexivity].
  destruct (dget b out) as [w|] eqn:Eb; [|reflexivity]. cbn [is_some].
  destruct (dget b (g_rev g)) as [inn|] eqn:Er; [|congruence].
  rewrite <- M. f_equal. f_equal.
  - unfold ndel, inner. rewrite Ea. cbn zeta. destruct (is_nil (ddel b out)); [|reflexivity].
    apply ddel_dset_same, W.
  - unfold ndel, inner. rewrite Er. cbn zeta. destruct (is_nil (ddel a inn)); [|reflexivity].
    apply ddel_dset_same, W. Qed.

Lemma nodes_del_edge_result g a b : nodes (del_edge_result g a b) = nodes g.
Proof. unfold del_edge_result. destruct (is_some _); reflexivity. Qed.
Lemma g_nodes_del_edge_result g a b : g_nodes (del_edge_result g a b) = g_nodes g.
Proof. unfold del_edge_result. destruct (is_some _); reflexivity. Qed.
Lemma node_del_edge_result g a b x : node (del_edge_result g a b) x = node g x.
Proof. unfold node. rewrite g_nodes_del_edge_result. reflexivity. Qed.
Lemma edge_del_edge_result g a b x y : wf g ->
  edge (del_edge_result g a b) x y =
  if eq_dec x a then (if eq_dec y b then None else edge g x y) else edge g x y.
Proof. intros W. unfold del_edge_result. destruct (is_some (edge g a b)) eqn:E.
  - unfold edge. cbn [g_edges]. apply eget_ndel, W.
  - destruct (eq_dec x a) as [->|]; [|reflexivity]. destruct (eq_dec y b) as [->|]; [|reflexivity].
    destruct (edge g a b); [discriminate|reflexivity]. Qed.

Lemma wf_del_edge_result g a b : wf g -> wf (del_edge_result g a b).
Proof. intros W. pose proof (edge_del_edge_result g a b) as HE. unfold del_edge_result in *.
  destruct (is_some (edge g a b)) eqn:E; [|exact W].
  assert (exists w, eget (g_edges g) a b = Some w) as [w Hw]
    by (unfold edge in E; destruct (eget (g_edges g) a b); [eauto|discriminate]).
  destruct (wf_ends _ W _ _ _ Hw) as [Ha Hb].
  assert (mem b (dkeys (inner (g_edges g) a)) = true) as Hm1 by (rewrite mem_inner_eget, Hw; reflexivity).
  assert (mem a (dkeys (inner (g_rev g) b)) = true) as Hm2
    by (rewrite mem_inner_eget, <- (wf_mirror _ W), Hw; reflexivity).
  assert (forall (l : dict A V) k, mem k (dkeys l) = true -> 0 < length l) as Hpos
    by (intros [|? ?] ?; cbn; [congruence|lia]).
  split; unfold nodes; cbn [g_nodes g_edges g_rev g_count g_indeg g_outdeg].
  - apply W.
  - apply nwf_ndel, W.
  - apply nwf_ndel, W.
  - intros x y. rewrite !eget_ndel by apply W. rewrite (wf_mirror _ W x y).
    destruct (eq_dec x a), (eq_dec y b); reflexivity.
  - intros x y u. specialize (HE x y W). unfold edge in HE; cbn [g_edges] in HE. rewrite HE.
    destruct (eq_dec x a); [destruct (eq_dec y b)|]; [discriminate| |]; apply (wf_ends _ W).
  - intros x. rewrite inner_ndel by apply W. rewrite deg_dset.
    destruct (eq_dec x a) as [->|]; [|apply W]. rewrite length_ddel, Hm1, (wf_out _ W).
    specialize (Hpos _ _ Hm1). lia.
  - intros x. rewrite inner_ndel by apply W. rewrite deg_dset.
    destruct (eq_dec x b) as [->|]; [|apply W]. rewrite length_ddel, Hm2, (wf_in _ W).
    specialize (Hpos _ _ Hm2). lia.
  - intros x Hx. rewrite In_dkeys_dset. right. apply (wf_outk _ W), Hx.
  - intros x Hx. rewrite In_dkeys_dset. right. apply (wf_ink _ W), Hx.
  - apply NoDup_dset, W.
  - apply NoDup_dset, W.
  - apply mem_In in Hm1. pose proof (tot_ndel _ _ _ Hm1). rewrite (wf_count _ W). lia. Qed.

Lemma clean_del_edge_result g a b : wf g -> clean g -> clean (del_edge_result g a b).
Proof. intros W [C1 C2]. unfold clean. rewrite nodes_del_edge_result. unfold del_edge_result.
  destruct (is_some (edge g a b)) eqn:E; [|split; assumption]. cbn [g_indeg g_outdeg].
  unfold edge in E. destruct (eget (g_edges g) a b) as [w|] eqn:Hw; [|discriminate].
  destruct (wf_ends _ W _ _ _ Hw) as [Ha Hb].
  rewrite !dkeys_dset_sadd, C1, C2. split; apply sadd_in; assumption. Qed.

(** ** del_node *)
Lemma foldM_del_edge (f : graph -> A -> res graph) (src dst : A -> A) (l : list A) : 
  (forall g x, f g x = del_edge g (src x) (dst x)) ->
  forall g, wf g -> exists g', foldM f l g = Ok g' /\ wf g' /\ (clean g -> clean g') /\ g_nodes g' = g_nodes g /\
    forall x y, edge g' x y = if mem (x, y) (map (fun z => (src z, dst z)) l) then None else edge g x y.
Proof. intros Hf. induction l as [|z l IH]; intros g W; cbn [foldM map].
  - exists g. splits; auto.
  - rewrite Hf, del_edge_eq by exact W. cbn [bind].
    destruct (IH _ (wf_del_edge_result g (src z) (dst z) W)) as (g' & -> & W' & C' & N' & E').
    exists g'. splits; auto.
    + intros C. apply C', clean_del_edge_result; assumption.
    + rewrite N', g_nodes_del_edge_result. reflexivity.
    + intros x y. rewrite E', edge_del_edge_result by exact W. cbn [mem].
      destruct (eq_dec (x, y) (src z, dst z)) as [e|n].
      * inv e. destruct (mem _ _); [reflexivity|].
        destruct (eq_dec (src z) (src z)); [|congruence]. destruct (eq_dec (dst z) (dst z)); congruence.
      * destruct (mem _ _); [reflexivity|]. destruct (eq_dec x (src z)) as [->|]; [|reflexivity].
        destruct (eq_dec y (dst z)) as [->|]; congruence. Qed.

Lemma wf_deg_zero_out g n : wf g -> deg (g_outdeg g) n = 0%Z -> inner (g_edges g) n = [].
Proof. intros W H. rewrite (wf_out _ W) in H. destruct (inner (g_edges g) n); [reflexivity|cbn in H; lia]. Qed.
Lemma wf_deg_zero_in g n : wf g -> deg (g_indeg g) n = 0%Z -> inner (g_rev g) n = [].
Proof. intros W H. rewrite (wf_in _ W) in H. destruct (inner (g_rev g) n); [reflexivity|cbn in H; lia]. Qed.

Lemma del_node_spec g n : wf g ->
  exists g', del_node g n = Ok g' /\ wf g' /\ (clean g -> clean g') /\
    g_nodes g' = ddel n (g_nodes g) /\
    (forall x y, edge g' x y = if eq_dec x n then None else if eq_dec y n then None else edge g x y).
Proof. intros W. unfold del_node. destruct (dmem n (g_nodes g)) eqn:En; cbn [negb].
  2: { exists g. apply dmem_nokey in En. splits; auto.
       - rewrite ddel_notin; auto.
       - intros x y. destruct (edge g x y) as [w|] eqn:E.
         + apply (wf_ends _ W) in E as [Hx Hy]. destruct (eq_dec x n) as [->|]; [tauto|].
           destruct (eq_dec y n) as [->|]; [tauto|reflexivity].
         + destruct (eq_dec x n), (eq_dec y n); reflexivity. }
  (* outgoing *)
  assert (exists g1, (if (deg (g_outdeg g) n =? 0)%Z then Ok g else
           match dget n (g_edges g) with
           | None => Err KeyError
           | Some out => foldM (fun g n2 => del_edge g n n2) (dkeys out) g
           end) = Ok g1 /\ wf g1 /\ (clean g -> clean g1) /\ g_nodes g1 = g_nodes g /\
           forall x y, edge g1 x y = if eq_dec x n then None else edge g x y) as (g1 & -> & W1 & C1 & N1 & E1).
  { destruct (Z.eqb_spec (deg (g_outdeg g) n) 0) as [Hz|Hz].
    - exists g. splits; auto. intros x y. destruct (eq_dec x n) as [->|]; [|reflexivity].
      unfold edge. rewrite eget_inner, (wf_deg_zero_out g n W Hz). reflexivity.
    - assert (dget n (g_edges g) <> None) as Hne.
      { intros E. apply Hz. rewrite (wf_out _ W). unfold inner. rewrite E. reflexivity. }
      destruct (dget n (g_edges g)) as [out|] eqn:Eo; [|congruence].
      destruct (foldM_del_edge (fun g n2 => del_edge g n n2) (fun _ => n) (fun z => z) (dkeys out)
                  (fun _ _ => eq_refl) g W) as (g1 & H1 & W1 & C1 & N1 & E1).
      exists g1. splits; auto. intros x y. rewrite E1. destruct (eq_dec x n) as [->|Hx].
      + destruct (mem_spec (n, y) (map (fun z => (n, z)) (dkeys out))) as [Hm|Hm]; [reflexivity|].
        unfold edge, eget. rewrite Eo. apply dget_None. intros Hk. apply Hm. apply in_map_iff. eauto.
      + destruct (mem_spec (x, y) (map (fun z => (n, z)) (dkeys out))) as [Hm|Hm]; [|reflexivity].
        apply in_map_iff in Hm as (z & Hz' & _). congruence. }
  cbn [bind].
  assert (exists g2, (if (deg (g_indeg g1) n =? 0)%Z then Ok g1 else
           match dget n (g_rev g1) with
           | None => Err KeyError
           | Some inn => foldM (fun g n1 => del_edge g n1 n) (dkeys inn) g1
           end) = Ok g2 /\ wf g2 /\ (clean g1 -> clean g2) /\ g_nodes g2 = g_nodes g1 /\
           forall x y, edge g2 x y = if eq_dec y n then None else edge g1 x y) as (g2 & -> & W2 & C2 & N2 & E2).
  { destruct (Z.eqb_spec (deg (g_indeg g1) n) 0) as [Hz|Hz].
    - exists g1. splits; auto. intros x y. destruct (eq_dec y n) as [->|]; [|reflexivity].
      unfold edge. rewrite (wf_mirror _ W1), eget_inner, (wf_deg_zero_in g1 n W1 Hz). reflexivity.
    - assert (dget n (g_rev g1) <> None) as Hne.
      { intros E. apply Hz. rewrite (wf_in _ W1). unfold inner. rewrite E. reflexivity. }
      destruct (dget n (g_rev g1)) as [inn|] eqn:Eo; [|congruence].
      destruct (foldM_del_edge (fun g n1 => del_edge g n1 n) (fun z => z) (fun _ => n) (dkeys inn)
                  (fun _ _ => eq_refl) g1 W1) as (g2 & H2 & W2 & C2 & N2 & E2).
      exists g2. splits; auto. intros x y. rewrite E2. destruct (eq_dec y n) as [->|Hy].
      + destruct (mem_spec (x, n) (map (fun z => (z, n)) (dkeys inn))) as [Hm|Hm]; [reflexivity|].
        unfold edge. rewrite (wf_mirror _ W1). unfold eget. rewrite Eo. apply dget_None. intros Hk.
        apply Hm. apply in_map_iff. eauto.
      + destruct (mem_spec (x, y) (map (fun z => (z, n)) (dkeys inn))) as [Hm|Hm]; [|reflexivity].
        apply in_map_iff in Hm as (z & Hz' & _). congruence. }
  cbn [bind].
  assert (forall x y, edge g2 x y = if eq_dec x n then None else if eq_dec y n then None else edge g x y) as E.
  { intros x y. rewrite E2, E1. destruct (eq_dec x n), (eq_dec y n); reflexivity. }
  assert (inner (g_edges g2) n = []) as Io.
  { apply inner_nil_of. intros b. fold (edge g2 n b). rewrite E. destruct (eq_dec n n); congruence. }
  assert (inner (g_rev g2) n = []) as Ii.
  { apply inner_nil_of. intros b. rewrite <- (wf_mirror _ W2). fold (edge g2 b n). rewrite E.
    destruct (eq_dec b n), (eq_dec n n); congruence. }
  assert (ddel n (g_edges g2) = g_edges g2) as De.
  { apply ddel_notin. rewrite (nwf_key_inner _ n (wf_e _ W2)). tauto. }
  assert (ddel n (g_rev g2) = g_rev g2) as Dr.
  { apply ddel_notin. rewrite (nwf_key_inner _ n (wf_r _ W2)). tauto. }
  eexists. split; [reflexivity|]. rewrite De, Dr. split; [|split; [|split]].
  - split; unfold nodes; cbn [g_nodes g_edges g_rev g_count g_indeg g_outdeg].
    + apply NoDup_ddel, W2.
    + apply W2.
    + apply W2.
    + apply W2.
    + intros x y v Hv. rewrite !In_dkeys_ddel by apply W2. pose proof (wf_ends _ W2 _ _ _ Hv) as [Hx Hy].
      fold (edge g2 x y) in Hv. rewrite E in Hv. destruct (eq_dec x n), (eq_dec y n); try discriminate. auto.
    + intros x. rewrite deg_ddel by apply W2. destruct (eq_dec x n) as [->|]; [|apply W2]. rewrite Io. reflexivity.
    + intros x. rewrite deg_ddel by apply W2. destruct (eq_dec x n) as [->|]; [|apply W2]. rewrite Ii. reflexivity.
    + intros x. rewrite !In_dkeys_ddel by apply W2. intros [Hx Hne]. split; [apply (wf_outk _ W2), Hx|exact Hne].
    + intros x. rewrite !In_dkeys_ddel by apply W2. intros [Hx Hne]. split; [apply (wf_ink _ W2), Hx|exact Hne].
    + apply NoDup_ddel, W2.
    + apply NoDup_ddel, W2.
    + apply W2.
  - intros C. destruct (C2 (C1 C)) as [Ca Cb]. unfold clean, nodes. cbn [g_nodes g_indeg g_outdeg].
    rewrite !dkeys_ddel, Ca, Cb. split; reflexivity.
  - cbn [g_nodes]. rewrite N2, N1. reflexivity.
  - intros x y. rewrite <- E. reflexivity. Qed.

(** ** degree reads *)
Lemma wf_in_degree g n : wf g -> wf (snd (in_degree g n)).
Proof. intros W. unfold in_degree. destruct (dget n (g_indeg g)) eqn:E; [exact W|]. cbn [snd].
  split; cbn [g_nodes g_edges g_rev g_count g_indeg g_outdeg]; try apply W.
  - intros x. rewrite deg_dset. destruct (eq_dec x n) as [->|]; [|apply W].
    pose proof (wf_in _ W n) as H. unfold deg in H. rewrite E in H. exact H.
  - intros x Hx. rewrite In_dkeys_dset. right. apply (wf_ink _ W), Hx.
  - apply NoDup_dset, W. Qed.
Lemma wf_out_degree g n : wf g -> wf (snd (out_degree g n)).
Proof. intros W. unfold out_degree. destruct (dget n (g_outdeg g)) eqn:E; [exact W|]. cbn [snd].
  split; cbn [g_nodes g_edges g_rev g_count g_indeg g_outdeg]; try apply W.
  - intros x. rewrite deg_dset. destruct (eq_dec x n) as [->|]; [|apply W].
    pose proof (wf_out _ W n) as H. unfold deg in H. rewrite E in H. exact H.
  - intros x Hx. rewrite In_dkeys_dset. right. apply (wf_outk _ W), Hx.
  - apply NoDup_dset, W. Qed.
Lemma in_degree_node g n : wf g -> In n (nodes g) ->
  in_degree g n = (Z.of_nat (length (nodes_to g n)), g).
Proof. intros W H. unfold in_degree. apply (wf_ink _ W) in H. apply dget_key in H as [z Hz]. rewrite Hz.
  pose proof (wf_in _ W n) as Hd. unfold deg in Hd. rewrite Hz in Hd. subst. unfold nodes_to.
  rewrite dkeys_length. reflexivity. Qed.
Lemma out_degree_node g n : wf g -> In n (nodes g) ->
  out_degree g n = (Z.of_nat (length (nodes_from g n)), g).
Proof. intros W H. unfold out_degree. apply (wf_outk _ W) in H. apply dget_key in H as [z Hz]. rewrite Hz.
  pose proof (wf_out _ W n) as Hd. unfold deg in Hd. rewrite Hz in Hd. subst. unfold nodes_from.
  rewrite dkeys_length. reflexivity. Qed.

(** ** histories *)
Definition wfc (c : bool) g : Prop := wf g /\ (c = true -> clean g).

Lemma from_dict_inv c g d : wfc c g -> exists g', from_dict g d = Ok g' /\ wfc c g'.
Proof. intros W. unfold from_dict. apply (foldM_inv (wfc c)); [exact W|].
  intros s [n e] [Ws Cs] _. cbn [fst snd]. destruct (is_nil e).
  - eexists. split; [reflexivity|]. split; [apply wf_add_node, Ws|intros ->; apply clean_add_node, Cs; reflexivity].
  - apply (foldM_inv (wfc c)); [split; assumption|]. intros s0 [n2 v] [W0 C0] _. cbn [fst snd].
    rewrite add_edge_eq by exact W0. eexists. split; [reflexivity|].
    split; [apply wf_add_edge_result, W0|intros ->; apply clean_add_edge_result, C0; reflexivity]. Qed.
Lemma add_link_inv c g l : wfc c g -> exists g', add_link g l = Ok g' /\ wfc c g'.
Proof. intros [W C]. destruct l as [a b v|a b v bi|n]; cbn.
  - rewrite add_edge_eq by exact W. eexists; split; [reflexivity|].
    split; [apply wf_add_edge_result, W|intros ->; apply clean_add_edge_result, C; reflexivity].
  - rewrite add_edge_eq by exact W. eexists; split; [reflexivity|].
    split; [apply wf_add_edge_result, W|intros ->; apply clean_add_edge_result, C; reflexivity].
  - eexists; split; [reflexivity|].
    split; [apply wf_add_node, W|intros ->; apply clean_add_node, C; reflexivity]. Qed.
Lemma from_list_inv c g l : wfc c g -> exists g', from_list g l = Ok g' /\ wfc c g'.
Proof. intros W. unfold from_list. apply (foldM_inv (wfc c)); [exact W|]. intros s x Hs _. apply add_link_inv, Hs. Qed.

Lemma step_wf g o : wf g -> exists g', step g o = Ok g' /\ wf g'.
Proof. intros W. destruct o as [n o|a b v bi|a b|n|d|l|n|n]; cbn.
  - eexists; split; [reflexivity|apply wf_add_node, W].
  - rewrite add_edge_eq by exact W. eexists; split; [reflexivity|apply wf_add_edge_result, W].
  - rewrite del_edge_eq by exact W. eexists; split; [reflexivity|apply wf_del_edge_result, W].
  - destruct (del_node_spec g n W) as (g' & -> & W' & _). eauto.
  - destruct (from_dict_inv false g d) as (g' & -> & [W' _]); [split; [exact W|discriminate]|eauto].
  - destruct (from_list_inv false g l) as (g' & -> & [W' _]); [split; [exact W|discriminate]|eauto].
  - eexists; split; [reflexivity|apply wf_in_degree, W].
  - eexists; split; [reflexivity|apply wf_out_degree, W]. Qed.

Lemma run_wf ops : exists g, run ops = Ok g /\ wf g.
Proof. unfold run. apply (foldM_inv wf); [apply wf_empty|]. intros s x Hs _. apply step_wf, Hs. Qed.

(** an operation that is not a degree read of an absent node *)
Definition no_ghost_read g (o : op A O V) : Prop :=
  match o with OpInDegree n | OpOutDegree n => In n (nodes g) | _ => True end.
Lemma step_clean g o : wf g -> clean g -> no_ghost_read g o -> exists g', step g o = Ok g' /\ wf g' /\ clean g'.
Proof. intros W C Hg. destruct o as [n o|a b v bi|a b|n|d|l|n|n]; cbn in *.
  - eexists; split; [reflexivity|split; [apply wf_add_node, W|apply clean_add_node, C]].
  - rewrite add_edge_eq by exact W. eexists; split; [reflexivity|split; [apply wf_add_edge_result, W|apply clean_add_edge_result, C]].
  - rewrite del_edge_eq by exact W. eexists; split; [reflexivity|split; [apply wf_del_edge_result, W|apply clean_del_edge_result; assumption]].
  - destruct (del_node_spec g n W) as (g' & -> & W' & C' & _). eauto.
  - destruct (from_dict_inv true g d) as (g' & -> & [W' C']); [split; auto|eauto].
  - destruct (from_list_inv true g l) as (g' & -> & [W' C']); [split; auto|eauto].
  - rewrite in_degree_node by assumption. cbn. eauto.
  - rewrite out_degree_node by assumption. cbn. eauto. Qed.
End Facts.
