(** The lemmas behind PropsBase.v. *)
From Verif Require Import Prelude PreludeFacts Base BaseFacts BaseFacts2 Spec SpecFacts.

Section F.
Context {A O V : Type} {EA : EqDec A}.
Notation graph := (graph A O V).
Implicit Types (g : graph) (a b n x y : A) (v : V) (ops : list (op A O V)).

Lemma reachable_wf g : reachable g -> wf g.
Proof. intros [ops H]. destruct (run_wf ops) as (g' & H' & W). congruence. Qed.
Lemma reachable_run ops : reachable (ok_or empty_graph (run ops)).
Proof. destruct (run_wf ops) as (g & H & _). exists ops. rewrite H. reflexivity. Qed.
Lemma contains_In g n : contains g n = true <-> In n (nodes g).
Proof. apply dmem_key. Qed.
Lemma contains_notIn g n : contains g n = false <-> ~ In n (nodes g).
Proof. apply dmem_nokey. Qed.
Lemma in_degree_fst g n : wf g -> fst (in_degree g n) = Z.of_nat (length (edges_to g n)).
Proof. intros W. unfold in_degree, edges_to. rewrite map_length. rewrite <- (wf_in _ W n). unfold deg.
  destruct (dget n (g_indeg g)); reflexivity. Qed.
Lemma out_degree_fst g n : wf g -> fst (out_degree g n) = Z.of_nat (length (edges_from g n)).
Proof. intros W. unfold out_degree, edges_from. rewrite map_length. rewrite <- (wf_out _ W n). unfold deg.
  destruct (dget n (g_outdeg g)); reflexivity. Qed.

Lemma views_consistent ops :
  exists g, run ops = Ok g /\
    (forall a b, reverse_edge g b a = edge g a b) /\
    (forall a b v, In (a, b, v) (edges g) <-> edge g a b = Some v) /\
    (forall n a b v, In (a, b, v) (edges_from g n) <-> a = n /\ edge g a b = Some v) /\
    (forall n a b v, In (a, b, v) (edges_to g n) <-> b = n /\ edge g a b = Some v) /\
    (forall a b, In b (nodes_from g a) <-> has_edge g a b) /\
    (forall a b, In a (nodes_to g b) <-> has_edge g a b) /\
    NoDup (nodes g) /\ NoDup (map fst (edges g)) /\
    (forall n, NoDup (map fst (edges_from g n)) /\ NoDup (map fst (edges_to g n)) /\
               NoDup (nodes_from g n) /\ NoDup (nodes_to g n)) /\
    (forall a b, has_edge g a b -> contains g a = true /\ contains g b = true) /\
    (forall n, contains g n = true <-> In n (nodes g)) /\
    (forall n, fst (in_degree g n) = Z.of_nat (length (edges_to g n)) /\
               fst (out_degree g n) = Z.of_nat (length (edges_from g n))) /\
    g_count g = Z.of_nat (length (edges g)).
Proof. destruct (run_wf ops) as (g & H & W). exists g. splits; auto.
  - intros a b. symmetry. apply (wf_mirror _ W).
  - intros a b v. apply In_edges, W.
  - intros n a b v. rewrite In_edges_from by exact W. split.
    + intros (b' & v' & E & H'). inv E. auto.
    + intros [-> H']. eauto.
  - intros n a b v. rewrite In_edges_to by exact W. split.
    + intros (b' & v' & E & H'). inv E. auto.
    + intros [-> H']. eauto.
  - intros a b. apply In_nodes_from, W.
  - intros a b. apply In_nodes_to, W.
  - apply W.
  - apply NoDup_edges, W.
  - intros n. splits; [apply NoDup_edges_from|apply NoDup_edges_to|apply NoDup_nodes_from|apply NoDup_nodes_to]; exact W.
  - intros a b [v Hv]. rewrite !contains_In. exact (edge_nodes _ _ _ _ W Hv).
  - apply contains_In.
  - intros n. split; [apply in_degree_fst|apply out_degree_fst]; exact W.
  - apply count_edges, W. Qed.

Lemma add_node_effect g n o : reachable g ->
  let g' := add_node g n o in
  (forall x, contains g' x = true <-> x = n \/ contains g x = true) /\
  node g' n = o /\ (forall x, x <> n -> node g' x = node g x) /\
  (forall a b, edge g' a b = edge g a b).
Proof. intros _ g'. unfold g'. splits.
  - intros x. rewrite !contains_In, nodes_add_node, In_sadd. tauto.
  - rewrite node_add_node. destruct (eq_dec n n); congruence.
  - intros x Hx. rewrite node_add_node. destruct (eq_dec x n); congruence.
  - apply edge_add_node. Qed.

Lemma add_edge_effect g a b v bi : reachable g ->
  exists g', add_edge g a b v bi = Ok g' /\
  (forall x, contains g' x = true <-> x = a \/ x = b \/ contains g x = true) /\
  (forall x, node g' x = node g x) /\
  edge g' a b = Some v /\ (bi = true -> edge g' b a = Some v) /\
  (forall x y, (x, y) <> (a, b) -> (bi = true -> (x, y) <> (b, a)) -> edge g' x y = edge g x y).
Proof. intros R. apply reachable_wf in R. rewrite add_edge_eq by exact R. eexists. split; [reflexivity|].
  unfold add_edge_result. destruct bi; splits.
  - intros x. rewrite !contains_In, !nodes_add_edge1_result, !In_sadd. tauto.
  - intros x. rewrite !node_add_edge1_result. reflexivity.
  - rewrite !edge_add_edge1_result. destruct (eq_dec a b), (eq_dec b a), (eq_dec a a), (eq_dec b b); congruence.
  - intros _. rewrite !edge_add_edge1_result. destruct (eq_dec b b), (eq_dec a a); congruence.
  - intros x y H1 H2. specialize (H2 eq_refl). rewrite !edge_add_edge1_result.
    destruct (eq_dec x b), (eq_dec y a), (eq_dec x a), (eq_dec y b); congruence.
  - intros x. rewrite !contains_In, !nodes_add_edge1_result, !In_sadd. tauto.
  - intros x. rewrite !node_add_edge1_result. reflexivity.
  - rewrite !edge_add_edge1_result. destruct (eq_dec a a), (eq_dec b b); congruence.
  - discriminate.
  - intros x y H1 _. rewrite edge_add_edge1_result. destruct (eq_dec x a), (eq_dec y b); congruence. Qed.

Lemma del_edge_effect g a b : reachable g ->
  exists g', del_edge g a b = Ok g' /\
  (forall x, contains g' x = contains g x) /\ (forall x, node g' x = node g x) /\
  edge g' a b = None /\ (forall x y, (x, y) <> (a, b) -> edge g' x y = edge g x y) /\
  (edge g a b = None -> g' = g).
Proof. intros R. apply reachable_wf in R. rewrite del_edge_eq by exact R. eexists. split; [reflexivity|]. splits.
  - intros x. unfold contains. rewrite g_nodes_del_edge_result. reflexivity.
  - intros x. apply node_del_edge_result.
  - rewrite edge_del_edge_result by exact R. destruct (eq_dec a a), (eq_dec b b); congruence.
  - intros x y H. rewrite edge_del_edge_result by exact R. destruct (eq_dec x a), (eq_dec y b); congruence.
  - intros H. unfold del_edge_result. rewrite H. reflexivity. Qed.

Lemma del_node_effect g n : reachable g ->
  exists g', del_node g n = Ok g' /\
  (forall x, contains g' x = true <-> x <> n /\ contains g x = true) /\
  (forall x, x <> n -> node g' x = node g x) /\
  (forall x y, edge g' x y = if eq_dec x n then None else if eq_dec y n then None else edge g x y) /\
  (contains g n = false -> g' = g).
Proof. intros R. apply reachable_wf in R. destruct (del_node_spec g n R) as (g' & H & W & _ & N & E).
  exists g'. splits; auto.
  - intros x. rewrite !contains_In. unfold nodes. rewrite N, In_dkeys_ddel by apply R. tauto.
  - intros x Hx. unfold node. rewrite N, dget_ddel by apply R. destruct (eq_dec x n); [congruence|reflexivity].
  - intros Hn. unfold del_node in H. unfold contains in Hn. rewrite Hn in H. cbn in H. congruence. Qed.

Lemma filter_dset_z (d : dict A Z) n k : k <> 0%Z -> dget n d = None ->
  filter (fun p => Z.eqb (snd p) k) (dset n 0%Z d) = filter (fun p => Z.eqb (snd p) k) d.
Proof. intros Hk Hn. rewrite dset_notin by (apply dget_None, Hn). rewrite filter_app. cbn [filter snd].
  destruct (Z.eqb_spec 0 k); [congruence|]. apply app_nil_r. Qed.
Lemma degree_read g n : reachable g ->
  (contains g n = true -> snd (in_degree g n) = g /\ snd (out_degree g n) = g) /\
  (forall g', g' = snd (in_degree g n) \/ g' = snd (out_degree g n) ->
     nodes g' = nodes g /\ edges g' = edges g /\
     (forall x y, edge g' x y = edge g x y /\ reverse_edge g' x y = reverse_edge g x y) /\
     (forall x, node g' x = node g x /\ nodes_from g' x = nodes_from g x /\ nodes_to g' x = nodes_to g x) /\
     (forall x, fst (in_degree g' x) = fst (in_degree g x) /\ fst (out_degree g' x) = fst (out_degree g x)) /\
     (forall k, k <> 0%Z -> nodes_in_degree g' k = nodes_in_degree g k /\ nodes_out_degree g' k = nodes_out_degree g k)).
Proof. intros R. apply reachable_wf in R. split.
  - intros H. apply contains_In in H. rewrite in_degree_node, out_degree_node by assumption. auto.
  - assert (forall d n x, dget n d = None -> match dget x (dset n 0%Z d) with Some z => z | None => 0%Z end
                       = match dget x d with Some z => z | None => 0%Z end) as HD.
    { intros d m x Hm. rewrite dget_dset. destruct (eq_dec x m) as [->|]; [rewrite Hm|]; reflexivity. }
    intros g' Hg'.
    assert (g' = g \/
      (dget n (g_indeg g) = None /\ g' = mkG (g_nodes g) (g_edges g) (g_count g) (g_rev g) (dset n 0%Z (g_indeg g)) (g_outdeg g)) \/
      (dget n (g_outdeg g) = None /\ g' = mkG (g_nodes g) (g_edges g) (g_count g) (g_rev g) (g_indeg g) (dset n 0%Z (g_outdeg g)))) as Hc.
    { unfold in_degree, out_degree in Hg'. destruct (dget n (g_indeg g)), (dget n (g_outdeg g)); cbn in Hg'; tauto. }
    clear Hg'. destruct Hc as [->|[[E ->]|[E ->]]].
    + splits; auto.
    + splits; auto.
      * intros x. split; [|unfold out_degree; cbn [g_outdeg]; destruct (dget x (g_outdeg g)); reflexivity]. unfold in_degree. cbn [g_indeg].
        specialize (HD (g_indeg g) n x E). destruct (dget x (dset n 0%Z (g_indeg g))), (dget x (g_indeg g)); cbn; auto.
      * intros k Hk. split; [|reflexivity]. unfold nodes_in_degree. cbn [g_indeg]. rewrite filter_dset_z; auto.
    + splits; auto.
      * intros x. split; [unfold in_degree; cbn [g_indeg]; destruct (dget x (g_indeg g)); reflexivity|]. unfold out_degree. cbn [g_outdeg].
        specialize (HD (g_outdeg g) n x E). destruct (dget x (dset n 0%Z (g_outdeg g))), (dget x (g_outdeg g)); cbn; auto.
      * intros k Hk. split; [reflexivity|]. unfold nodes_out_degree. cbn [g_outdeg]. rewrite filter_dset_z; auto. Qed.

Lemma run_clean ops g : reads_present ops -> run ops = Ok g -> wf g /\ clean g.
Proof. intros HR H. unfold run in H.
  destruct (foldM_inv_prefix (fun pre g => run pre = Ok g /\ wf g /\ clean g) step ops empty_graph) as (g' & H' & _ & W & C).
  - splits; [reflexivity|apply wf_empty|apply clean_empty].
  - intros pre o post s E (Hp & W & C).
    destruct (step_clean s o W C) as (s' & Hs & W' & C').
    { specialize (HR pre o post s E Hp). destruct o; cbn in *; auto; apply contains_In, HR. }
    exists s'. splits; auto. unfold run in *. rewrite foldM_app, Hp. cbn. rewrite Hs. reflexivity.
  - assert (g' = g) as -> by congruence. auto. Qed.

Lemma nodes_deg_list (d : dict A Z) k (f : A -> Z) : NoDup (dkeys d) -> (forall n, In n (dkeys d) -> deg d n = f n) ->
  NoDup (map fst (filter (fun p => Z.eqb (snd p) k) d)) /\
  forall n, In n (map fst (filter (fun p => Z.eqb (snd p) k) d)) <-> In n (dkeys d) /\ f n = k.
Proof. intros ND H. split.
  - clear H. induction d as [|[a z] d IH]; cbn; [constructor|]. cbn in ND. inv ND. destruct (z =? k)%Z; cbn; auto.
    constructor; auto. intros Hi. apply H1. apply in_map_iff in Hi as (p & <- & Hi). apply filter_In in Hi as [Hi _].
    apply (in_map fst) in Hi. exact Hi.
  - intros n. rewrite in_map_iff. split.
    + intros ([a z] & <- & Hi). apply filter_In in Hi as [Hi E]. cbn in *. apply Z.eqb_eq in E. subst z.
      assert (In a (dkeys d)) as Ha by (apply (in_map fst) in Hi; exact Hi). split; [exact Ha|].
      rewrite <- H by exact Ha. unfold deg. rewrite (In_dget _ _ _ ND Hi). reflexivity.
    + intros [Hn Hf]. exists (n, k). split; [reflexivity|]. apply filter_In. split; [|cbn; apply Z.eqb_refl].
      rewrite <- H in Hf by exact Hn. unfold deg in Hf. destruct (dget_key _ _ Hn) as [z Hz]. rewrite Hz in Hf. subst z. apply dget_In, Hz. Qed.

Lemma nodes_by_degree ops g : reads_present ops -> run ops = Ok g ->
  forall k, (0 <= k)%Z ->
    exists li lo, nodes_q g None None (Some k) None = Ok li /\ nodes_q g None None None (Some k) = Ok lo /\
      NoDup li /\ NoDup lo /\
      (forall n, In n li <-> In n (nodes g) /\ Z.of_nat (length (edges_to g n)) = k) /\
      (forall n, In n lo <-> In n (nodes g) /\ Z.of_nat (length (edges_from g n)) = k).
Proof. intros HR H k Hk. destruct (run_clean ops g HR H) as [W [C1 C2]]. unfold nodes_q. cbn [opt_count Nat.add Nat.ltb Nat.leb].
  destruct (Z.ltb_spec k 0); [lia|]. do 2 eexists. split; [reflexivity|]. split; [reflexivity|].
  destruct (nodes_deg_list (g_indeg g) k (fun n => Z.of_nat (length (edges_to g n)))) as [N1 I1].
  { apply W. } { intros n _. unfold edges_to. rewrite map_length. apply W. }
  destruct (nodes_deg_list (g_outdeg g) k (fun n => Z.of_nat (length (edges_from g n)))) as [N2 I2].
  { apply W. } { intros n _. unfold edges_from. rewrite map_length. apply W. }
  rewrite C1 in I1. rewrite C2 in I2. splits; assumption. Qed.

Lemma nodes_bad_arguments g k : (k < 0)%Z ->
  nodes_q g None None (Some k) None = Err ValueError /\ nodes_q g None None None (Some k) = Err ValueError /\
  (forall f t i o, 1 < opt_count f + opt_count t + opt_count i + opt_count o -> nodes_q g f t i o = Err ValueError).
Proof. intros Hk. splits.
  - unfold nodes_q. cbn [opt_count Nat.add Nat.ltb Nat.leb]. destruct (Z.ltb_spec k 0); [reflexivity|lia].
  - unfold nodes_q. cbn [opt_count Nat.add Nat.ltb Nat.leb]. destruct (Z.ltb_spec k 0); [reflexivity|lia].
  - intros f t i o H1. unfold nodes_q. apply Nat.ltb_lt in H1. rewrite H1. reflexivity. Qed.

Lemma dict_round_trip g : reachable g ->
  exists d g', to_dict g = Ok d /\ from_dict empty_graph d = Ok g' /\
    (forall n, In n (dkeys d) <-> In n (nodes g)) /\ NoDup (dkeys d) /\
    (forall a b, eget d a b = edge g a b) /\
    (forall n, In n (nodes g') <-> In n (nodes g)) /\ (forall a b, edge g' a b = edge g a b) /\
    g_count g' = g_count g.
Proof. intros R. apply reachable_wf in R. destruct (to_dict_spec g R) as (d & Hd & K & I & E).
  assert (NoDup (dkeys d)) as ND by (rewrite K; apply R).
  destruct (from_dict_spec (O := O) d) as (g' & Hg & W & C & E' & N' & M').
  { split; [exact ND|]. intros a o Hi. apply In_dget in Hi; [|exact ND]. specialize (I a). unfold inner in I. rewrite Hi in I. exact I. }
  exists d, g'. splits; auto.
  - intros n. rewrite K. tauto.
  - intros n. rewrite M', K. split; [|auto]. intros [H|(a & v & H)]; [exact H|]. rewrite E in H. apply (edge_nodes _ _ _ _ R H).
  - intros a b. rewrite E'. apply E.
  - rewrite (count_edges g' W), (count_edges g R). f_equal.
    apply Nat.le_antisymm; apply edges_length_le; auto; intros a b v; rewrite E', E; auto. Qed.

Lemma list_round_trip g : reachable g ->
  exists g', from_list empty_graph (to_list g) = Ok g' /\
    (forall n, In n (nodes g') <-> In n (nodes g)) /\ (forall a b, edge g' a b = edge g a b) /\
    g_count g' = g_count g.
Proof. intros R. apply reachable_wf in R. destruct (from_list_to_list g R) as (g' & H & W & C & E & N & _).
  exists g'. splits; auto. rewrite (count_edges g' W), (count_edges g R). f_equal.
  apply Nat.le_antisymm; apply edges_length_le; auto; intros a b v; rewrite E; auto. Qed.

Lemma subgraph_induced g ns : reachable g ->
  exists g', subgraph g ns = Ok g' /\
    (forall n, In n (nodes g') <-> In n ns) /\
    (forall n, In n ns -> node g' n = node g n) /\
    (forall a b v, edge g' a b = Some v <-> In a ns /\ In b ns /\ edge g a b = Some v).
Proof. intros R. apply reachable_wf in R. destruct (subgraph_spec g ns R) as (g' & H & W & C & N & M & E).
  exists g'. splits; auto. intros a b v. rewrite E. destruct (mem_spec a ns), (mem_spec b ns); cbn; intuition congruence. Qed.

Lemma has_path_loop_spec g t : forall h, has_path_loop g h t = true <-> exists b, path (has_edge g) h (h :: t) b.
Proof. induction t as [|x t IH]; intros h; cbn [has_path_loop].
  - split; [intros _; exists h; constructor|auto].
  - destruct (edge g h x) as [v|] eqn:E.
    + rewrite IH. split.
      * intros [b H]. exists b. econstructor; [eexists; exact E|exact H].
      * intros [b H]. apply path_inv2 in H as (_ & _ & H). eauto.
    + split; [discriminate|]. intros [b H]. apply path_inv2 in H as (_ & [v H] & _). congruence. Qed.
Lemma has_path_exact g p : p <> [] ->
  exists r, has_path g p = Ok r /\ (r = true <-> exists a b, path (has_edge g) a p b).
Proof. destruct p as [|h t]; [congruence|]. intros _. eexists. split; [reflexivity|]. rewrite has_path_loop_spec. split.
  - intros [b H]. eauto.
  - intros (a & b & H). destruct (path_head _ _ _ _ H) as [t' E]. inv E. eauto. Qed.
Lemma has_path_empty g : has_path g [] = Err IndexError.
Proof. reflexivity. Qed.

Lemma edges_along_spec g p : p <> [] ->
  match edges_along g p with
  | Ok l => (exists a b, path (has_edge g) a p b) /\ length l = length p - 1 /\
       forall i e, nth_error l i = Some e ->
         exists a b v, e = (a, b, v) /\ nth_error p i = Some a /\ nth_error p (S i) = Some b /\ edge g a b = Some v
  | Err e => e = KeyError /\ ~ exists a b, path (has_edge g) a p b
  | OutOfFuel => False
  end.
Proof. induction p as [|x p IH]; [congruence|]. intros _. destruct p as [|y p].
  - cbn. splits; [exists x, x; constructor|reflexivity|]. intros [|i] e; discriminate.
  - assert (y :: p <> []) as NE by discriminate. specialize (IH NE). clear NE.
    change (edges_along g (x :: y :: p)) with (match edge g x y with None => Err KeyError
      | Some v => rest <- edges_along g (y :: p) ;; Ok ((x, y, v) :: rest) end).
    destruct (edge g x y) as [v|] eqn:E.
    + destruct (edges_along g (y :: p)) as [l|e|]; cbn [bind].
      * destruct IH as ((a & b & H) & L & I). splits.
        -- exists x, b. assert (a = y) as -> by (inv H; reflexivity). econstructor; [eexists; exact E|exact H].
        -- cbn [length] in *. lia.
        -- intros [|i] e Hi.
           ++ cbn in Hi. inv Hi. do 3 eexists. splits; [reflexivity|reflexivity|reflexivity|exact E].
           ++ apply I in Hi. exact Hi.
      * destruct IH as [-> IH]. split; [reflexivity|]. intros (a & b & H). apply IH. apply path_inv2 in H as (_ & _ & H). eauto.
      * exact IH.
    + split; [reflexivity|]. intros (a & b & H). apply path_inv2 in H as (_ & [v H] & _). congruence. Qed.
Lemma edges_along_path g p : reachable g -> 2 <= length p ->
  ((exists a b, path (has_edge g) a p b) ->
     exists l, edges_path g p = Ok l /\ length l = length p - 1 /\
       forall i e, nth_error l i = Some e ->
         exists a b v, e = (a, b, v) /\ nth_error p i = Some a /\ nth_error p (S i) = Some b /\ edge g a b = Some v) /\
  (~ (exists a b, path (has_edge g) a p b) -> edges_path g p = Err KeyError).
Proof. intros _ L. unfold edges_path. destruct (Nat.ltb_spec (length p) 2); [lia|].
  pose proof (edges_along_spec g p) as S. destruct (edges_along g p) as [l|e|].
  - destruct S as (S1 & S2 & S3); [destruct p; [cbn in L; lia|discriminate]|]. split; [|tauto]. intros _. exists l. auto.
  - destruct S as (-> & S2); [destruct p; [cbn in L; lia|discriminate]|]. tauto.
  - destruct S; destruct p; [cbn in L; lia|discriminate]. Qed.
Lemma edges_short_path g p : length p < 2 -> edges_path g p = Err ValueError.
Proof. intros L. unfold edges_path. apply Nat.ltb_lt in L. rewrite L. reflexivity. Qed.
End F.

Section FEq.
Context {A O V : Type} {EA : EqDec A} {EO : EqDec O} {EV : EqDec V}.
Notation graph := (graph A O V).
Implicit Types (g : graph).

Lemma edges_to_length_le g1 g2 n : wf g1 -> wf g2 -> (forall a v, edge g1 a n = Some v -> edge g2 a n = Some v) ->
  length (edges_to g1 n) <= length (edges_to g2 n).
Proof. intros W1 W2 H. rewrite <- (map_length ekey (edges_to g1 n)), <- (map_length ekey (edges_to g2 n)).
  apply NoDup_incl_length; [apply NoDup_edges_to, W1|]. intros [a b] Hi.
  apply in_map_iff in Hi as (e & E & Hi). apply In_edges_to in Hi; [|exact W1]. destruct Hi as (a' & v & -> & Hv).
  unfold ekey in E; cbn in E; inv E. apply in_map_iff. exists (a, b, v). split; [reflexivity|].
  apply In_edges_to; [exact W2|]. eauto. Qed.

Lemma copy_equal g : reachable g ->
  exists g', copy g = Ok g' /\ graph_eqb g' g = true /\ graph_eqb g g' = true /\
    nodes g' = nodes g /\ (forall n, node g' n = node g n) /\ edges g' = edges g /\
    (forall n, fst (in_degree g' n) = fst (in_degree g n) /\ fst (out_degree g' n) = fst (out_degree g n)).
Proof. intros R. apply reachable_wf in R. destruct (copy_spec g R) as (g' & H & W & C & N & E & K). exists g'.
  assert (forall a b, edge g' a b = edge g a b) as EE by (intros; unfold edge; rewrite E; reflexivity). splits; auto.
  - apply graph_eqb_spec; auto. split; [|exact EE]. intros n. rewrite N. reflexivity.
  - apply graph_eqb_spec; auto. split; [|intros; rewrite EE; reflexivity]. intros n. rewrite N. reflexivity.
  - unfold nodes. rewrite N. reflexivity.
  - intros n. unfold node. rewrite N. reflexivity.
  - unfold edges. rewrite E. reflexivity.
  - intros n. rewrite !in_degree_fst, !out_degree_fst by assumption. split.
    + f_equal. apply Nat.le_antisymm; apply edges_to_length_le; auto; intros a v; rewrite EE; auto.
    + unfold edges_from. rewrite !map_length, E. reflexivity. Qed.

Lemma obs_eq_iff g1 g2 :
  (forall n, dget n (g_nodes g1) = dget n (g_nodes g2)) <->
  (forall n, contains g1 n = contains g2 n) /\ (forall n, node g1 n = node g2 n).
Proof. unfold contains, node. split.
  - intros H. split; intros n; [rewrite !dmem_dget|]; rewrite H; reflexivity.
  - intros [H1 H2] n. specialize (H1 n). specialize (H2 n). rewrite !dmem_dget in H1.
    destruct (dget n (g_nodes g1)), (dget n (g_nodes g2)); congruence. Qed.
Lemma equality_observational g1 g2 : reachable g1 -> reachable g2 ->
  (graph_eqb g1 g2 = true <->
    (forall n, contains g1 n = contains g2 n) /\ (forall n, node g1 n = node g2 n) /\
    (forall a b, edge g1 a b = edge g2 a b)).
Proof. intros R1 R2. apply reachable_wf in R1, R2. rewrite graph_eqb_spec, obs_eq_iff by assumption. tauto. Qed.

Lemma copy3d_partial g : reachable g ->
  exists g', copy3d g = Ok g' /\ (forall n, In n (nodes g') <-> In n (nodes g)) /\
    (forall a b, edge g' a b = edge g a b) /\ (forall n, node g' n = None) /\
    (graph_eqb g' g = true <-> forall n, node g n = None).
Proof. intros R. pose proof R as R'. apply reachable_wf in R. destruct (to_dict_spec g R) as (d & Hd & K & I & E).
  assert (NoDup (dkeys d)) as ND by (rewrite K; apply R).
  destruct (from_dict_spec (O := O) d) as (g' & Hg & W & C & E' & N' & M').
  { split; [exact ND|]. intros a o Hi. apply In_dget in Hi; [|exact ND]. specialize (I a). unfold inner in I. rewrite Hi in I. exact I. }
  exists g'. unfold copy3d. rewrite Hd. cbn.
  assert (forall n, In n (nodes g') <-> In n (nodes g)) as NN.
  { intros n. rewrite M', K. split; [|auto]. intros [H|(a & v & H)]; [exact H|]. rewrite E in H. apply (edge_nodes _ _ _ _ R H). }
  splits; auto.
  - intros a b. rewrite E'. apply E.
  - rewrite graph_eqb_spec, obs_eq_iff by assumption. split.
    + intros [[_ H] _] n. rewrite <- H. apply N'.
    + intros H. splits.
      * intros n. destruct (contains g n) eqn:En.
        -- apply contains_In, NN, contains_In, En.
        -- apply contains_notIn. rewrite NN. apply contains_notIn, En.
      * intros n. rewrite N', H. reflexivity.
      * intros a b. rewrite E'. apply E. Qed.

Lemma copy_of_spec (c : gclass) g : wf g ->
  exists g', copy_of c g = Ok g' /\ wf g' /\ clean g' /\ (forall x, In x (nodes g') <-> In x (nodes g)) /\ (forall x y, edge g' x y = edge g x y).
Proof. intros R. destruct c; cbn [copy_of].
  - destruct (copy_spec g R) as (g' & E & W & C & N & EE & _). exists g'. splits; auto; intros x; [unfold nodes; rewrite N; reflexivity|intros y; unfold edge; rewrite EE; reflexivity].
  - destruct (to_dict_spec g R) as (d & Hd & K & I & E).
    assert (NoDup (dkeys d)) as ND by (rewrite K; apply R).
    destruct (from_dict_spec (O := O) d) as (g' & Hg & W & C & E' & N' & M').
    { split; [exact ND|]. intros a o Hi. apply In_dget in Hi; [|exact ND]. specialize (I a). unfold inner in I. rewrite Hi in I. exact I. }
    exists g'. unfold copy3d. rewrite Hd. cbn [bind]. splits; auto.
    + intros n. rewrite M', K. split; [|auto]. intros [H|(a & v & H)]; [exact H|]. rewrite E in H. apply (edge_nodes _ _ _ _ R H).
    + intros a b. rewrite E'. apply E. Qed.

Lemma equality_equivalence g1 g2 g3 : reachable g1 -> reachable g2 -> reachable g3 ->
  graph_eqb g1 g1 = true /\ graph_eqb g1 g2 = graph_eqb g2 g1 /\
  (graph_eqb g1 g2 = true -> graph_eqb g2 g3 = true -> graph_eqb g1 g3 = true) /\
  graph_neb g1 g2 = negb (graph_eqb g1 g2).
Proof. intros R1 R2 R3. apply reachable_wf in R1, R2, R3. splits.
  - apply graph_eqb_spec; auto.
  - apply Bool.eq_iff_eq_true. rewrite !graph_eqb_spec by assumption. split; intros [H1 H2]; split; congruence.
  - rewrite !graph_eqb_spec by assumption. intros [H1 H2] [H3 H4]; split; congruence.
  - reflexivity. Qed.

Lemma is_subgraph_exact g1 g2 : reachable g1 -> reachable g2 ->
  (is_subgraph g1 g2 = true <->
   (forall n, In n (nodes g1) -> In n (nodes g2)) /\ (forall a b v, edge g1 a b = Some v -> edge g2 a b = Some v)).
Proof. intros R1 R2. apply reachable_wf in R1, R2. apply is_subgraph_spec; assumption. Qed.
Lemma is_subgraph_preorder g1 g2 g3 : reachable g1 -> reachable g2 -> reachable g3 ->
  is_subgraph g1 g1 = true /\
  (is_subgraph g1 g2 = true -> is_subgraph g2 g3 = true -> is_subgraph g1 g3 = true).
Proof. intros R1 R2 R3. rewrite !is_subgraph_exact by assumption. split; [auto|]. intros [H1 H2] [H3 H4]. auto. Qed.
Lemma subgraph_is_subgraph g ns g' : reachable g -> (forall n, In n ns -> In n (nodes g)) ->
  subgraph g ns = Ok g' -> is_subgraph g' g = true.
Proof. intros R Hn H. apply reachable_wf in R. destruct (subgraph_spec g ns R) as (g2 & H2 & W & C & N & M & E).
  assert (g2 = g') as -> by congruence. apply is_subgraph_spec; auto. split.
  - intros n Hi. apply Hn, N, Hi.
  - intros a b v. rewrite E. destruct (mem a ns && mem b ns); congruence. Qed.
End FEq.

Lemma same_path_obj {A} {EA : EqDec A} (p : list A) : same_path true p p = true.
Proof. reflexivity. Qed.
Lemma same_path_empty_refuted : exists p1 p2 : list nat, (exists l1 l2, p1 = l1 ++ l2 /\ p2 = l2 ++ l1) /\ same_path false p1 p2 = false.
Proof. exists [], []. split; [exists [], []; auto|reflexivity]. Qed.

Lemma degree_read_refuted : exists (g : graph nat unit Z) n, reachable g /\ contains g n = false /\
  ~ In n (nodes_in_degree g 0) /\ In n (nodes_in_degree (snd (in_degree g n)) 0).
Proof. exists empty_graph, 7. splits.
  - exists []. reflexivity. - reflexivity. - cbn. tauto. - cbn. auto. Qed.
Lemma copy3d_refuted : exists (g g' : graph nat nat Z), reachable g /\ copy3d g = Ok g' /\ graph_eqb g' g = false.
Proof. exists (ok_or empty_graph (run [OpAddNode 1 (Some 5); OpAddEdge 1 2 3%Z false])). eexists. splits.
  - apply reachable_run.
  - vm_compute. reflexivity.
  - vm_compute. reflexivity. Qed.

Section D.
Context {A O : Type} {EA : EqDec A}.
Lemma last_indep (l : list A) x y z : last (x :: l) y = last (x :: l) z.
Proof. revert x. induction l as [|w l IH]; intros x; [reflexivity|]. cbn [last] in *. destruct l; auto. Qed.
Lemma sum_edges_spec (g : graph A O Z) t : forall h d, wpath (edge g) h (h :: t) (last (h :: t) h) d -> sum_edges g h t = Ok d.
Proof. induction t as [|x t IH]; intros h d H; cbn [sum_edges].
  - inversion H as [|? ? ? ? ? ? ? H']; subst; [reflexivity|inv H'].
  - inversion H as [|? z ? ? w d' HE H']; subst. destruct (wpath_head _ _ _ _ _ H') as [t' E']. injection E' as -> ->. rewrite HE.
    erewrite IH; [reflexivity|]. rewrite (last_indep t' z z h). exact H'. Qed.
Lemma distance_closed (g : graph A O Z) h t rts d e :
  wpath (edge g) h (h :: t) (last (h :: t) h) d -> edge g (last (h :: t) h) h = Some e ->
  distance g (h :: t) rts = Ok (d + e + if rts then e else 0)%Z.
Proof. intros H E. unfold distance. cbn [sum_edges]. rewrite E. rewrite (sum_edges_spec g t h d H). cbn [bind].
  destruct rts; f_equal; lia. Qed.
End D.
Lemma distance_refuted : exists (g : graph nat unit Z) p d,
  reachable g /\ (exists a b, wpath (edge g) a p b d) /\ distance g p false <> Ok d /\
  (exists e a b, edge g b a = Some e /\ wpath (edge g) a p b d /\ distance g p true <> Ok (d + e)%Z).
Proof. exists (ok_or empty_graph (run [OpAddEdge 1 2 3%Z false; OpAddEdge 2 1 4%Z false])), [1; 2], (3 + 0)%Z.
  assert (wpath (edge (ok_or (@empty_graph nat unit Z) (run [OpAddEdge 1 2 3%Z false; OpAddEdge 2 1 4%Z false]))) 1 [1; 2] 2 (3 + 0)) as W.
  { apply (wpath_cons _ 1 2); [vm_compute; reflexivity|]. constructor. }
  splits.
  - apply reachable_run.
  - exists 1, 2. exact W.
  - vm_compute. discriminate.
  - exists 4%Z, 1, 2. splits; [vm_compute; reflexivity|exact W|vm_compute; discriminate]. Qed.
