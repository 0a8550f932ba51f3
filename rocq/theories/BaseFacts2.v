(** Observers, copies, conversions, equality and subgraphs of BasicGraph. *)
From Verif Require Import Prelude PreludeFacts Base BaseFacts.

Section Obs.
Context {A O V : Type} {EA : EqDec A}.
Notation graph := (graph A O V).
Implicit Types (g : graph) (a b n x y : A) (v : V).

Definition ekey (e : A * A * V) : A * A := fst e.
Definition flat (d : dict A (dict A V)) : list (A * A * V) :=
  flat_map (fun p => map (fun q => (fst p, fst q, snd q)) (snd p)) d.

Lemma In_flat d a b v : nwf d -> (In (a, b, v) (flat d) <-> eget d a b = Some v).
Proof. intros [H1 H2]. unfold flat. rewrite in_flat_map. split.
  - intros ([k o] & Hk & Hi). cbn in Hi. apply in_map_iff in Hi as ([b' v'] & E & Hi). cbn in E. inv E.
    apply In_dget in Hk; [|exact H1].
    unfold eget. rewrite Hk. apply In_dget; [apply (H2 _ _ Hk)|exact Hi].
  - unfold eget. destruct (dget a d) as [o|] eqn:E; [|congruence]. intros H.
    exists (a, o). split; [apply dget_In, E|]. cbn. apply in_map_iff. exists (b, v). split; [reflexivity|apply dget_In, H]. Qed.
Lemma NoDup_flat d : nwf d -> NoDup (map ekey (flat d)).
Proof. intros [H1 H2].
  assert (forall a o, In (a, o) d -> NoDup (dkeys o)) as H3
    by (intros a o Hi; apply (H2 a o), In_dget; assumption).
  clear H2. induction d as [|[a o] d IH]; cbn; [constructor|]. inv H1.
  rewrite map_app, NoDup_app_iff. splits.
  - specialize (H3 a o (or_introl eq_refl)). clear - H3. induction o as [|[b v] o IH]; cbn in *; [constructor|]. inv H3.
    constructor; [|auto]. intros Hi. apply H1. rewrite map_map in Hi. apply in_map_iff in Hi as ([b' v'] & E & Hi).
    unfold ekey in E. cbn in E. inv E. apply (in_map fst) in Hi. exact Hi.
  - apply IH; [assumption|]. intros; eapply H3; right; eauto.
  - intros [x y] Hi Hj. rewrite map_map in Hi. apply in_map_iff in Hi as ([b v] & E & _). unfold ekey in E. cbn in E. inv E.
    apply in_map_iff in Hj as ([[x' y'] v'] & E & Hj). unfold ekey in E. cbn in E. inv E.
    unfold flat in Hj. apply in_flat_map in Hj as ([k o'] & Hk & Hi). cbn in Hi. apply in_map_iff in Hi as ([? ?] & E & _).
    cbn in E. inv E. apply H2. apply (in_map fst) in Hk. exact Hk. Qed.
Lemma length_flat d : length (flat d) = tot d.
Proof. unfold flat, tot. induction d as [|[a o] d IH]; cbn; [reflexivity|]. rewrite !app_length, map_length. lia. Qed.

Lemma edges_flat g : edges g = flat (g_edges g).
Proof. reflexivity. Qed.
Lemma In_edges g a b v : wf g -> (In (a, b, v) (edges g) <-> edge g a b = Some v).
Proof. intros W. apply In_flat, W. Qed.
Lemma NoDup_edges g : wf g -> NoDup (map ekey (edges g)).
Proof. intros W. apply NoDup_flat, W. Qed.
Lemma count_edges g : wf g -> g_count g = Z.of_nat (length (edges g)).
Proof. intros W. rewrite edges_flat, length_flat. apply W. Qed.

Lemma In_nodes_from g a b : wf g -> (In b (nodes_from g a) <-> exists v, edge g a b = Some v).
Proof. intros W. unfold nodes_from, edge. rewrite eget_inner. split.
  - apply dget_key.
  - intros [v H]. eapply dget_Some_key, H. Qed.
Lemma NoDup_nodes_from g a : wf g -> NoDup (nodes_from g a).
Proof. intros W. apply nwf_inner_nd, W. Qed.
Lemma In_nodes_to g a b : wf g -> (In a (nodes_to g b) <-> exists v, edge g a b = Some v).
Proof. intros W. unfold nodes_to, edge. rewrite (wf_mirror _ W), eget_inner. split.
  - apply dget_key.
  - intros [v H]. eapply dget_Some_key, H. Qed.
Lemma NoDup_nodes_to g a : wf g -> NoDup (nodes_to g a).
Proof. intros W. apply nwf_inner_nd, W. Qed.
Lemma In_edges_from g n e : wf g -> (In e (edges_from g n) <-> exists b v, e = (n, b, v) /\ edge g n b = Some v).
Proof. intros W. unfold edges_from. rewrite in_map_iff. unfold edge. split.
  - intros ([b v] & <- & Hi). exists b, v. split; [reflexivity|]. rewrite eget_inner. apply In_dget; [apply nwf_inner_nd, W|exact Hi].
  - intros (b & v & -> & H). exists (b, v). split; [reflexivity|]. rewrite eget_inner in H. apply dget_In, H. Qed.
Lemma In_edges_to g n e : wf g -> (In e (edges_to g n) <-> exists a v, e = (a, n, v) /\ edge g a n = Some v).
Proof. intros W. unfold edges_to. rewrite in_map_iff. unfold edge. split.
  - intros ([a v] & <- & Hi). exists a, v. split; [reflexivity|]. rewrite (wf_mirror _ W), eget_inner.
    apply In_dget; [apply nwf_inner_nd, W|exact Hi].
  - intros (a & v & -> & H). exists (a, v). split; [reflexivity|]. rewrite (wf_mirror _ W), eget_inner in H. apply dget_In, H. Qed.
Lemma NoDup_edges_from g n : wf g -> NoDup (map ekey (edges_from g n)).
Proof. intros W. unfold edges_from. rewrite map_map. pose proof (NoDup_nodes_from g n W) as H. unfold nodes_from in H.
  induction (inner (g_edges g) n) as [|[b v] l IH]; cbn in *; [constructor|]. inv H. constructor; [|auto].
  intros Hi. apply in_map_iff in Hi as ([b' v'] & E & Hi). unfold ekey in E; cbn in E; inv E. apply H2.
  apply (in_map fst) in Hi. exact Hi. Qed.
Lemma NoDup_edges_to g n : wf g -> NoDup (map ekey (edges_to g n)).
Proof. intros W. unfold edges_to. rewrite map_map. pose proof (NoDup_nodes_to g n W) as H. unfold nodes_to in H.
  induction (inner (g_rev g) n) as [|[b v] l IH]; cbn in *; [constructor|]. inv H. constructor; [|auto].
  intros Hi. apply in_map_iff in Hi as ([b' v'] & E & Hi). unfold ekey in E; cbn in E; inv E. apply H2.
  apply (in_map fst) in Hi. exact Hi. Qed.
Lemma edge_nodes g a b v : wf g -> edge g a b = Some v -> In a (nodes g) /\ In b (nodes g).
Proof. intros W. apply (wf_ends _ W). Qed.
Lemma edge_NoDup_keys_unique (l : list (A * A * V)) x y v w :
  NoDup (map ekey l) -> In (x, y, v) l -> In (x, y, w) l -> v = w.
Proof. induction l as [|[[a b] u] l IH]; cbn; [tauto|]. intros H. inv H. intros [H|H] [H'|H'].
  - congruence.
  - inv H. exfalso. apply H2. apply (in_map ekey) in H'. exact H'.
  - inv H'. exfalso. apply H2. apply (in_map ekey) in H. exact H.
  - auto. Qed.

(** ** folding add_edge over a list of distinct edges *)
Lemma add_edges_spec (l : list (A * A * V)) : forall g, wf g -> NoDup (map ekey l) ->
  exists g', foldM (fun g' (e : A * A * V) => let '(a, b, v) := e in add_edge g' a b v false) l g = Ok g' /\ wf g' /\
    (clean g -> clean g') /\
    (forall x y v, In (x, y, v) l -> edge g' x y = Some v) /\
    (forall x y, ~ In (x, y) (map ekey l) -> edge g' x y = edge g x y) /\
    (forall x, node g' x = node g x) /\
    (forall x, In x (nodes g') <-> In x (nodes g) \/ exists e, In e l /\ (x = fst (fst e) \/ x = snd (fst e))).
Proof. induction l as [|[[a b] v] l IH]; intros g W H; cbn [foldM map].
  - exists g. splits; auto; [intros ? ? ? []|]. intros x. split; [auto|]. intros [?|(e & [] & _)]; assumption.
  - cbn in H. inv H. rewrite add_edge_eq by exact W. cbn [bind]. unfold add_edge_result.
    destruct (IH (add_edge1_result g a b v)) as (g' & -> & W' & C' & E1 & E2 & N1 & N2); [apply wf_add_edge1_result, W|assumption|].
    exists g'. splits; auto.
    + intros C. apply C', clean_add_edge1_result, C.
    + intros x y w [Hi|Hi]; [inv Hi|auto]. rewrite E2 by assumption. rewrite edge_add_edge1_result.
      repeat match goal with |- context[eq_dec ?z ?z] => destruct (eq_dec z z); [|congruence] end. reflexivity.
    + intros x y Hn. cbn in Hn. rewrite E2 by tauto. rewrite edge_add_edge1_result.
      destruct (eq_dec x a) as [->|]; [|reflexivity]. destruct (eq_dec y b) as [->|]; [tauto|reflexivity].
    + intros x. rewrite N1, node_add_edge1_result. reflexivity.
    + intros x. rewrite N2, nodes_add_edge1_result, !In_sadd. split.
      * intros [[->|[->|Hx]]|(e & Hi & He)].
        -- right. eexists. split; [left; reflexivity|cbn; auto].
        -- right. eexists. split; [left; reflexivity|cbn; auto].
        -- auto.
        -- right. exists e. cbn. auto.
      * intros [Hx|(e & [<-|Hi] & He)]; [auto|cbn in He; tauto|]. right. exists e. auto. Qed.

(** [fold nset] rebuilds a nested dict literally *)
Definition nset3 d (e : A * A * V) := nset (fst (fst e)) (snd (fst e)) (snd e) d.
Lemma add_edges_g_edges (l : list (A * A * V)) : forall g g', wf g ->
  foldM (fun g' (e : A * A * V) => let '(a, b, v) := e in add_edge g' a b v false) l g = Ok g' ->
  g_edges g' = fold_left nset3 l (g_edges g).
Proof. induction l as [|[[a b] v] l IH]; intros g g' W; cbn [foldM fold_left].
  - intros H; inv H; reflexivity.
  - rewrite add_edge_eq by exact W. cbn [bind]. unfold add_edge_result. intros H.
    rewrite (IH _ _ (wf_add_edge1_result g a b v W) H). reflexivity. Qed.
Lemma dget_app_notin {X} k (d1 d2 : dict A X) : ~ In k (dkeys d1) -> dget k (d1 ++ d2) = dget k d2.
Proof. induction d1 as [|[k1 v1] d1 IH]; cbn; [reflexivity|]. intros H. destruct (eq_dec k k1) as [->|]; [tauto|]. apply IH. tauto. Qed.
Lemma dset_app_notin {X} k (v : X) (d1 d2 : dict A X) : ~ In k (dkeys d1) -> dset k v (d1 ++ d2) = d1 ++ dset k v d2.
Proof. induction d1 as [|[k1 v1] d1 IH]; cbn; [reflexivity|]. intros H. destruct (eq_dec k k1) as [->|]; [tauto|].
  f_equal. apply IH. tauto. Qed.
Lemma fold_nset_inner a : forall o2 pre o1, ~ In a (dkeys pre) -> NoDup (dkeys (o1 ++ o2)) -> o1 <> [] ->
  fold_left nset3 (map (fun q : A * V => (a, fst q, snd q)) o2) (pre ++ [(a, o1)]) = pre ++ [(a, o1 ++ o2)].
Proof. induction o2 as [|[b v] o2 IH]; intros pre o1 Hn Hd H1; cbn [map fold_left].
  - rewrite app_nil_r. reflexivity.
  - unfold nset3 at 2. cbn [fst snd]. unfold nset, inner. rewrite dget_app_notin by exact Hn.
    rewrite dset_app_notin by exact Hn. cbn [dget dset]. destruct (eq_dec a a); [|congruence].
    assert (~ In b (dkeys o1)) as Hb.
    { unfold dkeys in Hd. rewrite map_app in Hd. apply NoDup_remove_2 in Hd. rewrite in_app_iff in Hd. tauto. }
    rewrite dset_notin by exact Hb. rewrite IH; [rewrite <- app_assoc; reflexivity|exact Hn| |destruct o1; discriminate].
    rewrite <- app_assoc. exact Hd. Qed.
Lemma fold_nset_flat : forall d pre, nwf (pre ++ d) -> fold_left nset3 (flat d) pre = pre ++ d.
Proof. induction d as [|[a o] d IH]; intros pre W; cbn [flat flat_map].
  - cbn. rewrite app_nil_r. reflexivity.
  - cbn [fst snd]. rewrite fold_left_app.
    assert (~ In a (dkeys pre)) as Hn.
    { destruct W as [W _]. unfold dkeys in W. rewrite map_app in W. apply NoDup_remove_2 in W. rewrite in_app_iff in W. tauto. }
    assert (NoDup (dkeys o) /\ o <> []) as [Ho1 Ho2].
    { apply (nwf_inner _ W a). rewrite dget_app_notin by exact Hn. cbn. destruct (eq_dec a a); congruence. }
    fold (flat d). destruct o as [|[b v] o]; [congruence|]. cbn [map fold_left fst snd].
    unfold nset3 at 3. cbn [fst snd]. unfold nset. unfold inner.
    assert (dget a pre = None) as -> by (apply dget_None, Hn). rewrite dset_notin by exact Hn. cbn [dset].
    rewrite fold_nset_inner; [|exact Hn|exact Ho1|discriminate].
    rewrite IH; rewrite <- app_assoc; [reflexivity|exact W]. Qed.

(** ** copy *)
Lemma add_nodes_spec (l : dict A (option O)) : forall g, wf g -> clean g ->
  let g' := fold_left (fun g' (p : A * option O) => add_node g' (fst p) (snd p)) l g in
  wf g' /\ clean g' /\ g_edges g' = g_edges g /\
  g_nodes g' = fold_left (fun d p => dset (fst p) (snd p) d) l (g_nodes g).
Proof. induction l as [|[n o] l IH]; intros g W C; cbn zeta; cbn [fold_left].
  - splits; auto.
  - destruct (IH (add_node g n o) (wf_add_node _ _ _ W) (clean_add_node _ _ _ C)) as (H1 & H2 & H3 & H4).
    cbn [fst snd]. splits; auto.
    + rewrite H3. apply add_node_edges.
    + rewrite H4, add_node_nodes. reflexivity. Qed.
Lemma fold_dset_id {X} : forall (l pre : dict A X), NoDup (dkeys (pre ++ l)) ->
  fold_left (fun d p => dset (fst p) (snd p) d) l pre = pre ++ l.
Proof. induction l as [|[k v] l IH]; intros pre H; cbn [fold_left fst snd].
  - rewrite app_nil_r. reflexivity.
  - rewrite dset_notin; [rewrite IH; rewrite <- app_assoc; [reflexivity|exact H]|].
    unfold dkeys in *. rewrite map_app in H. apply NoDup_remove_2 in H. rewrite in_app_iff in H. tauto. Qed.

Lemma sadd_list_in (l : list A) : forall s, incl l s -> fold_left (fun s x => sadd x s) l s = s.
Proof. induction l as [|x l IH]; intros s H; cbn; [reflexivity|]. rewrite sadd_in by (apply H; left; reflexivity).
  apply IH. intros y Hy. apply H. right. exact Hy. Qed.
Lemma add_edges_g_nodes (l : list (A * A * V)) : forall g g', wf g ->
  (forall e, In e l -> In (fst (fst e)) (nodes g) /\ In (snd (fst e)) (nodes g)) ->
  foldM (fun g' (e : A * A * V) => let '(a, b, v) := e in add_edge g' a b v false) l g = Ok g' ->
  g_nodes g' = g_nodes g.
Proof. induction l as [|[[a b] v] l IH]; intros g g' W Hl; cbn [foldM].
  - intros H; inv H; reflexivity.
  - rewrite add_edge_eq by exact W. cbn [bind]. unfold add_edge_result. intros H.
    destruct (Hl _ (or_introl eq_refl)) as [Ha Hb]. cbn in Ha, Hb.
    assert (g_nodes (add_edge1_result g a b v) = g_nodes g) as Hg.
    { unfold add_edge1_result. cbn [g_nodes]. unfold ensure. apply dmem_key in Ha. apply dmem_key in Hb. rewrite Ha, Hb. reflexivity. }
    rewrite <- Hg. refine (IH _ _ (wf_add_edge1_result g a b v W) _ H).
    intros e He. unfold nodes. rewrite Hg. apply Hl. right. exact He. Qed.

Lemma copy_spec g : wf g -> exists g', copy g = Ok g' /\ wf g' /\ clean g' /\
  g_nodes g' = g_nodes g /\ g_edges g' = g_edges g /\ g_count g' = g_count g.
Proof. intros W. unfold copy. cbn zeta.
  destruct (add_nodes_spec (g_nodes g) empty_graph wf_empty clean_empty) as (W0 & C0 & E0 & N0).
  set (g0 := fold_left _ _ _) in *. cbn in E0.
  assert (g_nodes g0 = g_nodes g) as N1 by (rewrite N0; apply (fold_dset_id (g_nodes g) []); apply W).
  destruct (add_edges_spec (edges g) g0 W0 (NoDup_edges g W)) as (g' & Hg' & W' & C' & _).
  assert (g_edges g' = g_edges g) as HE.
  { rewrite (add_edges_g_edges _ _ _ W0 Hg'), E0. apply (fold_nset_flat (g_edges g) []). apply W. }
  exists g'. rewrite Hg'. splits; auto.
  - rewrite <- N1. apply (add_edges_g_nodes (edges g) g0 g' W0); [|exact Hg'].
    intros [[a b] v] He. unfold nodes. rewrite N1. cbn. apply In_edges in He; [|exact W]. exact (edge_nodes _ _ _ _ W He).
  - rewrite (count_edges g' W'), (count_edges g W). unfold edges. rewrite HE. reflexivity. Qed.

(** ** to_dict / from_dict *)
Lemma to_dict_spec g : wf g -> exists d, to_dict g = Ok d /\ dkeys d = nodes g /\
  (forall a, NoDup (dkeys (inner d a))) /\ forall a b, eget d a b = edge g a b.
Proof. intros W. unfold to_dict.
  set (d0 := map _ (nodes g)).
  assert (dkeys d0 = nodes g) as K0 by (unfold d0, dkeys; rewrite map_map; cbn; apply map_id).
  assert (forall a, inner d0 a = []) as I0.
  { intros a. unfold inner, d0. clear K0 d0. induction (nodes g) as [|x l IH]; cbn; [reflexivity|].
    destruct (eq_dec a x); [reflexivity|exact IH]. }
  pose proof (foldM_inv_prefix (fun pre d => dkeys d = nodes g /\ (forall a, NoDup (dkeys (inner d a))) /\
     forall a b v, eget d a b = Some v <-> In (a, b, v) pre)
     (fun d (e : A * A * V) => let '(n1, n2, v) := e in
           match dget n1 d with
           | None => Err KeyError
           | Some inn => Ok (dset n1 (dset n2 v inn) d)
           end) (edges g) d0) as H.
  destruct H as (d & Hd & K & I & E).
  - splits; auto; [intros a; rewrite I0; constructor|]. intros a b v. rewrite eget_inner, I0. cbn. split; [congruence|tauto].
  - intros pre [[a b] v] post d E (K & I & P).
    assert (edge g a b = Some v) as He by (apply In_edges; [exact W|]; rewrite E, in_app_iff; cbn; auto).
    destruct (edge_nodes _ _ _ _ W He) as [Ha Hb]. rewrite <- K in Ha. destruct (dget_key _ _ Ha) as [inn Hi]. rewrite Hi.
    assert (inner d a = inn) as Hin by (unfold inner; rewrite Hi; reflexivity).
    eexists. split; [reflexivity|]. splits.
    + rewrite dkeys_dset_in; assumption.
    + intros x. rewrite inner_dset. destruct (eq_dec x a) as [->|]; [|apply I]. apply NoDup_dset. rewrite <- Hin. apply I.
    + intros x y w. rewrite <- Hin. change (dset a (dset b v (inner d a)) d) with (nset a b v d). rewrite eget_nset.
      rewrite in_app_iff. cbn. pose proof (NoDup_edges g W) as ND. rewrite E in ND.
      destruct (eq_dec x a) as [->|Hx]; [destruct (eq_dec y b) as [->|Hy]|].
      * split; [intros H; inv H; auto|]. intros [H|[H|[]]]; [|congruence].
        f_equal. eapply (edge_NoDup_keys_unique _ a b); [exact ND| |]; rewrite in_app_iff; cbn; eauto.
      * rewrite P. split; [auto|]. intros [H|[H|[]]]; [auto|congruence].
      * rewrite P. split; [auto|]. intros [H|[H|[]]]; [auto|congruence].
  - exists d. splits; auto. intros a b. destruct (edge g a b) as [v|] eqn:Ee.
    + apply E, In_edges; assumption.
    + destruct (eget d a b) as [v|] eqn:Ed; [|reflexivity]. apply E, In_edges in Ed; [congruence|exact W]. Qed.

(** Python dicts have distinct keys at both levels *)
Definition pydict (d : dict A (dict A V)) : Prop := NoDup (dkeys d) /\ forall a o, In (a, o) d -> NoDup (dkeys o).

Lemma from_dict_spec d : pydict d -> exists g, from_dict empty_graph d = Ok g /\ wf g /\ clean g /\
  (forall a b, edge g a b = eget d a b) /\ (forall n, node g n = None) /\
  (forall n, In n (nodes g) <-> In n (dkeys d) \/ exists a v, eget d a n = Some v).
Proof. intros [K I]. unfold from_dict.
  pose proof (foldM_inv_prefix (fun (pre : dict A (dict A V)) g => wf g /\ clean g /\
     (forall a b, edge g a b = eget pre a b) /\ (forall n, node g n = None) /\
     (forall n, In n (nodes g) <-> In n (dkeys pre) \/ exists a v, eget pre a n = Some v))
     (fun (g : graph) (p : A * dict A V) =>
           if is_nil (snd p) then Ok (add_node g (fst p) None)
           else foldM (fun g (q : A * V) => add_edge g (fst p) (fst q) (snd q) false) (snd p) g) d empty_graph) as H.
  apply H; clear H.
  - splits; auto using wf_empty, clean_empty. intros n. cbn. split; [tauto|]. intros [[]|(? & ? & H)]. discriminate.
  - intros pre [a o] post g E (W & C & P & N & M). cbn [fst snd].
    assert (NoDup (dkeys o)) as Ho by (apply (I a); rewrite E, in_app_iff; cbn; auto).
    assert (~ In a (dkeys pre)) as Ha.
    { rewrite E in K. unfold dkeys in K. rewrite map_app in K. apply NoDup_remove_2 in K. rewrite in_app_iff in K. tauto. }
    assert (forall x y, eget (pre ++ [(a, o)]) x y = if eq_dec x a then dget y o else eget pre x y) as G.
    { intros x y. unfold eget. destruct (eq_dec x a) as [->|Hx].
      - rewrite dget_app_notin by exact Ha. cbn. destruct (eq_dec a a); [reflexivity|congruence].
      - assert (dget x (pre ++ [(a, o)]) = dget x pre) as ->; [|reflexivity].
        clear - Hx. induction pre as [|[k v] pre IH]; cbn; [destruct (eq_dec x a); congruence|]. destruct (eq_dec x k); auto. }
    assert (forall x, In x (dkeys (pre ++ [(a, o)])) <-> In x (dkeys pre) \/ x = a) as G2.
    { intros x. unfold dkeys. rewrite map_app, in_app_iff. cbn. intuition. }
    assert (forall y, eget pre a y = None) as Pa.
    { intros y. unfold eget. apply dget_None in Ha. rewrite Ha. reflexivity. }
    destruct o as [|q o]; cbn [is_nil].
    + eexists. split; [reflexivity|]. splits; auto using wf_add_node, clean_add_node.
      * intros x y. rewrite edge_add_node, P, G. destruct (eq_dec x a) as [->|]; [|reflexivity]. apply Pa.
      * intros n. rewrite node_add_node, N. destruct (eq_dec n a); reflexivity.
      * intros n. rewrite nodes_add_node, In_sadd, M, G2. split.
        -- intros [->|[H|(x & v & H)]]; auto. right. exists x, v. rewrite G. destruct (eq_dec x a) as [->|]; [rewrite Pa in H; discriminate|exact H].
        -- intros [[H|H]|(x & v & H)]; auto. rewrite G in H. destruct (eq_dec x a); [discriminate|]. right. right. eauto.
    + set (o' := q :: o) in *.
      pose proof (add_edges_spec (map (fun p => (a, fst p, snd p)) o') g W) as HA.
      destruct HA as (g' & F & W' & C' & E1 & E2 & N' & M').
      { clear - Ho. induction o' as [|[b v] l IH]; cbn in *; [constructor|]. inv Ho. constructor; [|auto].
        rewrite map_map. intros Hi. apply in_map_iff in Hi as ([b' v'] & E & Hi). unfold ekey in E; cbn in E; inv E.
        apply H1. apply (in_map fst) in Hi. exact Hi. }
      assert (foldM (fun g (q : A * V) => add_edge g a (fst q) (snd q) false) o' g = Ok g') as F'.
      { rewrite <- F. clear. generalize g. induction o' as [|[b v] l IH]; intros g0; cbn [foldM map]; [reflexivity|].
        cbn [fst snd]. destruct (add_edge g0 a b v false); cbn; auto. }
      rewrite F'. eexists. split; [reflexivity|]. splits; auto.
      * intros x y. rewrite G. destruct (eq_dec x a) as [->|Hx].
        -- destruct (dget y o') as [v|] eqn:Ey.
           ++ apply E1. apply in_map_iff. exists (y, v). split; [reflexivity|apply dget_In, Ey].
           ++ rewrite E2; [rewrite P; apply Pa|]. intros Hi. rewrite map_map in Hi. apply in_map_iff in Hi as ([b v] & E3 & Hi).
              unfold ekey in E3; cbn in E3; inv E3. apply dget_None in Ey. apply Ey. apply (in_map fst) in Hi. exact Hi.
        -- rewrite E2; [apply P|]. intros Hi. rewrite map_map in Hi. apply in_map_iff in Hi as ([b v] & E3 & Hi).
           unfold ekey in E3; cbn in E3; inv E3. congruence.
      * intros n. rewrite N'. apply N.
      * intros n. rewrite M', M, G2. split.
        -- intros [[H|(x & v & H)]|(e & Hi & H)].
           ++ auto.
           ++ right. exists x, v. rewrite G. destruct (eq_dec x a) as [->|]; [rewrite Pa in H; discriminate|exact H].
           ++ apply in_map_iff in Hi as ([b v] & <- & Hi). cbn in H. destruct H as [->| ->]; [auto|].
              right. exists a, v. rewrite G. destruct (eq_dec a a); [|congruence]. apply In_dget; assumption.
        -- intros [[H| ->]|(x & v & H)]; auto.
           ++ right. destruct q as [b v]. exists (a, b, v). split; [left; reflexivity|cbn; auto].
           ++ rewrite G in H. destruct (eq_dec x a) as [->|]; [|eauto].
              right. exists (a, n, v). split; [|cbn; auto]. apply in_map_iff. exists (n, v). split; [reflexivity|apply dget_In, H]. Qed.

(** ** from_list . to_list *)
Lemma from_list_to_list g : wf g -> exists g', from_list empty_graph (to_list g) = Ok g' /\ wf g' /\ clean g' /\
  (forall a b, edge g' a b = edge g a b) /\ (forall n, In n (nodes g') <-> In n (nodes g)) /\ (forall n, node g' n = None).
Proof. intros W. unfold from_list, to_list. rewrite foldM_app.
  destruct (add_edges_spec (edges g) empty_graph wf_empty (NoDup_edges g W)) as (g1 & F & W1 & C1 & E1 & E2 & N1 & M1).
  assert (foldM add_link (map (fun e => LEdge (fst (fst e)) (snd (fst e)) (snd e)) (edges g)) empty_graph = Ok g1) as ->.
  { rewrite <- F. generalize (@empty_graph A O V) as g0. generalize (edges g) as l0. clear.
    induction l0 as [|[[a b] v] l IH]; intros g0; cbn [map foldM]; [reflexivity|].
    cbn [fst snd add_link]. destruct (add_edge g0 a b v false); cbn [bind]; auto. }
  cbn [bind].
  assert (forall l g0, wf g0 -> clean g0 -> exists g', foldM add_link (map LNode l) g0 = Ok g' /\ wf g' /\ clean g' /\
    (forall a b, edge g' a b = edge g0 a b) /\ (forall n, In n (nodes g') <-> In n (nodes g0) \/ In n l) /\
    (forall n, (forall n, node g0 n = None) -> node g' n = None)) as HN.
  { induction l as [|x l IH]; intros g0 W0 C0; cbn [map foldM].
    - exists g0. splits; auto. intros n. cbn [In]. tauto.
    - cbn [add_link bind]. destruct (IH _ (wf_add_node g0 x None W0) (clean_add_node g0 x None C0)) as (g' & -> & W' & C' & E' & N' & M').
      exists g'. splits; auto.
      + intros a b. rewrite E'. apply edge_add_node.
      + intros n. rewrite N', nodes_add_node, In_sadd. cbn [In]. intuition congruence.
      + intros n Hn. apply M'. intros m. rewrite node_add_node, Hn. destruct (eq_dec m x); reflexivity. }
  destruct (HN (nodes g) g1 W1 (C1 clean_empty)) as (g' & -> & W' & C' & E' & N' & M').
  exists g'. splits; auto.
  - intros a b. rewrite E'. destruct (edge g a b) as [v|] eqn:E.
    + apply E1, In_edges; assumption.
    + rewrite E2; [reflexivity|]. intros Hi. apply in_map_iff in Hi as ([[a' b'] v] & E3 & Hi). unfold ekey in E3; cbn in E3; inv E3.
      apply In_edges in Hi; [congruence|exact W].
  - intros n. rewrite N', M1. cbn. split; [|auto]. intros [[[]|([[a b] v] & Hi & H)]|H]; [|exact H].
    apply In_edges in Hi; [|exact W]. destruct (edge_nodes _ _ _ _ W Hi). cbn in H. destruct H; subst; assumption. Qed.

(** ** subgraph *)
Lemma subgraph_spec g ns : wf g -> exists g', subgraph g ns = Ok g' /\ wf g' /\ clean g' /\
  (forall n, In n (nodes g') <-> In n ns) /\
  (forall n, In n ns -> node g' n = node g n) /\
  (forall a b, edge g' a b = if mem a ns && mem b ns then edge g a b else None).
Proof. intros W. unfold subgraph.
  match goal with |- context[foldM ?f ns empty_graph] => set (F := f) end.
  destruct (foldM_inv_prefix (fun pre g' => wf g' /\ clean g' /\ (forall n, In n (nodes g') -> In n ns) /\
     (forall n, In n pre -> In n (nodes g') /\ node g' n = node g n) /\
     (forall a b, edge g' a b = if mem a pre && mem b ns then edge g a b else None)) F ns empty_graph)
    as (g' & -> & W' & C' & N1 & N2 & E).
  - splits; auto using wf_empty, clean_empty; intros n; intros [].
  - intros pre a post g' Ens (W' & C' & N1 & N2 & E). unfold F.
    set (g1 := add_node g' a (node g a)).
    destruct (foldM_inv_prefix (fun pr g2 => wf g2 /\ clean g2 /\ (forall n, In n (nodes g2) -> In n ns) /\
       (forall n, In n (nodes g1) -> In n (nodes g2)) /\ (forall n, node g2 n = node g1 n) /\
       (forall x y, edge g2 x y = if eqb x a && mem y pr && mem y ns then edge g x y else edge g1 x y))
       (fun g'' n2 => if mem n2 ns then match edge g a n2 with Some v => add_edge g'' a n2 v false | None => Err TypeError end else Ok g'')
       (nodes_from g a) g1) as (g2 & -> & W2 & C2 & M1 & M2 & M3 & E2).
    + splits; auto.
      * apply wf_add_node, W'.
      * apply clean_add_node, C'.
      * intros n. unfold g1. rewrite nodes_add_node, In_sadd. intros [->|H]; [|auto]. rewrite Ens, in_app_iff. cbn. auto.
      * intros x y. cbn [mem]. rewrite andb_false_r. reflexivity.
    + intros pr b po g2 Ef (W2 & C2 & M1 & M2 & M3 & E2).
      assert (exists v, edge g a b = Some v) as [v Hv].
      { apply In_nodes_from; [exact W|]. rewrite Ef, in_app_iff. cbn. auto. }
      destruct (mem b ns) eqn:Eb.
      * rewrite Hv, add_edge_eq by exact W2. unfold add_edge_result. eexists. split; [reflexivity|].
        splits.
        -- apply wf_add_edge1_result, W2.
        -- apply clean_add_edge1_result, C2.
        -- intros n. rewrite nodes_add_edge1_result, !In_sadd. apply mem_In in Eb. intros [->|[->|H]]; auto.
           rewrite Ens, in_app_iff. cbn. auto.
        -- intros n H. rewrite nodes_add_edge1_result, !In_sadd. auto.
        -- intros n. rewrite node_add_edge1_result. auto.
        -- intros x y. rewrite edge_add_edge1_result, E2. unfold eqb.
           destruct (eq_dec x a) as [->|]; [|reflexivity]. cbn [andb].
           destruct (eq_dec y b) as [->|Hy].
           ++ assert (mem b (pr ++ [b]) = true) as -> by (apply mem_In; rewrite in_app_iff; cbn; auto).
              rewrite Eb. cbn. congruence.
           ++ assert (mem y (pr ++ [b]) = mem y pr) as ->; [|reflexivity].
              apply mem_cong. rewrite in_app_iff. cbn. intuition congruence.
      * eexists. split; [reflexivity|]. splits; auto. intros x y. rewrite E2. unfold eqb.
        destruct (eq_dec x a); [|reflexivity]. cbn [andb]. destruct (mem y ns) eqn:Ey; [|rewrite !andb_false_r; reflexivity].
        assert (mem y (pr ++ [b]) = mem y pr) as ->; [|reflexivity].
        apply mem_cong. rewrite in_app_iff. cbn. intuition congruence.
    + eexists. split; [reflexivity|]. splits; auto.
      * intros n Hn. rewrite in_app_iff in Hn. cbn in Hn. split.
        -- apply M2. unfold g1. rewrite nodes_add_node, In_sadd. destruct Hn as [H|[->|[]]]; [right; apply N2, H|auto].
        -- rewrite M3. unfold g1. rewrite node_add_node. destruct (eq_dec n a) as [->|]; [reflexivity|].
           apply N2. destruct Hn as [H|[->|[]]]; [exact H|congruence].
      * intros x y. rewrite E2. unfold g1. rewrite edge_add_node, E. unfold eqb.
        destruct (eq_dec x a) as [->|Hx].
        -- cbn [andb]. assert (mem a (pre ++ [a]) = true) as -> by (apply mem_In; rewrite in_app_iff; cbn; auto). cbn [andb].
           destruct (mem y ns) eqn:Ey; rewrite ?andb_false_r, ?andb_true_r; [|reflexivity].
           destruct (mem_spec y (nodes_from g a)) as [Hi|Hi]; [reflexivity|].
           destruct (edge g a y) as [w|] eqn:Ew; [|destruct (mem a pre); reflexivity].
           exfalso. apply Hi. apply In_nodes_from; eauto.
        -- cbn [andb]. assert (mem x (pre ++ [a]) = mem x pre) as ->; [|reflexivity].
           apply mem_cong. rewrite in_app_iff. cbn. intuition congruence.
  - exists g'. splits; auto.
    + intros n. split; [apply N1|]. intros H. apply N2, H.
    + intros n H. apply N2, H. Qed.
End Obs.

(** ** equality *)
Section EqFacts.
Context {A O V : Type} {EA : EqDec A} {EO : EqDec O} {EV : EqDec V}.
Notation graph := (graph A O V).
Implicit Types (g : graph).

Lemma dict_eqb_spec {X} (xeq : X -> X -> bool) (d1 d2 : dict A X) : NoDup (dkeys d1) -> NoDup (dkeys d2) ->
  (dict_eqb xeq d1 d2 = true <->
   forall k, match dget k d1, dget k d2 with Some x, Some y => xeq x y = true | None, None => True | _, _ => False end).
Proof. intros N1 N2. unfold dict_eqb. rewrite andb_true_iff, Nat.eqb_eq, forallb_forall. split.
  - intros [HL H]. 
    assert (incl (dkeys d1) (dkeys d2)) as I1.
    { intros k Hk. destruct (dget_key _ _ Hk) as [x Hx]. apply dget_In in Hx. specialize (H _ Hx). cbn in H.
      destruct (dget k d2) eqn:E; [eapply dget_Some_key; eauto|discriminate]. }
    assert (incl (dkeys d2) (dkeys d1)) as I2.
    { apply NoDup_length_incl; [exact N1|rewrite !dkeys_length; lia|exact I1]. }
    intros k. destruct (dget k d1) as [x|] eqn:E1.
    + pose proof (dget_In _ _ _ E1) as Hi. specialize (H _ Hi). cbn in H. destruct (dget k d2); [exact H|discriminate].
    + destruct (dget k d2) as [y|] eqn:E2; [|exact I]. apply dget_Some_key in E2. apply I2 in E2. apply dget_None in E1. tauto.
  - intros H. split.
    + rewrite <- !dkeys_length. apply Nat.le_antisymm; apply NoDup_incl_length; auto; intros k Hk; destruct (dget_key _ _ Hk) as [x Hx];
        specialize (H k); rewrite Hx in H.
      * destruct (dget k d2) eqn:E; [eapply dget_Some_key; eauto|tauto].
      * destruct (dget k d1) eqn:E; [eapply dget_Some_key; eauto|tauto].
    + intros [k x] Hi. cbn. apply In_dget in Hi; [|exact N1]. specialize (H k). rewrite Hi in H.
      destruct (dget k d2); [exact H|tauto]. Qed.

Lemma edges_length_le g1 g2 : wf g1 -> wf g2 -> (forall a b v, edge g1 a b = Some v -> edge g2 a b = Some v) ->
  length (edges g1) <= length (edges g2).
Proof. intros W1 W2 H. rewrite <- (map_length ekey (edges g1)), <- (map_length ekey (edges g2)).
  apply NoDup_incl_length; [apply NoDup_edges, W1|]. intros [a b] Hi.
  apply in_map_iff in Hi as ([[a' b'] v] & E & Hi). unfold ekey in E; cbn in E; inv E.
  apply in_map_iff. exists (a, b, v). split; [reflexivity|]. apply In_edges; [exact W2|]. apply H, In_edges, Hi. exact W1. Qed.

Lemma graph_eqb_spec g1 g2 : wf g1 -> wf g2 ->
  (graph_eqb g1 g2 = true <->
   (forall n, dget n (g_nodes g1) = dget n (g_nodes g2)) /\ (forall a b, edge g1 a b = edge g2 a b)).
Proof. intros W1 W2. unfold graph_eqb. rewrite !andb_true_iff.
  rewrite (dict_eqb_spec _ (g_nodes g1) (g_nodes g2)) by (apply W1 || apply W2).
  rewrite (dict_eqb_spec _ (g_edges g1) (g_edges g2)) by (apply W1 || apply W2). split.
  - intros [[H1 _] H2]. split.
    + intros n. specialize (H1 n). destruct (dget n (g_nodes g1)), (dget n (g_nodes g2)); try tauto. apply eqb_eq in H1. congruence.
    + intros a b. specialize (H2 a). unfold edge, eget.
      destruct (dget a (g_edges g1)) as [o1|] eqn:E1, (dget a (g_edges g2)) as [o2|] eqn:E2; try tauto.
      rewrite dict_eqb_spec in H2; [|apply (nwf_inner _ (wf_e _ W1) a), E1|apply (nwf_inner _ (wf_e _ W2) a), E2].
      specialize (H2 b). destruct (dget b o1), (dget b o2); try tauto. apply eqb_eq in H2. congruence.
  - intros [H1 H2]. splits.
    + intros n. rewrite H1. destruct (dget n (g_nodes g2)); [apply eqb_refl|exact I].
    + apply Z.eqb_eq. rewrite (count_edges g1 W1), (count_edges g2 W2). f_equal.
      apply Nat.le_antisymm; apply edges_length_le; auto; intros a b v; rewrite H2; auto.
    + intros a. destruct (dget a (g_edges g1)) as [o1|] eqn:E1.
      * destruct (nwf_inner _ (wf_e _ W1) a o1 E1) as [N1 NE1].
        destruct (dget a (g_edges g2)) as [o2|] eqn:E2.
        -- apply dict_eqb_spec; [exact N1|apply (nwf_inner _ (wf_e _ W2) a), E2|].
           intros b. specialize (H2 a b). unfold edge, eget in H2. rewrite E1, E2 in H2. rewrite H2. destruct (dget b o2); [apply eqb_refl|exact I].
        -- destruct o1 as [|[b v] o1]; [congruence|]. specialize (H2 a b). unfold edge, eget in H2. rewrite E1, E2 in H2. cbn in H2.
           destruct (eq_dec b b); [discriminate|congruence].
      * destruct (dget a (g_edges g2)) as [o2|] eqn:E2; [|exact I]. destruct (nwf_inner _ (wf_e _ W2) a o2 E2) as [N2 NE2].
        destruct o2 as [|[b v] o2]; [congruence|]. specialize (H2 a b). unfold edge, eget in H2. rewrite E1, E2 in H2. cbn in H2.
        destruct (eq_dec b b); [discriminate|congruence]. Qed.

Lemma is_subgraph_spec g1 g2 : wf g1 -> wf g2 ->
  (is_subgraph g1 g2 = true <-> incl (nodes g1) (nodes g2) /\ forall a b v, edge g1 a b = Some v -> edge g2 a b = Some v).
Proof. intros W1 W2. unfold is_subgraph. rewrite andb_true_iff, !forallb_forall. split.
  - intros [H1 H2]. split.
    + intros n Hn. apply mem_In, H1, Hn.
    + intros a b v H. apply In_edges in H; [|exact W1]. specialize (H2 _ H). apply mem_In, In_edges in H2; assumption.
  - intros [H1 H2]. split.
    + intros n Hn. apply mem_In, H1, Hn.
    + intros [[a b] v] Hi. apply mem_In, In_edges; [exact W2|]. apply In_edges in Hi; auto. Qed.
End EqFacts.

(** ** same_path *)
Section SamePath.
Context {A : Type} {EA : EqDec A}.

Lemma In_enumerate {X} (l : list X) : forall i k x,
  In (k, x) (enumerate_from i l) <-> exists j, k = i + j /\ nth_error l j = Some x.
Proof. induction l as [|y l IH]; intros i k x; cbn.
  - split; [tauto|]. intros (j & _ & H). destruct j; discriminate.
  - rewrite IH. split.
    + intros [H|(j & -> & H)]; [inv H; exists 0; split; [lia|reflexivity]|]. exists (S j). split; [lia|exact H].
    + intros ([|j] & -> & H); [left; cbn in H; inv H; f_equal; lia|]. right. exists j. split; [lia|exact H]. Qed.
Lemma forallb_combine_eq (l1 l2 : list A) : length l1 = length l2 ->
  (forallb (fun q => eqb (fst q) (snd q)) (combine l1 l2) = true <-> l1 = l2).
Proof. revert l2. induction l1 as [|x l1 IH]; intros [|y l2]; cbn; try discriminate; [tauto|]. intros H. inv H.
  rewrite andb_true_iff, eqb_true, IH by assumption. intuition congruence. Qed.
Lemma same_set_refl_perm (l1 l2 : list A) : Permutation l1 l2 -> same_set l1 l2 = true.
Proof. intros P. unfold same_set. rewrite andb_true_iff, !forallb_forall. split; intros x Hx; apply mem_In.
  - eapply Permutation_in; eauto. - eapply Permutation_in; [symmetry|]; eauto. Qed.

Lemma same_path_spec (p1 p2 : list A) : p1 <> [] ->
  (same_path false p1 p2 = true <-> exists l1 l2, p1 = l1 ++ l2 /\ p2 = l2 ++ l1).
Proof. intros Hne. unfold same_path. split.
  - destruct (Nat.eqb_spec (length p1) (length p2)) as [HL|]; [|discriminate]. destruct (same_set p1 p2); [|discriminate].
    cbn [negb orb]. destruct p1 as [|h t]; [congruence|]. rewrite existsb_exists. intros (k & _ & H).
    apply forallb_combine_eq in H.
    + exists (skipn k p2), (firstn k p2). split; [exact H|]. symmetry. apply firstn_skipn.
    + rewrite HL, app_length. rewrite <- (firstn_skipn k p2) at 1. rewrite app_length. lia.
  - intros (l1 & l2 & E1 & E2).
    assert (Permutation p1 p2) as P by (subst; apply Permutation_app_comm).
    rewrite (Permutation_length P), Nat.eqb_refl, (same_set_refl_perm _ _ P). cbn [negb orb].
    destruct p1 as [|h t]; [congruence|]. rewrite existsb_exists.
    destruct l1 as [|h1 l1].
    + (* rotation by 0: p2 = p1 *)
      rewrite app_nil_r in E2. cbn in E1. subst l2. subst p2. exists 0. split.
      * apply in_map_iff. exists (0, h). split; [reflexivity|]. apply filter_In. split; [|cbn; apply eqb_refl].
        apply In_enumerate. exists 0. split; reflexivity.
      * apply forallb_combine_eq; cbn; rewrite app_nil_r; reflexivity.
    + exists (length l2). split.
      * apply in_map_iff. exists (length l2, h). split; [reflexivity|]. apply filter_In. split; [|cbn; apply eqb_refl].
        apply In_enumerate. exists (length l2). split; [reflexivity|]. subst p2. rewrite nth_error_app2 by lia.
        rewrite Nat.sub_diag. cbn. cbn in E1. congruence.
      * subst p2. rewrite skipn_app, firstn_app, skipn_all, firstn_all, Nat.sub_diag. cbn [app skipn firstn]. rewrite app_nil_r.
        apply forallb_combine_eq; [|exact E1]. rewrite E1. reflexivity. Qed.
End SamePath.
