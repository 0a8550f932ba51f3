(** Property theorems C56-C58 (merkle_tree, graph_hash, flow_graph_hash). *)
From Coq Require Import Sorted.
From Verif Require Import Prelude PreludeFacts Base BaseFacts BaseFacts2 BaseFacts3 Spec SpecFacts Loop SearchFacts
  BaseAlgFacts MiscSpec Hash HashFacts FlowHashFacts.

Section Merkle.
(** [H] is any hash function, [enc] the bytes of a digest; digests have a fixed length k. *)
Context {Byte D : Type} {ED : EqDec D} (H : list Byte -> D) (enc : D -> list Byte).
(** C56, structure: every block's digest is a node, every node reaches the root, nodes other than the root have
    a parent.  No assumption on H. *)
Theorem C56_merkle_root_reached (bs : list (list Byte)) : bs <> [] ->
  exists g root, returns (fun n => merkle_tree H enc n bs) (Ok (Some g)) /\ reachable g /\ root = digest H enc (merkle_term bs) /\
    contains g root = true /\ (forall b, In b bs -> contains g (H b) = true) /\
    (forall x, contains g x = true -> reach (has_edge g) x root) /\
    (forall x, contains g x = true -> x <> root -> exists y, has_edge g x y).
Proof. intros Hne. destruct (merkle_spec H enc bs Hne) as (g & Hg & [_ R HN HE]). cbn [snd] in *. exists g, (digest H enc (merkle_term bs)).
  assert (forall x, contains g x = true -> reach (has_edge g) x (digest H enc (merkle_term bs))) as HR.
  { intros x Hx. apply contains_In, HN in Hx. destruct Hx as (t & s & [<-|[]] & Hs & ->). apply (sub_reach H enc (merkle_term bs)); [|apply sub_refl|exact Hs].
    intros a b Hab. split; apply HE; exists (merkle_term bs), a, b; splits; cbn; auto. }
  splits; auto.
  - apply contains_In, HN. exists (merkle_term bs), (merkle_term bs). splits; [cbn; auto|apply sub_refl|reflexivity].
  - intros b Hb. apply contains_In, HN. exists (merkle_term bs), (Leaf b). splits; [cbn; auto| |reflexivity]. apply (block_sub H enc). apply (Permutation_in _ (Permutation_sym (merkle_blocks bs Hne))), Hb.
  - intros x Hx Hne'. destruct (HR x Hx) as [p Hp]. destruct Hp as [|x y p z Hxy Hp]; [congruence|eauto]. Qed.
(** single root: if no two strings hashed in the run collide and no block is as long as two digests, the root is
    the only node without an outgoing edge *)
Theorem C56_merkle_single_root (bs : list (list Byte)) k : bs <> [] -> (forall d, length (enc d) = k) -> (forall d d', enc d = enc d' -> d = d') ->
  collision_free H enc [merkle_term bs] -> (forall b, In b bs -> length b <> k + k) ->
  exists g root, returns (fun n => merkle_tree H enc n bs) (Ok (Some g)) /\ contains g root = true /\
    forall x, contains g x = true -> ((forall y, ~ has_edge g x y) <-> x = root).
Proof. intros Hne Hk Hinj CF B. destruct (C56_merkle_root_reached bs Hne) as (g & root & Hg & R & -> & H1 & H2 & H3 & H4). exists g, (digest H enc (merkle_term bs)). splits; auto.
  intros x Hx. split.
  - intros Hno. destruct (eq_dec x (digest H enc (merkle_term bs))) as [E|E]; [exact E|]. destruct (H4 x Hx E) as [y Hy]. destruct (Hno y Hy).
  - intros -> y Hy. destruct (merkle_spec H enc bs Hne) as (g' & Hg' & [_ _ _ HE]). cbn [snd] in HE. pose proof (returns_fun _ _ _ Hg Hg') as E. inversion E; subst g'. apply HE in Hy.
    destruct Hy as (t & a & b & [<-|[]] & Hs & _ & Hx').
    destruct (top_unique H enc k Hk Hinj (merkle_term bs) a b CF) as [T1 T2]; [intros c Hc; apply B; apply (Permutation_in _ (merkle_blocks bs Hne)), Hc|exact Hs|]. tauto. Qed.
(** the root determines the blocks: lists of blocks, none as long as two digests, no collisions among the strings
    hashed in the two runs *)
Theorem C56_root_determines_blocks (bs bs' : list (list Byte)) k : bs <> [] -> bs' <> [] ->
  (forall d, length (enc d) = k) -> (forall d d', enc d = enc d' -> d = d') ->
  collision_free H enc [merkle_term bs; merkle_term bs'] -> (forall b, In b bs \/ In b bs' -> length b <> k + k) ->
  digest H enc (merkle_term bs) = digest H enc (merkle_term bs') -> bs = bs'.
Proof. intros H1 H2 H3 H4 CF B. apply (root_determines H enc k H3 H4 bs bs' H1 H2 CF). intros b d d' Hb E. apply (B b Hb). rewrite E, app_length, !H3. reflexivity. Qed.
(** the same in terms of the returned graphs: a node without outgoing edges in both is enough *)
Theorem C56_same_root_same_blocks (bs bs' : list (list Byte)) k g g' root : bs <> [] -> bs' <> [] ->
  (forall d, length (enc d) = k) -> (forall d d', enc d = enc d' -> d = d') ->
  collision_free H enc [merkle_term bs; merkle_term bs'] -> (forall b, In b bs \/ In b bs' -> length b <> k + k) ->
  returns (fun n => merkle_tree H enc n bs) (Ok (Some g)) -> returns (fun n => merkle_tree H enc n bs') (Ok (Some g')) ->
  contains g root = true -> (forall y, ~ has_edge g root y) -> contains g' root = true -> (forall y, ~ has_edge g' root y) -> bs = bs'.
Proof. intros H1 H2 Hk Hi CF B Hg Hg' C1 N1 C2 N2.
  assert (forall bs0 g0, bs0 <> [] -> returns (fun n => merkle_tree H enc n bs0) (Ok (Some g0)) -> contains g0 root = true -> (forall y, ~ has_edge g0 root y) -> root = digest H enc (merkle_term bs0)) as HR.
  { intros bs0 g0 Hn Hr C N. destruct (C56_merkle_root_reached bs0 Hn) as (g1 & r1 & Hg1 & _ & E & _ & _ & _ & H4). pose proof (returns_fun _ _ _ Hr Hg1) as Eg. inversion Eg; subst g1.
    destruct (eq_dec root r1) as [->|Hne]; [exact E|]. destruct (H4 root C Hne) as [y Hy]. destruct (N y Hy). }
  apply (C56_root_determines_blocks bs bs' k H1 H2 Hk Hi CF B). rewrite <- (HR bs g), <- (HR bs' g'); auto. Qed.
(** ... and for lists of equal length without a restriction on the block lengths *)
Theorem C56_root_determines_blocks_same_number (bs bs' : list (list Byte)) k : length bs = length bs' -> bs <> [] ->
  (forall d, length (enc d) = k) -> (forall d d', enc d = enc d' -> d = d') ->
  collision_free H enc [merkle_term bs; merkle_term bs'] -> digest H enc (merkle_term bs) = digest H enc (merkle_term bs') -> bs = bs'.
Proof. intros H1 H2 H3 H4. apply (root_determines_same_length H enc k H3 H4 bs bs' H1 H2). Qed.
Theorem C56_no_blocks : returns (fun n => merkle_tree H enc n []) (Ok None).
Proof. apply merkle_empty. Qed.
(** C70: without the restriction the root does not determine the blocks, whatever the hash function: the single
    block consisting of the two digests has the same root as the two blocks. *)
(** True part: that is the only way.  If no block is the concatenation of two digests (for sha256: of two hex digests), the
    root determines the blocks, or the run shows a collision. *)
Theorem C70_no_digest_pairs_partial (bs bs' : list (list Byte)) k : bs <> [] -> bs' <> [] ->
  (forall d, length (enc d) = k) -> (forall d d', enc d = enc d' -> d = d') ->
  collision_free H enc [merkle_term bs; merkle_term bs'] -> (forall b d d', In b bs \/ In b bs' -> b <> enc d ++ enc d') ->
  digest H enc (merkle_term bs) = digest H enc (merkle_term bs') -> bs = bs'.
Proof. intros H1 H2 H3 H4. apply (root_determines H enc k H3 H4 bs bs' H1 H2). Qed.
Theorem C70_second_preimage_refuted (a b : list Byte) : [a; b] <> [enc (H a) ++ enc (H b)] /\
  digest H enc (merkle_term [a; b]) = digest H enc (merkle_term [enc (H a) ++ enc (H b)]).
Proof. split; [discriminate|reflexivity]. Qed.
End Merkle.
(** a concrete collision free instance: digests are strings of length 1 (a pairing of numbers as hash function) *)
Definition toyH (l : list nat) : nat := fold_left (fun acc x => 10 * acc + x + 1) l 0.
Definition toy_enc (d : nat) : list nat := [d].
Example ex_merkle : (forall d, length (toy_enc d) = 1) /\ (forall d d', toy_enc d = toy_enc d' -> d = d') /\
  collision_free toyH toy_enc [merkle_term [[1]; [2]; [3]]] /\ (forall b, In b [[1]; [2]; [3]] -> length b <> 1 + 1) /\
  exists g, merkle_tree toyH toy_enc 5 [[1]; [2]; [3]] = Ok (Some g) /\ edges g = [(2, 34, 1%Z); (3, 34, 1%Z); (4, 85, 1%Z); (34, 85, 1%Z)].
Proof. splits; [reflexivity|intros d d' E; inversion E; reflexivity| |cbn; intros b [<-|[<-|[<-|[]]]]; cbn; lia|eexists; split; vm_compute; reflexivity].
  intros t t' s s' [<-|[]] [<-|[]] Hs Hs' E. vm_compute in Hs, Hs'. repeat destruct Hs as [<-|Hs]; try destruct Hs; repeat destruct Hs' as [<-|Hs']; try destruct Hs'; vm_compute in E; try discriminate; reflexivity. Qed.
(** blocks as long as two digests, but no digests *)
Definition toy_enc2 (d : nat) : list nat := [0; d].
Example ex_merkle_pairs : (forall d, length (toy_enc2 d) = 2) /\ (forall d d', toy_enc2 d = toy_enc2 d' -> d = d') /\
  collision_free toyH toy_enc2 [merkle_term [[1; 1; 1; 1]; [2]]; merkle_term [[2]; [3]]] /\
  (forall b d d', In b [[1; 1; 1; 1]; [2]] \/ In b [[2]; [3]] -> b <> toy_enc2 d ++ toy_enc2 d') /\
  Nat.eqb (digest toyH toy_enc2 (merkle_term [[1; 1; 1; 1]; [2]])) (digest toyH toy_enc2 (merkle_term [[2]; [3]])) = false.
Proof. splits; [reflexivity|intros d d' E; inversion E; reflexivity| |cbn; intros b d d' [[<-|[<-|[]]]|[<-|[<-|[]]]]; discriminate|vm_compute; reflexivity].
  assert (forall s, In s (subtrees (merkle_term [[1; 1; 1; 1]; [2]]) ++ subtrees (merkle_term [[2]; [3]])) ->
    In s [Leaf [1; 1; 1; 1]; Leaf [2]; Leaf [3]; Node (Leaf [1; 1; 1; 1]) (Leaf [2]); Node (Leaf [2]) (Leaf [3])]) as HL by (cbn; intros s Hs; tauto).
  assert (forall s s', In s [Leaf [1; 1; 1; 1]; Leaf [2]; Leaf [3]; Node (Leaf [1; 1; 1; 1]) (Leaf [2]); Node (Leaf [2]) (Leaf [3])] ->
    In s' [Leaf [1; 1; 1; 1]; Leaf [2]; Leaf [3]; Node (Leaf [1; 1; 1; 1]) (Leaf [2]); Node (Leaf [2]) (Leaf [3])] -> N.eqb (N.of_nat (digest toyH toy_enc2 s)) (N.of_nat (digest toyH toy_enc2 s')) = true -> s = s') as HI.
  { intros s s' Hs Hs'. repeat destruct Hs as [<-|Hs]; try destruct Hs; repeat destruct Hs' as [<-|Hs']; try destruct Hs'; try (intros _; reflexivity); vm_compute; discriminate. }
  intros t t' s s' Ht Ht' Hs Hs' E. f_equal. apply HI; [apply HL|apply HL|rewrite E; apply N.eqb_refl].
  - apply in_app_iff. destruct Ht as [<-|[<-|[]]]; auto.
  - apply in_app_iff. destruct Ht' as [<-|[<-|[]]]; auto. Qed.

Section GraphHash.
Context {A O V B D : Type} {EA : EqDec A}.
Notation graph := (graph A O V).
(** C57: same nodes and edges, any insertion order; sorted() by any antisymmetric order *)
Theorem C57_hash_depends_on_content (H : list B -> D) srtN srtE strN strE (leN : A -> A -> Prop) (leE : A * A * V -> A * A * V -> Prop) (g1 g2 : graph) :
  reachable g1 -> reachable g2 ->
  (forall x y, leN x y -> leN y x -> x = y) -> (forall x y, leE x y -> leE y x -> x = y) ->
  (forall l, Permutation (srtN l) l /\ StronglySorted leN (srtN l)) -> (forall l, Permutation (srtE l) l /\ StronglySorted leE (srtE l)) ->
  (forall x, contains g1 x = contains g2 x) -> (forall x y, edge g1 x y = edge g2 x y) ->
  graph_hash H srtN srtE strN strE g1 = graph_hash H srtN srtE strN strE g2.
Proof. intros R1 R2 AN AE SN SE HN HE. pose proof (reachable_wf _ R1) as W1. pose proof (reachable_wf _ R2) as W2. unfold graph_hash.
  assert (srtN (nodes g1) = srtN (nodes g2)) as ->.
  { apply (sorted_perm_unique leN); [auto|apply SN|apply SN|]. rewrite (proj1 (SN (nodes g1))), (proj1 (SN (nodes g2))). apply NoDup_Permutation; [apply W1|apply W2|].
    intros x. rewrite <- !contains_In, HN. reflexivity. }
  assert (srtE (edges g1) = srtE (edges g2)) as ->; [|reflexivity].
  apply (sorted_perm_unique leE); [auto|apply SE|apply SE|]. rewrite (proj1 (SE (edges g1))), (proj1 (SE (edges g2))).
  apply NoDup_Permutation; [apply (NoDup_map_inv ekey), NoDup_edges, W1|apply (NoDup_map_inv ekey), NoDup_edges, W2|].
  intros [[x y] v]. rewrite (In_edges g1 x y v W1), (In_edges g2 x y v W2), HE. reflexivity. Qed.
End GraphHash.
Section EqHash.
Context {A O B D : Type} {EA : EqDec A} {EO : EqDec O}.
(** C57 for graphs that compare equal (==) *)
Theorem C57_equal_graphs_equal_hash (H : list B -> D) srtN srtE strN strE (leN : A -> A -> Prop) (leE : A * A * Z -> A * A * Z -> Prop) (g1 g2 : graph A O Z) :
  reachable g1 -> reachable g2 ->
  (forall x y, leN x y -> leN y x -> x = y) -> (forall x y, leE x y -> leE y x -> x = y) ->
  (forall l, Permutation (srtN l) l /\ StronglySorted leN (srtN l)) -> (forall l, Permutation (srtE l) l /\ StronglySorted leE (srtE l)) ->
  graph_eqb g1 g2 = true -> graph_hash H srtN srtE strN strE g1 = graph_hash H srtN srtE strN strE g2.
Proof. intros R1 R2 AN AE SN SE E. apply (graph_eqb_spec g1 g2 (reachable_wf _ R1) (reachable_wf _ R2)) in E. destruct E as [E1 E2].
  apply (C57_hash_depends_on_content H srtN srtE strN strE leN leE); auto. intros x. unfold contains. rewrite !dmem_dget, E1. reflexivity. Qed.
End EqHash.
(** sorting functions of this kind exist; two insertion orders of one graph *)
Fixpoint ins_nat (x : nat) (l : list nat) : list nat := match l with [] => [x] | y :: t => if x <=? y then x :: l else y :: ins_nat x t end.
Definition sort_nat (l : list nat) : list nat := fold_right ins_nat [] l.
Lemma ins_nat_perm x l : Permutation (ins_nat x l) (x :: l).
Proof. induction l as [|y l IH]; cbn; [reflexivity|]. destruct (x <=? y); [reflexivity|]. rewrite IH. apply perm_swap. Qed.
Lemma ins_nat_sorted x l : StronglySorted le l -> StronglySorted le (ins_nat x l).
Proof. induction 1 as [|y l S IH F]; cbn; [repeat constructor|]. destruct (Nat.leb_spec x y).
  - constructor; [constructor; assumption|]. constructor; [assumption|]. rewrite Forall_forall in *. intros z Hz. specialize (F z Hz). lia.
  - constructor; [assumption|]. rewrite Forall_forall in *. intros z Hz. apply (Permutation_in _ (ins_nat_perm x l)) in Hz. destruct Hz as [<-|Hz]; [lia|auto]. Qed.
Example ex_sort_nat l : Permutation (sort_nat l) l /\ StronglySorted le (sort_nat l).
Proof. induction l as [|x l [P S]]; cbn; [repeat constructor|]. split; [rewrite ins_nat_perm, P; reflexivity|apply ins_nat_sorted, S]. Qed.
Definition gh1 : graph nat unit Z := ok_or empty_graph (run [OpAddEdge 0 1 1%Z false; OpAddEdge 1 2 4%Z false]).
Definition gh2 : graph nat unit Z := ok_or empty_graph (run [OpAddNode 2 None; OpAddEdge 1 2 4%Z false; OpAddEdge 0 1 1%Z false]).
Example ex_gh : reachable gh1 /\ reachable gh2 /\ nodes gh1 <> nodes gh2 /\ (forall x, contains gh1 x = contains gh2 x) /\ forall x y, edge gh1 x y = edge gh2 x y.
Proof. splits; [apply reachable_run|apply reachable_run|discriminate| |].
  - intros [|[|[|x]]]; reflexivity.
  - intros [|[|[|x]]] [|[|[|y]]]; reflexivity. Qed.

Section FlowHash.
Context {A O V D : Type} {EA : EqDec A} (hashf : A -> list D -> D).
(** C58, acyclic graphs: TypeError (then some node has two suppliers), or every node gets the hash of itself and
    its suppliers' hashes.  Missing: that it never raises, which fails. *)
Theorem C58_flow_hash_outcome_partial (ops : list (op A O V)) g : reads_present ops -> run ops = Ok g -> acyclic (has_edge g) ->
  exists r, returns (fun n => flow_graph_hash hashf n g) r /\
    ((r = Err TypeError /\ exists y s s', s <> s' /\ has_edge g s y /\ has_edge g s' y) \/
     exists hg, r = Ok hg /\ (forall y, contains hg y = contains g y) /\
       forall y, contains g y = true -> exists hs, Forall2 (fun s h => node hg s = Some (s, Some h)) (nodes_to g y) hs /\ node hg y = Some (y, Some (hashf y hs))).
Proof. intros HR Hrun AC. destruct (run_clean ops g HR Hrun) as [W C]. destruct (flow_graph_hash_spec hashf g W C AC) as (r & Hr & HP). exists r. split; [exact Hr|].
  destruct HP as [HP|(hg & -> & H1 & H2)]; [left; exact HP|right]. exists hg. splits; [reflexivity| |intros y Hy; apply H2, contains_In, Hy].
  intros y. apply eq_true_iff_eq. rewrite !contains_In. apply H1. Qed.
(** with at most one supplier per node (forests) it succeeds *)
Theorem C58_forest_partial (ops : list (op A O V)) g : reads_present ops -> run ops = Ok g -> acyclic (has_edge g) ->
  (forall y s s', has_edge g s y -> has_edge g s' y -> s = s') ->
  exists hg, returns (fun n => flow_graph_hash hashf n g) (Ok hg) /\ forall y, contains g y = true -> exists h, node hg y = Some (y, Some h).
Proof. intros HR Hrun AC HS. destruct (C58_flow_hash_outcome_partial ops g HR Hrun AC) as (r & Hr & [(-> & y & s & s' & Hne & E1 & E2)|(hg & -> & H1 & H2)]).
  - destruct Hne. eapply HS; eauto.
  - exists hg. split; [exact Hr|]. intros y Hy. destruct (H2 y Hy) as (hs & _ & E). eauto. Qed.
End FlowHash.
(** C58 fails: a=0 -> d=3, a -> b=1 -> c=2 -> d *)
Definition fh_bad : graph nat unit Z := ok_or empty_graph (run [OpAddEdge 0 3 1%Z false; OpAddEdge 0 1 1%Z false; OpAddEdge 1 2 1%Z false; OpAddEdge 2 3 1%Z false]).
Definition toyF (x : nat) (hs : list nat) : nat := toyH (x :: hs).
Lemma acyclic_of (f : nat -> nat) (R : nat -> nat -> Prop) : (forall x y, R x y -> f x < f y) -> acyclic R.
Proof. intros Hf. assert (forall x y, reach R x y -> f x <= f y) as HR. { intros x y [p Hp]. induction Hp as [|x y p z Hxy Hp IH]; [lia|]. specialize (Hf _ _ Hxy). lia. }
  intros x (y & Hxy & Hyx). apply Hf in Hxy. apply HR in Hyx. lia. Qed.
Lemma edges_acyclic (g : graph nat unit Z) : reachable g -> forallb (fun e => fst (fst e) <? snd (fst e)) (edges g) = true -> acyclic (has_edge g).
Proof. intros R Hb. apply (acyclic_of (fun x => x)). intros x y [v Hv]. apply (In_edges g x y v (reachable_wf _ R)) in Hv. rewrite forallb_forall in Hb. apply Hb in Hv. apply Nat.ltb_lt in Hv. exact Hv. Qed.
Theorem C58_dag_raises_refuted : reachable fh_bad /\ acyclic (has_edge fh_bad) /\ forall n, flow_graph_hash toyF (20 + n) fh_bad = Err TypeError.
Proof. assert (reachable fh_bad) as R by apply reachable_run. splits; [exact R|apply edges_acyclic; [exact R|reflexivity]|]. intros n. vm_compute. reflexivity. Qed.
Definition fh_ops : list (op nat unit Z) := [OpAddEdge 0 1 1%Z false; OpAddEdge 1 2 1%Z false; OpAddEdge 0 3 1%Z false].
Definition fh_ok : graph nat unit Z := ok_or empty_graph (run fh_ops).
Example ex_fh : reads_present fh_ops /\ run fh_ops = Ok fh_ok /\ acyclic (has_edge fh_ok) /\ (forall y s s', has_edge fh_ok s y -> has_edge fh_ok s' y -> s = s') /\
  exists hg, flow_graph_hash toyF 20 fh_ok = Ok hg /\ node hg 2 = Some (2, Some (toyF 2 [toyF 1 [toyF 0 []]])).
Proof. splits.
  - intros pre o post g E _. destruct pre as [|a [|b [|c pre]]]; cbn in E; try (injection E as <- E); try (subst; exact Logic.I); destruct pre; discriminate.
  - reflexivity.
  - apply edges_acyclic; [apply reachable_run|reflexivity].
  - intros y s s' [v Hv] [v' Hv']. apply (In_edges fh_ok s y v) in Hv; [|apply reachable_wf, reachable_run]. apply (In_edges fh_ok s' y v') in Hv'; [|apply reachable_wf, reachable_run].
    vm_compute in Hv, Hv'. repeat match goal with K : _ \/ _ |- _ => destruct K | K : False |- _ => destruct K end; congruence.
  - eexists. split; vm_compute; reflexivity. Qed.
