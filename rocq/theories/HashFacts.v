(** Facts about hash_methods.py: merkle_tree and graph_hash *)
From Coq Require Import Sorted.
From Verif Require Import Prelude PreludeFacts Base BaseFacts BaseFacts2 BaseFacts3 Spec SpecFacts Loop SearchFacts BaseAlgFacts
  FlowSpec Flow FlowFacts MaxFlowFacts MiscSpec Hash.

Lemma reachable_add_node {A O V} {EA : EqDec A} (g : graph A O V) n o : reachable g -> reachable (add_node g n o).
Proof. intros R. apply (reachable_step g (OpAddNode n o) _ R). reflexivity. Qed.
Lemma has_edge_add_node {A O V} {EA : EqDec A} (g : graph A O V) n o x y : has_edge (add_node g n o) x y <-> has_edge g x y.
Proof. unfold has_edge. rewrite edge_add_node. reflexivity. Qed.
Lemma add_edge_full {A O V} {EA : EqDec A} (g : graph A O V) a b v : reachable g -> exists g', add_edge g a b v false = Ok g' /\ reachable g' /\
  (forall x, In x (nodes g') <-> x = a \/ x = b \/ In x (nodes g)) /\ (forall x y, has_edge g' x y <-> (x = a /\ y = b) \/ has_edge g x y) /\ (forall x, node g' x = node g x).
Proof. intros R. pose proof (reachable_wf _ R) as W. rewrite add_edge_eq by exact W. eexists. split; [reflexivity|]. splits.
  - apply (reachable_step g (OpAddEdge a b v false) _ R). apply (add_edge_eq g a b v false W).
  - intros x. unfold add_edge_result. rewrite nodes_add_edge1_result, !In_sadd. tauto.
  - intros x y. unfold has_edge, add_edge_result. rewrite edge_add_edge1_result. destruct (eq_dec x a) as [->|], (eq_dec y b) as [->|]; split; try tauto; try (intros [[? ?]|?]; [congruence|assumption]). eauto.
  - intros x. unfold add_edge_result. apply node_add_edge1_result. Qed.

Section F.
Context {Byte D : Type} {ED : EqDec D} (H : list Byte -> D) (enc : D -> list Byte).
Notation graph := (graph D unit Z).
Notation T := (tree Byte).
Notation dig := (digest H enc).
Implicit Types (t : T) (g : graph).

Lemma digest_string t : dig t = H (string_of H enc t).
Proof. destruct t; reflexivity. Qed.
Lemma sub_refl t : In t (subtrees t).
Proof. destruct t; left; reflexivity. Qed.

Record MInv (ts : list T) (st : list D * graph) : Prop := {
  m_l : fst st = map dig ts;
  m_r : reachable (snd st);
  m_n : forall x, In x (nodes (snd st)) <-> exists t s, In t ts /\ In s (subtrees t) /\ x = dig s;
  m_e : forall x y, has_edge (snd st) x y <-> exists t a b, In t ts /\ In (Node a b) (subtrees t) /\ y = dig (Node a b) /\ (x = dig a \/ x = dig b) }.

Lemma merkle_init bs : MInv (map Leaf bs) (map H bs, fold_left (fun g b => add_node g (H b) None) bs empty_graph).
Proof. assert (forall g, reachable g -> (forall x y, ~ has_edge g x y) -> let g' := fold_left (fun g b => add_node g (H b) None) bs g in
    reachable g' /\ (forall x y, ~ has_edge g' x y) /\ forall x, In x (nodes g') <-> In x (nodes g) \/ exists b, In b bs /\ x = H b) as HF.
  { induction bs as [|b bs IH]; intros g R E; cbn [fold_left].
    - cbn. splits; auto. intros x. split; [auto|]. intros [?|(b & [] & _)]. assumption.
    - destruct (IH (add_node g (H b) None)) as (I1 & I2 & I3); [apply reachable_add_node, R|intros x y Hx; apply has_edge_add_node in Hx; eapply E; eauto|].
      cbn zeta. splits; auto. intros x. rewrite I3, nodes_add_node, In_sadd. split.
      + intros [[->|?]|(c & Hc & ->)]; [right; exists b; cbn; auto|auto|right; exists c; cbn; auto].
      + intros [?|(c & [<-|Hc] & ->)]; [auto|auto|right; eauto]. }
  destruct (HF empty_graph reachable_empty) as (I1 & I2 & I3); [intros x y [v Hv]; discriminate|]. constructor; cbn [fst snd].
  - rewrite map_map. reflexivity.
  - exact I1.
  - intros x. rewrite I3. split.
    + intros [[]|(b & Hb & ->)]. exists (Leaf b), (Leaf b). splits; [apply in_map, Hb|left; reflexivity|reflexivity].
    + intros (t & s & Ht & Hs & ->). right. apply in_map_iff in Ht. destruct Ht as (b & <- & Hb). destruct Hs as [<-|[]]. exists b. auto.
  - intros x y. split; [intros C; destruct (I2 _ _ C)|]. intros (t & a & b & Ht & Hs & _). exfalso. apply in_map_iff in Ht. destruct Ht as (c & <- & Hc). destruct Hs as [C|[]]. discriminate. Qed.

Lemma merkle_step_inv a b r st : MInv (a :: b :: r) st -> exists st', merkle_step H enc st = inl st' /\ MInv (r ++ [Node a b]) st'.
Proof. intros [Hl Hr Hn He]. destruct st as [leaves g]. cbn [fst snd] in *. subst leaves. cbn [merkle_step map].
  set (u := H (enc (dig a) ++ enc (dig b))).
  destruct (add_edge_full (add_node g u None) (dig a) u 1%Z (reachable_add_node g u None Hr)) as (g1 & -> & R1 & N1 & E1 & _). cbn [bind].
  destruct (add_edge_full g1 (dig b) u 1%Z R1) as (g2 & -> & R2 & N2 & E2 & _). eexists. split; [reflexivity|]. constructor; cbn [fst snd].
  - rewrite map_app. reflexivity.
  - exact R2.
  - intros x. rewrite N2, N1, nodes_add_node, In_sadd, Hn. split.
    + assert (forall t s, In t [a; b] -> In s (subtrees t) -> exists t' s', In t' (r ++ [Node a b]) /\ In s' (subtrees t') /\ dig s = dig s') as Hab.
      { intros t s Ht Hs. exists (Node a b), s. splits; [apply in_app_iff; cbn; auto| |reflexivity]. cbn. right. apply in_app_iff. destruct Ht as [<-|[<-|[]]]; auto. }
      assert (exists t s, In t (r ++ [Node a b]) /\ In s (subtrees t) /\ u = dig s) as Hu by (exists (Node a b), (Node a b); splits; [apply in_app_iff; cbn; auto|left; reflexivity|reflexivity]).
      intros [->|[->|[->|[->|[->|(t & s & [Ht|[Ht|Ht]] & Hs & ->)]]]]]; auto.
      * apply (Hab b b); [cbn; auto|apply sub_refl].
      * apply (Hab a a); [cbn; auto|apply sub_refl].
      * subst t. apply (Hab a s); cbn; auto.
      * subst t. apply (Hab b s); cbn; auto.
      * exists t, s. splits; auto. apply in_app_iff. auto.
    + intros (t & s & Ht & Hs & ->). apply in_app_iff in Ht. destruct Ht as [Ht|[<-|[]]]; [do 5 right; exists t, s; cbn; auto|].
      cbn [subtrees] in Hs. destruct Hs as [<-|Hs]; [right; left; reflexivity|]. do 5 right. apply in_app_iff in Hs. destruct Hs as [Hs|Hs]; [exists a, s|exists b, s]; cbn; auto.
  - intros x y. rewrite E2, E1, has_edge_add_node, He. split.
    + intros [[-> ->]|[[-> ->]|(t & c & d & [Ht|[Ht|Ht]] & Hs & -> & Hx)]].
      * exists (Node a b), a, b. splits; [apply in_app_iff; cbn; auto|left; reflexivity|reflexivity|auto].
      * exists (Node a b), a, b. splits; [apply in_app_iff; cbn; auto|left; reflexivity|reflexivity|auto].
      * subst t. exists (Node a b), c, d. splits; [apply in_app_iff; cbn; auto|cbn; right; apply in_app_iff; auto|reflexivity|auto].
      * subst t. exists (Node a b), c, d. splits; [apply in_app_iff; cbn; auto|cbn; right; apply in_app_iff; auto|reflexivity|auto].
      * exists t, c, d. splits; auto. apply in_app_iff. auto.
    + intros (t & c & d & Ht & Hs & -> & Hx). apply in_app_iff in Ht. destruct Ht as [Ht|[<-|[]]]; [do 2 right; exists t, c, d; cbn; auto|].
      cbn [subtrees] in Hs. destruct Hs as [Hs|Hs]; [injection Hs as <- <-; destruct Hx as [->| ->]; auto|]. do 2 right. apply in_app_iff in Hs. destruct Hs as [Hs|Hs]; [exists a, c, d|exists b, c, d]; cbn; auto. Qed.

Lemma merkle_loop n : forall ts st, length ts = S n -> MInv ts st -> exists g, loop (S n) (merkle_step H enc) st = Ok (Some g) /\ MInv [merge n ts] ([dig (merge n ts)], g).
Proof. induction n as [|n IH]; intros ts st Hl HI.
  - destruct ts as [|t [|]]; try discriminate. destruct st as [leaves g]. pose proof (m_l _ _ HI) as E. cbn [fst map] in E. subst leaves. exists g. split; [reflexivity|exact HI].
  - destruct ts as [|a [|b r]]; try discriminate. destruct (merkle_step_inv a b r st HI) as (st' & E & HI'). cbn [loop]. rewrite E. cbn [merge].
    apply IH; [rewrite app_length; cbn in *; lia|exact HI']. Qed.

Lemma merkle_spec bs : bs <> [] -> exists g, returns (fun n => merkle_tree H enc n bs) (Ok (Some g)) /\ MInv [merkle_term bs] ([dig (merkle_term bs)], g).
Proof. intros Hne. destruct bs as [|b bs]; [congruence|]. destruct (merkle_loop (length bs) (map Leaf (b :: bs)) _ (f_equal S (map_length _ _)) (merkle_init (b :: bs))) as (g & Hg & HI).
  exists g. split.
  - unfold merkle_tree. eapply loop_returns_at; [exact Hg|discriminate].
  - unfold merkle_term. cbn [length]. rewrite Nat.sub_succ, Nat.sub_0_r. exact HI. Qed.

Lemma merkle_empty : returns (fun n => merkle_tree H enc n []) (Ok None).
Proof. unfold merkle_tree. apply (loop_returns_at _ 1); [reflexivity|discriminate]. Qed.

Lemma merge_blocks n : forall ts : list T, length ts = S n -> Permutation (blocks_of (merge n ts)) (flat_map blocks_of ts).
Proof. induction n as [|n IH]; intros ts Hl.
  - destruct ts as [|t [|]]; try discriminate. cbn. rewrite app_nil_r. reflexivity.
  - destruct ts as [|a [|b r]]; try discriminate. cbn [merge]. rewrite IH by (rewrite app_length; cbn in *; lia). rewrite flat_map_app. cbn. rewrite app_nil_r, Permutation_app_comm, <- app_assoc. reflexivity. Qed.
Lemma flat_leaf bs : flat_map blocks_of (map (@Leaf Byte) bs) = bs.
Proof. induction bs as [|b bs IH]; cbn; [reflexivity|]. rewrite IH. reflexivity. Qed.
Lemma merkle_blocks (bs : list (list Byte)) : bs <> [] -> Permutation (blocks_of (merkle_term bs)) bs.
Proof. intros Hne. unfold merkle_term. rewrite merge_blocks, flat_leaf; [reflexivity|]. rewrite map_length. destruct bs; [congruence|cbn; lia]. Qed.

(** every subtree reaches the top *)
Lemma sub_trans t s u : In s (subtrees t) -> In u (subtrees s) -> In u (subtrees t).
Proof. induction t as [b|l IHl r IHr]; cbn [subtrees]; intros [<-|Hs] Hu; [exact Hu|destruct Hs|exact Hu|]. right. apply in_app_iff in Hs. apply in_app_iff. destruct Hs; auto. Qed.
Lemma sub_reach t0 (R : D -> D -> Prop) : (forall a b, In (Node a b) (subtrees t0) -> R (dig a) (dig (Node a b)) /\ R (dig b) (dig (Node a b))) ->
  forall t s, In t (subtrees t0) -> In s (subtrees t) -> reach R (dig s) (dig t).
Proof. intros HR t. induction t as [b|l IHl r IHr]; intros s Ht Hs; cbn [subtrees] in Hs; destruct Hs as [<-|Hs]; try apply reach_refl; [destruct Hs|].
  destruct (HR l r Ht) as [R1 R2]. apply in_app_iff in Hs. destruct Hs as [Hs|Hs].
  - apply (reach_snoc R _ (dig l)); [apply IHl; [|exact Hs]|exact R1]. apply (sub_trans t0 _ _ Ht). cbn. right. apply in_app_iff. left. apply sub_refl.
  - apply (reach_snoc R _ (dig r)); [apply IHr; [|exact Hs]|exact R2]. apply (sub_trans t0 _ _ Ht). cbn. right. apply in_app_iff. right. apply sub_refl. Qed.
Lemma block_sub t b : In b (blocks_of t) -> In (Leaf b) (subtrees t).
Proof. induction t as [c|l IHl r IHr]; cbn; [intros [<-|[]]; auto|]. intros Hb. right. apply in_app_iff in Hb. apply in_app_iff. tauto. Qed.

(** digests determine trees when the blocks cannot be mistaken for pairs of digests *)
Context (k : nat) (enc_len : forall d, length (enc d) = k) (enc_inj : forall d d', enc d = enc d' -> d = d').
Lemma app_inv_len {X} (a b c d : list X) : length a = length c -> a ++ b = c ++ d -> a = c /\ b = d.
Proof. revert c. induction a as [|x a IH]; intros [|y c] L E; try discriminate; [auto|]. cbn in *. injection E as -> E. injection L as L. destruct (IH _ L E) as [-> ->]. auto. Qed.
Lemma digest_inj t : forall t', (forall s s', In s (subtrees t) -> In s' (subtrees t') -> dig s = dig s' -> string_of H enc s = string_of H enc s') ->
  (forall b d d', In b (blocks_of t) -> b <> enc d ++ enc d') -> (forall b d d', In b (blocks_of t') -> b <> enc d ++ enc d') -> dig t = dig t' -> t = t'.
Proof. induction t as [b|l IHl r IHr]; intros [b'|l' r'] CF B B' E; pose proof (CF _ _ (sub_refl _) (sub_refl _) E) as Es; cbn in Es.
  - congruence.
  - exfalso. apply (B b _ _ (or_introl eq_refl) Es).
  - exfalso. apply (B' b' _ _ (or_introl eq_refl) (eq_sym Es)).
  - apply app_inv_len in Es; [|rewrite !enc_len; reflexivity]. destruct Es as [E1 E2]. apply enc_inj in E1, E2. f_equal.
    + apply IHl; auto; [intros s s' Hs Hs'; apply CF; cbn; right; apply in_app_iff; auto| |]; intros b d d' Hb; [apply B|apply B']; cbn; apply in_app_iff; auto.
    + apply IHr; auto; [intros s s' Hs Hs'; apply CF; cbn; right; apply in_app_iff; auto| |]; intros b d d' Hb; [apply B|apply B']; cbn; apply in_app_iff; auto. Qed.

Lemma sub_blocks t s : In s (subtrees t) -> incl (blocks_of s) (blocks_of t).
Proof. induction t as [b|l IHl r IHr]; cbn [subtrees]; intros [<-|Hs]; try (intros x Hx; exact Hx); [destruct Hs|]. apply in_app_iff in Hs. intros x Hx. cbn. apply in_app_iff. destruct Hs as [Hs|Hs]; [left; apply IHl|right; apply IHr]; auto. Qed.
Lemma sub_size t s : In s (subtrees t) -> s = t \/ length (blocks_of s) < length (blocks_of t).
Proof. assert (forall u : T, 1 <= length (blocks_of u)) as Hp by (induction u; cbn; [lia|rewrite app_length; lia]).
  induction t as [b|l IHl r IHr]; cbn [subtrees]; intros [<-|Hs]; auto; [destruct Hs|]. right. cbn. rewrite app_length. pose proof (Hp l). pose proof (Hp r).
  apply in_app_iff in Hs. destruct Hs as [Hs|Hs]; [destruct (IHl Hs) as [->|]|destruct (IHr Hs) as [->|]]; lia. Qed.

(** the top has no outgoing edge *)
Lemma top_unique t a b : collision_free H enc [t] -> (forall c, In c (blocks_of t) -> length c <> k + k) -> In (Node a b) (subtrees t) -> dig t <> dig a /\ dig t <> dig b.
Proof. intros CF B Hab. assert (forall s, (s = a \/ s = b) -> dig t <> dig s) as Hs; [|split; apply Hs; auto].
  intros s Hs E. assert (In s (subtrees (Node a b))) as Hs1. { cbn. right. apply in_app_iff. destruct Hs as [-> | ->]; [left|right]; apply sub_refl. }
  pose proof (sub_trans _ _ _ Hab Hs1) as Hst. assert (t = s) as E2.
  { assert (forall c d d', In c (blocks_of t) -> c <> enc d ++ enc d') as B' by (intros c d d' Hc Ec; apply (B c Hc); rewrite Ec, app_length, !enc_len; reflexivity).
    apply digest_inj; [|exact B'| |exact E].
    - intros u u' Hu Hu'. apply (CF t t); cbn; auto. apply (sub_trans _ _ _ Hst Hu').
    - intros c d d' Hc. apply B', (sub_blocks _ _ Hst), Hc. }
  subst t. destruct (sub_size _ _ Hab) as [E3|E3].
  - subst s. destruct Hs as [E3|E3]; apply (f_equal (fun u => length (subtrees u))) in E3; cbn in E3; rewrite app_length in E3; lia.
  - cbn in E3. rewrite app_length in E3. assert (forall u : T, 1 <= length (blocks_of u)) as Hp by (induction u; cbn; [lia|rewrite app_length; lia]).
    pose proof (Hp a). pose proof (Hp b). destruct Hs as [-> | ->]; lia. Qed.

(** merge is injective on lists of equal length *)
Lemma merge_inj n : forall ts ts' : list T, length ts = S n -> length ts' = S n -> merge n ts = merge n ts' -> ts = ts'.
Proof. induction n as [|n IH]; intros ts ts' L L' E.
  - destruct ts as [|t [|]], ts' as [|t' [|]]; try discriminate. cbn in E. congruence.
  - destruct ts as [|a [|b r]], ts' as [|a' [|b' r']]; try discriminate. cbn [merge] in E. apply IH in E; [|rewrite app_length; cbn in *; lia|rewrite app_length; cbn in *; lia].
    apply app_inj_tail in E. destruct E as [-> E]. congruence. Qed.
Lemma map_Leaf_inj (bs bs' : list (list Byte)) : map Leaf bs = map Leaf bs' -> bs = bs'.
Proof. revert bs'. induction bs as [|b bs IH]; intros [|b' bs'] E; try discriminate; [reflexivity|]. injection E as -> E. f_equal. apply IH, E. Qed.
Lemma merkle_term_inj (bs bs' : list (list Byte)) : bs <> [] -> bs' <> [] -> merkle_term bs = merkle_term bs' -> bs = bs'.
Proof. intros Hb Hb' E. pose proof (Permutation_length (merkle_blocks bs Hb)) as L. rewrite E, (Permutation_length (merkle_blocks bs' Hb')) in L.
  unfold merkle_term in E. rewrite L in E. apply map_Leaf_inj. destruct bs as [|b bs]; [congruence|]. apply (merge_inj (length (b :: bs) - 1)); [| |exact E]; rewrite map_length; [|rewrite L]; cbn; lia. Qed.
Lemma root_determines bs bs' : bs <> [] -> bs' <> [] -> collision_free H enc [merkle_term bs; merkle_term bs'] ->
  (forall b d d', In b bs \/ In b bs' -> b <> enc d ++ enc d') -> dig (merkle_term bs) = dig (merkle_term bs') -> bs = bs'.
Proof. intros Hb Hb' CF B E. apply merkle_term_inj; auto. apply digest_inj; auto.
  - intros s s' Hs Hs'. apply (CF (merkle_term bs) (merkle_term bs')); cbn; auto.
  - intros b d d' Hin. apply B. left. apply (Permutation_in _ (merkle_blocks bs Hb)), Hin.
  - intros b d d' Hin. apply B. right. apply (Permutation_in _ (merkle_blocks bs' Hb')), Hin. Qed.

(** same number of blocks: no restriction on their lengths *)
Lemma digest_same_shape n : forall ts ts', length ts = S n -> length ts' = S n ->
  collision_free H enc [merge n ts; merge n ts'] -> dig (merge n ts) = dig (merge n ts') -> map dig ts = map dig ts'.
Proof. induction n as [|n IH]; intros ts ts' L L' CF E.
  - destruct ts as [|t [|]], ts' as [|t' [|]]; try discriminate. cbn in *. congruence.
  - destruct ts as [|a [|b r]], ts' as [|a' [|b' r']]; try discriminate. cbn [merge] in *.
    assert (forall m (us : list T) u, length us = S m -> In u us -> In u (subtrees (merge m us))) as Hsub.
    { clear. induction m as [|m IHm]; intros us u Lu Hu; destruct us as [|x [|y us]]; try discriminate; [destruct Hu as [<-|[]]; apply sub_refl|]. cbn [merge].
      destruct Hu as [<-|[<-|Hu]]; [| |apply IHm; [rewrite app_length; cbn in *; lia|apply in_app_iff; auto]];
        (apply (sub_trans _ (Node x y)); [apply IHm; [rewrite app_length; cbn in *; lia|apply in_app_iff; cbn; auto]|cbn; right; apply in_app_iff; auto using sub_refl]). }
    assert (length (r ++ [Node a b]) = S n) as L1 by (rewrite app_length; cbn in *; lia). assert (length (r' ++ [Node a' b']) = S n) as L1' by (rewrite app_length; cbn in *; lia).
    pose proof (IH _ _ L1 L1' CF E) as EI. rewrite !map_app in EI. cbn [map] in EI. apply app_inj_tail in EI. destruct EI as [Er En].
    assert (string_of H enc (Node a b) = string_of H enc (Node a' b')) as Es.
    { apply (CF (merge n (r ++ [Node a b])) (merge n (r' ++ [Node a' b']))); [cbn; auto|cbn; auto| | |exact En]; apply Hsub; auto; apply in_app_iff; cbn; auto. }
    cbn in Es. apply app_inv_len in Es; [|rewrite !enc_len; reflexivity]. destruct Es as [E1 E2]. apply enc_inj in E1, E2. cbn. congruence. Qed.
Lemma root_determines_same_length bs bs' : length bs = length bs' -> bs <> [] -> collision_free H enc [merkle_term bs; merkle_term bs'] ->
  dig (merkle_term bs) = dig (merkle_term bs') -> bs = bs'.
Proof. intros L Hb CF E. unfold merkle_term in *. rewrite <- L in *.
  assert (length (map (@Leaf Byte) bs) = S (length bs - 1)) as L1 by (rewrite map_length; destruct bs; [congruence|cbn; lia]).
  assert (length (map (@Leaf Byte) bs') = S (length bs - 1)) as L2 by (rewrite map_length, <- L; destruct bs; [congruence|cbn; lia]).
  pose proof (digest_same_shape _ _ _ L1 L2 CF E) as EM.
  assert (forall m (us : list T) u, length us = S m -> In u us -> In u (subtrees (merge m us))) as Hsub.
  { clear. induction m as [|m IHm]; intros us u Lu Hu; destruct us as [|x [|y us]]; try discriminate; [destruct Hu as [<-|[]]; apply sub_refl|]. cbn [merge].
    destruct Hu as [<-|[<-|Hu]]; [| |apply IHm; [rewrite app_length; cbn in *; lia|apply in_app_iff; auto]];
      (apply (sub_trans _ (Node x y)); [apply IHm; [rewrite app_length; cbn in *; lia|apply in_app_iff; cbn; auto]|cbn; right; apply in_app_iff; auto using sub_refl]). }
  assert (forall b b', In b bs -> In b' bs' -> H b = H b' -> b = b') as Hinj.
  { intros b b' I1 I2 EE. apply (CF (merge (length bs - 1) (map Leaf bs)) (merge (length bs - 1) (map Leaf bs')) (Leaf b) (Leaf b')); cbn; auto; apply Hsub; auto; apply in_map; assumption. }
  rewrite !map_map in EM. cbn in EM. clear - EM Hinj. revert bs' EM Hinj. induction bs as [|b bs IH]; intros [|b' bs'] EM Hinj; try discriminate; [reflexivity|]. cbn in EM. injection EM as E1 E2.
  f_equal; [apply Hinj; cbn; auto|]. apply IH; [exact E2|]. intros; apply Hinj; cbn; auto. Qed.
End F.

(** sorted lists with the same members are equal *)
Lemma sorted_perm_unique {A} (le : A -> A -> Prop) (l l' : list A) : (forall x y, In x l -> In y l -> le x y -> le y x -> x = y) ->
  StronglySorted le l -> StronglySorted le l' -> Permutation l l' -> l = l'.
Proof. intros AS S1. revert l'. induction S1 as [|x l S1 IH HF]; intros l' S2 P.
  - apply Permutation_nil in P. congruence.
  - destruct S2 as [|y l' S2 HF']; [apply Permutation_sym, Permutation_nil in P; discriminate|].
    assert (x = y) as ->.
    { assert (In x (y :: l')) as Hx by (apply (Permutation_in _ P); left; reflexivity). assert (In y (x :: l)) as Hy by (apply (Permutation_in _ (Permutation_sym P)); left; reflexivity).
      destruct Hx as [->|Hx]; [reflexivity|]. destruct Hy as [->|Hy]; [reflexivity|]. rewrite Forall_forall in HF, HF'. apply AS; cbn; auto. }
    f_equal. apply IH; auto.
    + intros a b Ha Hb. apply AS; cbn; auto.
    + apply Permutation_cons_inv in P. exact P. Qed.
