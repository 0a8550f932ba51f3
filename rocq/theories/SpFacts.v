(** Dijkstra: proofs about shortest_path and distance_from_path. *)
From Verif Require Import Prelude PreludeFacts Base BaseFacts BaseFacts2 BaseFacts3 Spec SpecFacts Loop SearchFacts BaseAlgFacts Sp.
Local Open Scope Z_scope.

Section HeapFacts.
Context {P : Type}.
Definition ecost (x : Z * nat * P) : Z := fst (fst x).
Lemma hlt_cost (x y : Z * nat * P) : (hlt x y = true -> ecost x <= ecost y) /\ (hlt x y = false -> ecost y <= ecost x).
Proof. destruct x as [[c1 i1] p1], y as [[c2 i2] p2]. cbn. destruct (Z.ltb_spec c1 c2), (Z.eqb_spec c1 c2); cbn; split; intros; try congruence; try lia. Qed.
Lemma hmin_spec (q : list (Z * nat * P)) : forall x m r, hmin x q = (m, r) ->
  Permutation (x :: q) (m :: r) /\ forall y, In y (x :: q) -> ecost m <= ecost y.
Proof. induction q as [|y q IH]; intros x m r E; cbn in E.
  - inv E. split; [reflexivity|]. intros y [<-|[]]. lia.
  - destruct (hlt_cost y x) as [C1 C2]. destruct (hlt y x) eqn:Hl.
    + destruct (hmin y q) as [m' r'] eqn:E'. inv E. destruct (IH _ _ _ E') as [Hp Hm]. split.
      * etransitivity; [apply perm_skip; exact Hp|]. apply perm_swap.
      * intros z [<-|Hz]; [specialize (Hm y (or_introl eq_refl)); specialize (C1 eq_refl); lia|auto].
    + destruct (hmin x q) as [m' r'] eqn:E'. inv E. destruct (IH _ _ _ E') as [Hp Hm]. split.
      * etransitivity; [apply perm_swap|]. etransitivity; [apply perm_skip; exact Hp|]. apply perm_swap.
      * intros z [<-|[<-|Hz]]; [apply Hm; cbn; auto| |apply Hm; cbn; auto]. specialize (Hm x (or_introl eq_refl)); specialize (C2 eq_refl); lia. Qed.
Lemma heappop_spec (q : list (Z * nat * P)) : match heappop q with
  | None => q = []
  | Some (m, r) => Permutation q (m :: r) /\ forall y, In y q -> ecost m <= ecost y end.
Proof. destruct q as [|x q]; cbn; [reflexivity|]. destruct (hmin x q) as [m r] eqn:E. exact (hmin_spec q x m r E). Qed.
End HeapFacts.

Section F.
Context {A O : Type} {EA : EqDec A}.
Notation graph := (graph A O Z).
Implicit Types (g : graph) (a b x y : A) (p : list A).

Lemma wpath_nodes g a p b d : wf g -> In a (nodes g) -> wpath (edge g) a p b d -> In b (nodes g).
Proof. intros W Ha H. induction H; [exact Ha|]. apply IHwpath. apply (edge_nodes g a b w W H). Qed.
Lemma wpath_in_nodes g a p b d : wf g -> In a (nodes g) -> wpath (edge g) a p b d -> forall x, In x p -> In x (nodes g).
Proof. intros W Ha H. induction H; intros x; [intros [<-|[]]; exact Ha|]. intros [<-|Hx]; [exact Ha|].
  apply IHwpath; [|exact Hx]. apply (edge_nodes g a b w W H). Qed.
Lemma wpath_inv2 (E : A -> A -> option Z) a x y t b d : wpath E a (x :: y :: t) b d ->
  a = x /\ exists w d', E x y = Some w /\ wpath E y (y :: t) b d' /\ d = w + d'.
Proof. intros H. inversion H as [|? ? ? ? ? ? HE Hp]; subst. split; [reflexivity|]. destruct (wpath_head _ _ _ _ _ Hp) as (t' & Et). inv Et. eauto 8. Qed.
(** the first member of a list that fails a test *)
Lemma split_first (V p : list A) z : In z p -> ~ In z V -> exists l1 y l2, p = l1 ++ y :: l2 /\ ~ In y V /\ forall x, In x l1 -> In x V.
Proof. induction p as [|h p IH]; intros Hz Hn; [destruct Hz|]. destruct (In_dec' h V) as [Hh|Hh].
  - destruct Hz as [->|Hz]; [tauto|]. destruct (IH Hz Hn) as (l1 & y & l2 & -> & Hy & H1). exists (h :: l1), y, l2. splits; auto.
    intros x [<-|Hx]; auto.
  - exists [], h, p. splits; auto. intros x []. Qed.


Section Dij.
Variables (g : graph) (a e : A) (S : list A).
Hypothesis W : wf g.
Hypothesis Hnn : nonneg g.
Hypothesis Ha : In a (nodes g).
Notation E := (edge g).
Definition heap := list (Z * nat * (A * list A)).

Record dj (q : heap) (M : dict A Z) (V : list A) (dst : A -> Z) : Prop := {
  dj_S : forall x, In x S -> In x V;
  dj_ent : forall c i v p, In (c, i, (v, p)) q -> wpath E a (rev (v :: p)) v c /\ clear_of S p;
  dj_low : forall x, In x V -> ~ In x S -> forall p d, wpath E a p x d -> clear_of S p -> dst x <= d;
  dj_fr : forall x y w, In x V -> ~ In x S -> E x y = Some w -> ~ In y V -> exists c i p, In (c, i, (y, p)) q /\ c <= dst x + w;
  dj_mn : forall y m, dget y M = Some m -> ~ In y V -> exists c i p, In (c, i, (y, p)) q /\ c <= m;
  dj_st : ~ In a V -> exists c i p, In (c, i, (a, p)) q /\ c <= 0;
  dj_e : In e V -> In e S }.

Lemma dj_frontier q M V dst : dj q M V dst -> forall p z d, wpath E a p z d -> clear_of S p -> ~ In z V ->
  exists c i v pp, In (c, i, (v, pp)) q /\ c <= d.
Proof. intros D p z d Hp Hc Hz. destruct (In_dec' a V) as [Hav|Hav].
  2:{ destruct (dj_st _ _ _ _ D Hav) as (c & i & pp & Hin & Hc0). pose proof (wpath_nonneg E a p z d Hnn Hp). exists c, i, a, pp. split; [exact Hin|lia]. }
  destruct (split_first V p z) as (l1 & y & l2 & Ep & Hy & Hl1); [eapply wpath_end_In; eauto|exact Hz|].
  destruct (exists_last (l := l1)) as (l0 & x & El).
  { intros ->. destruct (wpath_head _ _ _ _ _ Hp) as (t & Et). rewrite Ep in Et. cbn in Et. inv Et. tauto. }
  subst l1 p. rewrite <- app_assoc in Hp, Hc. cbn in Hp, Hc. apply wpath_split in Hp. destruct Hp as (d1 & d2 & H1 & H2 & ->).
  apply wpath_inv2 in H2. destruct H2 as (_ & w & d' & H4 & H8 & ->). rename y into b.
  pose proof (wpath_nonneg E _ _ _ _ Hnn H8).
  assert (In x V) as HxV by (apply Hl1, in_or_app; cbn; auto).
  assert (~ In x S) as HxS by (apply Hc, in_or_app; cbn; auto).
  destruct (dj_fr _ _ _ _ D x b w HxV HxS H4 Hy) as (c & i & pp & Hin & Hle).
  assert (dst x <= d1).
  { apply (dj_low _ _ _ _ D x HxV HxS _ _ H1). intros u Hu. apply Hc. apply in_app_iff in Hu. apply in_or_app. cbn in *. tauto. }
  exists c, i, b, pp. split; [exact Hin|lia]. Qed.

(** the relaxation loop *)
Lemma relax_spec cost path V' es : forall (q : heap) (M : dict A Z) (i : nat) q' M' i',
  fold_left (sp_relax cost path V') es (q, M, i) = (q', M', i') ->
  (forall y m, dget y M = Some m -> ~ In y V' -> exists c j p, In (c, j, (y, p)) q /\ c <= m) ->
  (forall u, In u q -> In u q') /\
  (forall c j v p, In (c, j, (v, p)) q' -> In (c, j, (v, p)) q \/ exists x d, In (x, v, d) es /\ c = cost + d /\ p = path /\ ~ In v V') /\
  (forall y m, dget y M' = Some m -> ~ In y V' -> exists c j p, In (c, j, (y, p)) q' /\ c <= m) /\
  (forall y m, dget y M = Some m -> exists m', dget y M' = Some m' /\ m' <= m) /\
  (forall x y d, In (x, y, d) es -> ~ In y V' -> exists m, dget y M' = Some m /\ m <= cost + d).
Proof. induction es as [|[[x0 v2] d] es IH]; intros q M i q' M' i' Hf Hmn; cbn in Hf.
  - inv Hf. splits; auto; [|intros ? ? ? []]. intros y m Hy. exists m. split; [exact Hy|lia].
  - destruct (mem_spec v2 V') as [Hv|Hv].
    + destruct (IH _ _ _ _ _ _ Hf Hmn) as (H1 & H2 & H3 & H4 & H5). splits; auto.
      * intros c j v p Hin. destruct (H2 _ _ _ _ Hin) as [?|(x & d' & ? & ?)]; [auto|right; exists x, d'; cbn; tauto].
      * intros x y d' [Eq|Hin] Hy; [inv Eq; tauto|eauto].
    + destruct (match dget v2 M with None => true | Some prev => cost + d <? prev end) eqn:Et.
      * edestruct (IH _ _ _ _ _ _ Hf) as (H1 & H2 & H3 & H4 & H5).
        { intros y m. rewrite dget_dset. destruct (eq_dec y v2) as [->|Hne].
          - intros Eq Hy. inv Eq. exists (cost + d), i, path. cbn. split; [auto|lia].
          - intros Hy Hny. destruct (Hmn y m Hy Hny) as (c & j & p & Hin & Hle). exists c, j, p. cbn; auto. }
        splits; auto.
        -- intros x Hx. apply H1. cbn; auto.
        -- intros c j v p Hin. destruct (H2 _ _ _ _ Hin) as [[Eq|?]|(x & d' & ? & ?)]; [inv Eq|auto|].
           ++ right. exists x0, d. cbn. splits; auto.
           ++ right; exists x, d'; cbn; tauto.
        -- intros y m Hy. specialize (H4 y). rewrite dget_dset in H4. destruct (eq_dec y v2) as [->|Hne]; [|auto].
           destruct (H4 _ eq_refl) as (m' & Hm' & Hle). exists m'. split; [exact Hm'|]. rewrite Hy in Et. apply Z.ltb_lt in Et. lia.
        -- intros x y d' [Eq|Hin] Hy; [inv Eq|eauto]. specialize (H4 y). rewrite dget_dset in H4. destruct (eq_dec y y); [|congruence].
           apply (H4 _ eq_refl).
      * destruct (IH _ _ _ _ _ _ Hf Hmn) as (H1 & H2 & H3 & H4 & H5). splits; auto.
        -- intros c j v p Hin. destruct (H2 _ _ _ _ Hin) as [?|(x & d' & ? & ?)]; [auto|right; exists x, d'; cbn; tauto].
        -- intros x y d' [Eq|Hin] Hy; [inv Eq|eauto]. destruct (dget y M) as [prev|] eqn:Ep; [|discriminate]. apply Z.ltb_ge in Et.
           destruct (H4 y prev Ep) as (m' & Hm' & Hle). exists m'. split; [exact Hm'|lia]. Qed.

Lemma clear_snoc p x : clear_of S p -> ~ In x S -> clear_of S (x :: p).
Proof. intros H1 H2 y [<-|Hy]; auto. Qed.
Lemma clear_rev p : clear_of S p -> clear_of S (rev p).
Proof. intros H x Hx. apply H, in_rev, Hx. Qed.

Definition sp_post (r : ext * list A) : Prop :=
  match r with
  | (Fin d, p) => wpath E a p e d /\ clear_of S p /\ forall p' d', wpath E a p' e d' -> clear_of S p' -> d <= d'
  | (Inf, p) => p = [] /\ forall p' d', wpath E a p' e d' -> ~ clear_of S p'
  end.

Lemma sp_loop_spec : exists r, returns (fun n => loop n (sp_step g e) ([(0, 0%nat, (a, []))], [(a, 0)], 1%nat, set_of S)) (Ok r) /\ sp_post r.
Proof.
  pose (I := fun st : heap * dict A Z * nat * list A => let '(q, M, i, V) := st in exists dst, dj q M V dst).
  pose (m := fun st : heap * dict A Z * nat * list A => (unseen (nodes g) (snd st), length (fst (fst (fst st))))).
  destruct (loop_returns (sp_step g e) I (fun s' s => lt2 (m s') (m s)) (fun r => exists t, r = Ok t /\ sp_post t))
    with (s := ([(0, 0%nat, (a, @nil A))], [(a, 0)], 1%nat, set_of S)) as (r & Hr & t & -> & Ht).
  - apply (wf_of lt2 m), lt2_wf.
  - intros [[[q M] i] V] [dst D]. unfold sp_step. pose proof (heappop_spec q) as Hpop.
    destruct (heappop q) as [[[[cost j] [v1 path]] q1]|].
    2:{ subst q. split; [discriminate|]. exists (Inf, []). split; [reflexivity|]. split; [reflexivity|]. intros p' d' Hp Hc.
        assert (In e p') as Hep by (eapply wpath_end_In; eauto).
        destruct (In_dec' e V) as [h|h]; [apply (Hc e Hep), (dj_e _ _ _ _ D), h|].
        destruct (dj_frontier _ _ _ _ D p' e d' Hp Hc h) as (c & k & v & pp & [] & _). }
    destruct Hpop as [Hperm Hmin].
    assert (forall u, In u q <-> u = (cost, j, (v1, path)) \/ In u q1) as Hin.
    { intros x. split; intros H; [apply (Permutation_in x Hperm) in H; destruct H as [<-|H]; auto|].
      apply (Permutation_in x (Permutation_sym Hperm)). destruct H as [->|H]; cbn; auto. }
    destruct (dj_ent _ _ _ _ D cost j v1 path) as [Hw Hcl]; [apply Hin; auto|].
    destruct (mem_spec v1 V) as [Hv|Hv].
    { split.
      - exists dst. destruct D as [D1 D2 D3 D4 D5 D6 D7]. constructor; auto.
        + intros c k v p Hx. apply (D2 c k), Hin. auto.
        + intros x y w Hx HS He Hy. destruct (D4 x y w Hx HS He Hy) as (c & k & p & Hx' & Hle). exists c, k, p. split; [|exact Hle].
          apply Hin in Hx'. destruct Hx' as [Eq|?]; [inv Eq; tauto|assumption].
        + intros y m' Hy Hny. destruct (D5 y m' Hy Hny) as (c & k & p & Hx' & Hle). exists c, k, p. split; [|exact Hle].
          apply Hin in Hx'. destruct Hx' as [Eq|?]; [inv Eq; tauto|assumption].
        + intros Hna. destruct (D6 Hna) as (c & k & p & Hx' & Hle). exists c, k, p. split; [|exact Hle].
          apply Hin in Hx'. destruct Hx' as [Eq|?]; [inv Eq; tauto|assumption].
      - right. unfold m; cbn [fst snd]. split; [reflexivity|]. rewrite (Permutation_length Hperm). cbn. lia. }
    assert (~ In v1 S) as HvS by (intros C; apply Hv, (dj_S _ _ _ _ D), C).
    assert (In v1 (nodes g)) as Hvn by (eapply wpath_nodes; eauto).
    assert (forall p d, wpath E a p v1 d -> clear_of S p -> cost <= d) as Hopt.
    { intros p d Hp Hc. destruct (dj_frontier _ _ _ _ D p v1 d Hp Hc Hv) as (c & k & v & pp & Hx & Hle).
      specialize (Hmin _ Hx). unfold ecost in Hmin. cbn in Hmin. lia. }
    destruct (eq_dec v1 e) as [->|Hne].
    { split; [discriminate|]. exists (Fin cost, rev (e :: path)). split; [reflexivity|]. hnf. splits; auto.
      apply clear_rev, clear_snoc; assumption. }
    destruct (fold_left (sp_relax cost (v1 :: path) (sadd v1 V)) (edges_from g v1) (q1, M, i)) as [[q' M'] i'] eqn:Ef.
    destruct (relax_spec _ _ _ _ _ _ _ _ _ _ Ef) as (R1 & R2 & R3 & R4 & R5).
    { intros y m' Hy Hny. rewrite In_sadd in Hny. destruct (dj_mn _ _ _ _ D y m' Hy) as (c & k & p & Hx & Hle); [tauto|].
      exists c, k, p. split; [|exact Hle]. apply Hin in Hx. destruct Hx as [Eq|?]; [inv Eq; tauto|assumption]. }
    split.
    + exists (fun x => if eq_dec x v1 then cost else dst x). constructor.
      * intros x Hx. apply In_sadd. right. apply (dj_S _ _ _ _ D), Hx.
      * intros c k v p Hx. destruct (R2 _ _ _ _ Hx) as [Hx'|(x & d & He & -> & -> & Hn)].
        -- apply (dj_ent _ _ _ _ D c k). apply Hin. auto.
        -- apply (In_edges_from g v1 _ W) in He. destruct He as (b' & w & Eq & He). inv Eq. split; [|apply clear_snoc; assumption].
           change (rev (b' :: v1 :: path)) with (rev (v1 :: path) ++ [b']). eapply wpath_snoc; eauto.
      * intros x Hx HS p d Hp Hc. destruct (eq_dec x v1) as [->|Hn]; [eapply Hopt; eauto|]. apply In_sadd in Hx.
        destruct Hx as [->|Hx]; [congruence|]. eapply (dj_low _ _ _ _ D); eauto.
      * intros x y w Hx HS He Hy. destruct (eq_dec x v1) as [->|Hn].
        -- destruct (R5 v1 y w) as (m' & Hm' & Hle); [apply In_edges_from; [exact W|]; eauto|exact Hy|].
           destruct (R3 y m' Hm' Hy) as (c & k & p & Hx' & Hle'). exists c, k, p. split; [exact Hx'|lia].
        -- apply In_sadd in Hx. destruct Hx as [->|Hx]; [congruence|]. rewrite In_sadd in Hy.
           destruct (dj_fr _ _ _ _ D x y w Hx HS He) as (c & k & p & Hx' & Hle); [tauto|]. exists c, k, p. split; [|exact Hle].
           apply R1. apply Hin in Hx'. destruct Hx' as [Eq|?]; [inv Eq; tauto|assumption].
      * exact R3.
      * intros Hna. rewrite In_sadd in Hna. destruct (dj_st _ _ _ _ D) as (c & k & p & Hx' & Hle); [tauto|]. exists c, k, p. split; [|exact Hle].
        apply R1. apply Hin in Hx'. destruct Hx' as [Eq|?]; [inv Eq; tauto|assumption].
      * intros He. apply In_sadd in He. destruct He as [->|He]; [congruence|]. apply (dj_e _ _ _ _ D), He.
    + left. unfold m; cbn [fst snd]. apply unseen_sadd_lt; assumption.
  - exists (fun _ => 0). constructor.
    + intros x Hx. apply In_set_of, Hx.
    + intros c k v p [Eq|[]]. inv Eq. split; [constructor|intros ? []].
    + intros x Hx HS. apply (proj1 (In_set_of x S)) in Hx. tauto.
    + intros x y w Hx HS. apply (proj1 (In_set_of x S)) in Hx. tauto.
    + intros y m'. cbn. destruct (eq_dec y a) as [->|]; [|discriminate]. intros Eq _. inv Eq. exists 0, 0%nat, []. cbn. split; [auto|lia].
    + intros _. exists 0, 0%nat, []. cbn. split; [auto|lia].
    + intros He. apply (In_set_of e S), He.
  - exists t. auto. Qed.
End Dij.

Lemma shortest_path_spec g a e S : wf g -> nonneg g -> In a (nodes g) -> In e (nodes g) ->
  exists r, returns (fun n => shortest_path n g a e S) (Ok r) /\ sp_post g a e S r.
Proof. intros W Hn Ha He. unfold shortest_path.
  assert (contains g a = true) as -> by (apply contains_In, Ha). assert (contains g e = true) as -> by (apply contains_In, He). cbn [negb].
  apply (sp_loop_spec g a e S W Hn Ha). Qed.

Lemma shortest_path_dist g a e : wf g -> nonneg g -> In a (nodes g) -> In e (nodes g) ->
  exists d p, returns (fun n => shortest_path n g a e []) (Ok (d, p)) /\ dist (edge g) a e d /\
    match d with Fin z => wpath (edge g) a p e z | Inf => p = [] end.
Proof. intros W Hn Ha He. destruct (shortest_path_spec g a e [] W Hn Ha He) as ([d p] & Hr & Hp). exists d, p. split; [exact Hr|].
  unfold sp_post, clear_of in Hp. destruct d as [z|].
  - destruct Hp as (H1 & _ & H2). splits; auto. split; [eauto|]. intros p' z' H'. eapply H2; eauto.
  - destruct Hp as [-> H]. split; [|reflexivity]. intros p' z' H'. apply (H p' z' H'). intros x _ []. Qed.

(** ** distance_from_path: the sum over consecutive pairs of the edge value, or of the shortest distance
    when there is no edge or its value is 0. *)
Lemma ext_add_assoc (x y z : ext) : ext_add (ext_add x y) z = ext_add x (ext_add y z).
Proof. destruct x, y, z; cbn; try reflexivity. f_equal. lia. Qed.
Lemma dist_exists g x y : wf g -> nonneg g -> In x (nodes g) -> In y (nodes g) -> exists d, dist (edge g) x y d.
Proof. intros W N Hx Hy. destruct (shortest_path_dist g x y W N Hx Hy) as (d & p & _ & H & _). eauto. Qed.

Lemma dfp_loop_spec g : wf g -> nonneg g -> forall t n1 c acc,
  In n1 (nodes g) -> (forall x, In x t -> In x (nodes g)) ->
  (forall x y d, dget (x, y) c = Some d -> dist (edge g) x y (Fin d)) ->
  exists d, legs g n1 t d /\ returns (fun n => dfp_loop n g n1 t c acc) (Ok (ext_add (Fin acc) d)).
Proof. intros W N. induction t as [|n2 t IH]; intros n1 c acc H1 Ht Hc.
  - exists (Fin 0). split; [constructor|]. cbn. rewrite Z.add_0_r. apply returns_const. discriminate.
  - assert (In n2 (nodes g)) as H2 by (apply Ht; cbn; auto).
    assert (forall x, In x t -> In x (nodes g)) as Ht' by (intros; apply Ht; cbn; auto).
    assert (forall o d, truthy o = Some d -> o = Some d /\ (d =? 0) = false) as HT.
    { intros [z|] d; cbn; [|discriminate]. destruct (z =? 0) eqn:Ez; [discriminate|]. intros Eq. inv Eq. auto. }
    cbn [dfp_loop]. destruct (truthy (edge g n1 n2)) as [w|] eqn:Ew.
    + apply HT in Ew. destruct Ew as [Ew Hw]. destruct (IH n2 c (acc + w) H2 Ht' Hc) as (d & Hl & Hr). exists (ext_add (Fin w) d). split.
      * constructor; [|exact Hl]. unfold leg. rewrite Ew, Hw. reflexivity.
      * rewrite <- ext_add_assoc. exact Hr.
    + assert (forall d, dist (edge g) n1 n2 d -> leg g n1 n2 d) as Hleg.
      { unfold leg. cbv [truthy] in Ew. destruct (edge g n1 n2) as [w|]; [|auto]. destruct (w =? 0); [auto|discriminate]. }
      destruct (shortest_path_dist g n1 n2 W N H1 H2) as (dd & pp & Hret & Hd & _).
      destruct (truthy (dget (n1, n2) c)) as [dc|] eqn:Ec.
      * apply HT in Ec. destruct Ec as [Ec _]. apply Hc in Ec. destruct (IH n2 c (acc + dc) H2 Ht' Hc) as (d & Hl & Hr).
        exists (ext_add (Fin dc) d). split; [constructor; auto|]. rewrite <- ext_add_assoc. exact Hr.
      * destruct dd as [dz|].
        -- destruct (IH n2 (dset (n1, n2) dz c) (acc + dz) H2 Ht') as (d & Hl & Hr).
           { intros x y d0. rewrite dget_dset. destruct (eq_dec (x, y) (n1, n2)) as [Eq|_]; [|apply Hc]. intros Eq'. inv Eq. inv Eq'. exact Hd. }
           exists (ext_add (Fin dz) d). split; [constructor; auto|].
           refine (returns_bind _ (fun n r => match fst r with Inf => Ok Inf | Fin d => dfp_loop n g n2 t (dset (n1, n2) d c) (acc + d) end) (Fin dz, pp) _ Hret _).
           cbn [fst]. rewrite <- ext_add_assoc. exact Hr.
        -- destruct (IH n2 c 0 H2 Ht' Hc) as (d & Hl & _).
           exists (ext_add Inf d). split; [constructor; auto|]. cbn [ext_add].
           refine (returns_bind _ (fun n r => match fst r with Inf => Ok Inf | Fin d => dfp_loop n g n2 t (dset (n1, n2) d c) (acc + d) end) (Inf, pp) _ Hret _).
           cbn [fst]. apply returns_const. discriminate. Qed.

Lemma distance_from_path_spec g h t : wf g -> nonneg g -> In h (nodes g) -> (forall x, In x t -> In x (nodes g)) ->
  exists d, legs g h t d /\ returns (fun n => distance_from_path n g (h :: t)) (Ok d).
Proof. intros W N Hh Ht. destruct (dfp_loop_spec g W N t h [] 0 Hh Ht) as (d & Hl & Hr); [intros x y d C; discriminate C|].
  exists d. split; [exact Hl|]. unfold distance_from_path. destruct d as [z|]; [|exact Hr]. cbn in Hr |- *. exact Hr. Qed.

Lemma legs_fun g h t d d' : legs g h t d -> legs g h t d' -> d = d'.
Proof. intros H. revert d'. induction H as [x|x y t d1 d2 Hl Ht IH]; intros d' H'; inv H'; [reflexivity|]. f_equal; [|auto].
  unfold leg in *. destruct (edge g x y) as [w|]; [destruct (w =? 0)|]; try congruence; eapply dist_fun; eauto. Qed.
(** on a real walk with non-negative weights this is the length of the walk *)
Lemma legs_wpath g h t b d : nonneg g -> wpath (edge g) h (h :: t) b d -> legs g h t (Fin d).
Proof. intros N. revert h d. induction t as [|y t IH]; intros h d H.
  - inversion H as [|? ? ? ? ? ? HE Hp]; subst; [constructor|]. exfalso. apply wpath_head in Hp. destruct Hp; discriminate.
  - apply wpath_inv2 in H. destruct H as (_ & w & d0 & H2 & H6 & ->). rename y into b0. apply IH in H6. change (Fin (w + d0)) with (ext_add (Fin w) (Fin d0)). constructor; [|exact H6].
    unfold leg. rewrite H2. destruct (Z.eqb_spec w 0) as [->|Hw]; [|reflexivity]. split.
    + exists [h; b0]. change 0 with (0 + 0). econstructor; [exact H2|constructor].
    + intros p' z' Hp. eapply wpath_nonneg; eauto. Qed.
End F.
