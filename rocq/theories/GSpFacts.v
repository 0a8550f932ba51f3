(** Dijkstra with rounded addition: proofs about the generic model of shortest_path. *)
From Verif Require Import Prelude PreludeFacts Base BaseFacts BaseFacts2 BaseFacts3 Spec SpecFacts Loop SearchFacts BaseAlgFacts GSp GSpec SpFacts.

Section HeapFacts.
Context {W P : Type} (ar : arith W) (good : W -> Prop) (L : lawful ar good).
Notation "x <== y" := (a_ltb ar y x = false) (at level 70).
Lemma w_refl x : good x -> x <== x.
Proof. intros H. destruct (a_ltb ar x x) eqn:E; [|reflexivity]. rewrite (l_asym _ _ L x x H H E) in E. discriminate. Qed.
Definition gcost (x : W * nat * P) : W := fst (fst x).
Lemma ghlt_cost (x y : W * nat * P) : good (gcost x) -> good (gcost y) ->
  (ghlt ar x y = true -> gcost x <== gcost y) /\ (ghlt ar x y = false -> gcost y <== gcost x).
Proof. destruct x as [[c1 i1] p1], y as [[c2 i2] p2]. cbn. intros G1 G2. split; intros H.
  - apply orb_true_iff in H. destruct H as [H|H]; [apply (l_asym _ _ L); auto|]. apply andb_true_iff in H. destruct H as [H _]. apply (l_eqb _ _ L); auto.
  - apply orb_false_iff in H. apply H. Qed.
Lemma ghmin_spec (q : list (W * nat * P)) : forall x m r, ghmin ar x q = (m, r) -> (forall y, In y (x :: q) -> good (gcost y)) ->
  Permutation (x :: q) (m :: r) /\ forall y, In y (x :: q) -> gcost m <== gcost y.
Proof. induction q as [|y q IH]; intros x m r E G; cbn in E.
  - inv E. split; [reflexivity|]. intros y [<-|[]]. apply w_refl, G. cbn; auto.
  - destruct (ghlt_cost y x) as [C1 C2]; [apply G; cbn; auto|apply G; cbn; auto|]. destruct (ghlt ar y x) eqn:Hl.
    + destruct (ghmin ar y q) as [m' r'] eqn:E'. inv E. destruct (IH _ _ _ E') as [Hp Hm]; [intros z Hz; apply G; cbn in *; tauto|]. split.
      * etransitivity; [apply perm_skip; exact Hp|]. apply perm_swap.
      * intros z [<-|Hz]; [|auto]. assert (In m (y :: q)) as Hi by (apply (Permutation_in m (Permutation_sym Hp)); cbn; auto).
        apply (l_trans _ _ L) with (gcost y); try (apply G; cbn in *; tauto); [apply Hm; cbn; auto|auto].
    + destruct (ghmin ar x q) as [m' r'] eqn:E'. inv E. destruct (IH _ _ _ E') as [Hp Hm]; [intros z Hz; apply G; cbn in *; tauto|]. split.
      * etransitivity; [apply perm_swap|]. etransitivity; [apply perm_skip; exact Hp|]. apply perm_swap.
      * intros z [<-|[<-|Hz]]; [apply Hm; cbn; auto| |apply Hm; cbn; auto].
        assert (In m (x :: q)) as Hi by (apply (Permutation_in m (Permutation_sym Hp)); cbn; auto).
        apply (l_trans _ _ L) with (gcost x); try (apply G; cbn in *; tauto); [apply Hm; cbn; auto|auto]. Qed.
Lemma gheappop_spec (q : list (W * nat * P)) : (forall y, In y q -> good (gcost y)) -> match gheappop ar q with
  | None => q = []
  | Some (m, r) => Permutation q (m :: r) /\ forall y, In y q -> gcost m <== gcost y end.
Proof. destruct q as [|x q]; cbn [gheappop]; [reflexivity|]. intros G. destruct (ghmin ar x q) as [m r] eqn:E. exact (ghmin_spec q x m r E G). Qed.
End HeapFacts.

Section F.
Context {A O W : Type} {EA : EqDec A} (ar : arith W) (good : W -> Prop) (L : lawful ar good).
Notation graph := (graph A O W).
Notation "x <== y" := (a_ltb ar y x = false) (at level 70).
Implicit Types (g : graph) (a b x y : A) (p : list A).

Lemma lpath_good g a p b d : good_edges good g -> lpath ar (edge g) a p b d -> good d.
Proof. intros G H. induction H; [apply (l_zero _ _ L)|]. apply (l_add _ _ L); eauto. Qed.
Lemma lpath_end g a p b d : lpath ar (edge g) a p b d -> In b p.
Proof. intros H. destruct H; [cbn; auto|]. apply in_or_app. cbn. auto. Qed.
Lemma lpath_nodes g a p b d : wf g -> In a (nodes g) -> lpath ar (edge g) a p b d -> In b (nodes g).
Proof. intros Wf Ha H. destruct H; [exact Ha|]. apply (edge_nodes g b c w Wf H0). Qed.

Section Dij.
Variables (g : graph) (a e : A) (S : list A).
Hypothesis Wf : wf g.
Hypothesis Hg : good_edges good g.
Hypothesis Ha : In a (nodes g).
Notation E := (edge g).
Notation heap := (list (W * nat * (A * list A))).
Notation add := (a_add ar).

Record gdj (q : heap) (M : dict A W) (V : list A) (dst : A -> W) : Prop := {
  dj_S : forall x, In x S -> In x V;
  dj_ent : forall c i v p, In (c, i, (v, p)) q -> lpath ar E a (rev (v :: p)) v c /\ clear_of S p /\ NoDup p /\ incl p V;
  dj_gd : forall x, In x V -> ~ In x S -> good (dst x);
  dj_gm : forall x m, dget x M = Some m -> good m;
  dj_low : forall x, In x V -> ~ In x S -> forall p d, lpath ar E a p x d -> clear_of S p -> dst x <== d;
  dj_fr : forall x y w, In x V -> ~ In x S -> E x y = Some w -> ~ In y V -> exists c i p, In (c, i, (y, p)) q /\ c <== add (dst x) w;
  dj_mn : forall y m, dget y M = Some m -> ~ In y V -> exists c i p, In (c, i, (y, p)) q /\ c <== m;
  dj_st : ~ In a V -> exists c i p, In (c, i, (a, p)) q /\ c <== a_zero ar;
  dj_e : In e V -> In e S }.

Lemma gdj_good q M V dst : gdj q M V dst -> forall u, In u q -> good (gcost u).
Proof. intros D [[c i] [v p]] Hu. destruct (dj_ent _ _ _ _ D c i v p Hu) as [H _]. eapply lpath_good; eauto. Qed.

Lemma gdj_frontier q M V dst : gdj q M V dst -> forall p z d, lpath ar E a p z d -> clear_of S p -> ~ In z V ->
  exists c i v pp, In (c, i, (v, pp)) q /\ c <== d.
Proof. intros D p z d Hp. induction Hp as [|p b c w d Hp IH Hw]; intros Hc Hz.
  - destruct (dj_st _ _ _ _ D Hz) as (c & i & pp & Hin & Hc0). exists c, i, a, pp. auto.
  - assert (clear_of S p) as Hcp by (intros x Hx; apply Hc, in_or_app; auto).
    assert (good d) as Gd by (eapply lpath_good; eauto). assert (good w) as Gw by (eapply Hg; eauto).
    destruct (In_dec' b V) as [Hb|Hb].
    + assert (~ In b S) as HbS by (apply Hcp, (lpath_end g _ _ _ _ Hp)).
      pose proof (dj_gd _ _ _ _ D b Hb HbS) as Gb.
      destruct (dj_fr _ _ _ _ D b c w Hb HbS Hw Hz) as (k & i & pp & Hin & Hle). exists k, i, c, pp. split; [exact Hin|].
      apply (l_trans _ _ L) with (add (dst b) w); auto using (l_add _ _ L).
      * apply (gdj_good _ _ _ _ D _ Hin).
      * apply (l_mono _ _ L); auto. apply (dj_low _ _ _ _ D b Hb HbS _ _ Hp Hcp).
    + destruct (IH Hcp Hb) as (k & i & v & pp & Hin & Hle). exists k, i, v, pp. split; [exact Hin|].
      apply (l_trans _ _ L) with d; auto using (l_add _ _ L), (l_infl _ _ L). apply (gdj_good _ _ _ _ D _ Hin). Qed.

Lemma grelax_spec cost path V' es : good cost -> (forall x y d, In (x, y, d) es -> good d) -> forall (q : heap) (M : dict A W) (i : nat) q' M' i',
  fold_left (gsp_relax ar cost path V') es (q, M, i) = (q', M', i') ->
  (forall y m, dget y M = Some m -> good m) ->
  (forall y m, dget y M = Some m -> ~ In y V' -> exists c j p, In (c, j, (y, p)) q /\ c <== m) ->
  (forall u, In u q -> In u q') /\
  (forall c j v p, In (c, j, (v, p)) q' -> In (c, j, (v, p)) q \/ exists x d, In (x, v, d) es /\ c = add cost d /\ p = path /\ ~ In v V') /\
  (forall y m, dget y M' = Some m -> ~ In y V' -> exists c j p, In (c, j, (y, p)) q' /\ c <== m) /\
  (forall y m, dget y M = Some m -> exists m', dget y M' = Some m' /\ m' <== m) /\
  (forall x y d, In (x, y, d) es -> ~ In y V' -> exists m, dget y M' = Some m /\ m <== add cost d) /\
  (forall y m, dget y M' = Some m -> good m).
Proof. intros Gc. induction es as [|[[x0 v2] d] es IH]; intros Ge q M i q' M' i' Hf HgM Hmn; cbn in Hf.
  - inv Hf. splits; auto; [|intros ? ? ? []]. intros y m Hy. exists m. split; [exact Hy|apply (w_refl ar good L); eauto].
  - assert (forall x y d, In (x, y, d) es -> good d) as Ge' by (intros x y d' H'; apply (Ge x y d'); cbn; auto).
    assert (good (add cost d)) as Gcd by (apply (l_add _ _ L); [exact Gc|apply (Ge x0 v2); cbn; auto]).
    specialize (IH Ge'). destruct (mem_spec v2 V') as [Hv|Hv].
    + destruct (IH _ _ _ _ _ _ Hf HgM Hmn) as (H1 & H2 & H3 & H4 & H5 & H6). splits; auto.
      * intros c j v p Hin. destruct (H2 _ _ _ _ Hin) as [?|(x & d' & ? & ?)]; [auto|right; exists x, d'; cbn; tauto].
      * intros x y d' [Eq|Hin] Hy; [inv Eq; tauto|eauto].
    + destruct (match dget v2 M with None => true | Some prev => a_ltb ar (add cost d) prev end) eqn:Et.
      * edestruct (IH _ _ _ _ _ _ Hf) as (H1 & H2 & H3 & H4 & H5 & H6).
        { intros y m. rewrite dget_dset. destruct (eq_dec y v2) as [->|Hne]; [intros Eq; inv Eq; exact Gcd|apply HgM]. }
        { intros y m. rewrite dget_dset. destruct (eq_dec y v2) as [->|Hne].
          - intros Eq Hy. inv Eq. exists (add cost d), i, path. cbn. split; [auto|apply (w_refl ar good L); auto].
          - intros Hy Hny. destruct (Hmn y m Hy Hny) as (c & j & p & Hin & Hle). exists c, j, p. cbn; auto. }
        splits; auto.
        -- intros x Hx. apply H1. cbn; auto.
        -- intros c j v p Hin. destruct (H2 _ _ _ _ Hin) as [[Eq|?]|(x & d' & ? & ?)]; [inv Eq|auto|].
           ++ right. exists x0, d. cbn. splits; auto.
           ++ right; exists x, d'; cbn; tauto.
        -- intros y m Hy. specialize (H4 y). rewrite dget_dset in H4. destruct (eq_dec y v2) as [->|Hne]; [|auto].
           destruct (H4 _ eq_refl) as (m' & Hm' & Hle). exists m'. split; [exact Hm'|]. rewrite Hy in Et.
           apply (l_trans _ _ L) with (add cost d); eauto. apply (l_asym _ _ L); eauto.
        -- intros x y d' [Eq|Hin] Hy; [inv Eq|eauto]. specialize (H4 y). rewrite dget_dset in H4. destruct (eq_dec y y); [|congruence].
           apply (H4 _ eq_refl).
      * destruct (IH _ _ _ _ _ _ Hf HgM Hmn) as (H1 & H2 & H3 & H4 & H5 & H6). splits; auto.
        -- intros c j v p Hin. destruct (H2 _ _ _ _ Hin) as [?|(x & d' & ? & ?)]; [auto|right; exists x, d'; cbn; tauto].
        -- intros x y d' [Eq|Hin] Hy; [inv Eq|eauto]. destruct (dget y M) as [prev|] eqn:Ep; [|discriminate].
           destruct (H4 y prev Ep) as (m' & Hm' & Hle). exists m'. split; [exact Hm'|]. apply (l_trans _ _ L) with prev; eauto. Qed.

(** what shortest_path returns: either a path p avoiding S, with its left-to-right sum d, which no path
    avoiding S beats; or (inf, []) when there is no path avoiding S *)
Definition gsp_post (r : W * list A) : Prop :=
  let '(d, p) := r in
  (lpath ar E a p e d /\ clear_of S p /\ NoDup p /\ forall p' d', lpath ar E a p' e d' -> clear_of S p' -> d <== d') \/
  (d = a_inf ar /\ p = [] /\ forall p' d', lpath ar E a p' e d' -> ~ clear_of S p').

Lemma clear_snoc' p x : clear_of S p -> ~ In x S -> clear_of S (x :: p).
Proof. intros H1 H2 y [<-|Hy]; auto. Qed.
Lemma clear_rev' p : clear_of S p -> clear_of S (rev p).
Proof. intros H x Hx. apply H, in_rev, Hx. Qed.

Lemma gsp_loop_spec : exists r, returns (fun n => loop n (gsp_step ar g e) ([(a_zero ar, 0, (a, []))], [(a, a_zero ar)], 1, set_of S)) (Ok r) /\ gsp_post r.
Proof.
  pose (I := fun st : heap * dict A W * nat * list A => let '(q, M, i, V) := st in exists dst, gdj q M V dst).
  pose (m := fun st : heap * dict A W * nat * list A => (unseen (nodes g) (snd st), length (fst (fst (fst st))))).
  destruct (loop_returns (gsp_step ar g e) I (fun s' s => lt2 (m s') (m s)) (fun r => exists t, r = Ok t /\ gsp_post t))
    with (s := ([(a_zero ar, 0, (a, @nil A))], [(a, a_zero ar)], 1, set_of S)) as (r & Hr & t & -> & Ht).
  - apply (wf_of lt2 m), lt2_wf.
  - intros [[[q M] i] V] [dst D]. unfold gsp_step. pose proof (gheappop_spec ar good L q (gdj_good _ _ _ _ D)) as Hpop.
    destruct (gheappop ar q) as [[[[cost j] [v1 path]] q1]|].
    2:{ subst q. split; [discriminate|]. exists (a_inf ar, []). split; [reflexivity|]. right. splits; auto. intros p' d' Hp Hc.
        assert (In e p') as Hep by (eapply lpath_end; eauto).
        destruct (In_dec' e V) as [h|h]; [apply (Hc e Hep), (dj_e _ _ _ _ D), h|].
        destruct (gdj_frontier _ _ _ _ D p' e d' Hp Hc h) as (c & k & v & pp & [] & _). }
    destruct Hpop as [Hperm Hmin].
    assert (forall u, In u q <-> u = (cost, j, (v1, path)) \/ In u q1) as Hin.
    { intros x. split; intros H; [apply (Permutation_in x Hperm) in H; destruct H as [<-|H]; auto|].
      apply (Permutation_in x (Permutation_sym Hperm)). destruct H as [->|H]; cbn; auto. }
    destruct (dj_ent _ _ _ _ D cost j v1 path) as (Hw & Hcl & Hnd & Hinc); [apply Hin; auto|].
    assert (good cost) as Gcost by (eapply lpath_good; eauto).
    destruct (mem_spec v1 V) as [Hv|Hv].
    { split.
      - exists dst. destruct D as [D1 D2 D8 D9 D3 D4 D5 D6 D7]. constructor; auto.
        + intros c k v p Hx. apply (D2 c k), Hin. auto.
        + intros x y w Hx HS He Hy. destruct (D4 x y w Hx HS He Hy) as (c & k & p & Hx' & Hle). exists c, k, p. split; [|exact Hle].
          apply Hin in Hx'. destruct Hx' as [Eq|?]; [inv Eq; tauto|assumption].
        + intros y m' Hy Hny. destruct (D5 y m' Hy Hny) as (c & k & p & Hx' & Hle). exists c, k, p. split; [|exact Hle].
          apply Hin in Hx'. destruct Hx' as [Eq|?]; [inv Eq; tauto|assumption].
        + intros Hna. destruct (D6 Hna) as (c & k & p & Hx' & Hle). exists c, k, p. split; [|exact Hle].
          apply Hin in Hx'. destruct Hx' as [Eq|?]; [inv Eq; tauto|assumption].
      - right. unfold m; cbn [fst snd]. split; [reflexivity|]. rewrite (Permutation_length Hperm). cbn. lia. }
    assert (~ In v1 S) as HvS by (intros C; apply Hv, (dj_S _ _ _ _ D), C).
    assert (In v1 (nodes g)) as Hvn by (eapply lpath_nodes; eauto).
    assert (forall p d, lpath ar E a p v1 d -> clear_of S p -> cost <== d) as Hopt.
    { intros p d Hp Hc. destruct (gdj_frontier _ _ _ _ D p v1 d Hp Hc Hv) as (c & k & v & pp & Hx & Hle).
      apply (l_trans _ _ L) with c; auto; [apply (gdj_good _ _ _ _ D _ Hx)|eapply lpath_good; eauto|apply (Hmin _ Hx)]. }
    destruct (eq_dec v1 e) as [->|Hne].
    { split; [discriminate|]. exists (cost, rev (e :: path)). split; [reflexivity|]. left. splits; auto.
      - apply clear_rev', clear_snoc'; assumption.
      - apply NoDup_rev, NoDup_cons_iff. split; [intros C; apply Hv, Hinc, C|exact Hnd]. }
    destruct (fold_left (gsp_relax ar cost (v1 :: path) (sadd v1 V)) (edges_from g v1) (q1, M, i)) as [[q' M'] i'] eqn:Ef.
    destruct (fun Ge GM => grelax_spec _ _ _ _ Gcost Ge _ _ _ _ _ _ Ef GM) as (R1 & R2 & R3 & R4 & R5 & R6).
    { intros x y d He. apply (In_edges_from g v1 _ Wf) in He. destruct He as (b' & w & Eq & He). inv Eq. eapply Hg; eauto. }
    { exact (dj_gm _ _ _ _ D). }
    { intros y m' Hy Hny. rewrite In_sadd in Hny. destruct (dj_mn _ _ _ _ D y m' Hy) as (c & k & p & Hx & Hle); [tauto|].
      exists c, k, p. split; [|exact Hle]. apply Hin in Hx. destruct Hx as [Eq|?]; [inv Eq; tauto|assumption]. }
    assert (forall c k v p, In (c, k, (v, p)) q' -> lpath ar E a (rev (v :: p)) v c /\ clear_of S p /\ NoDup p /\ incl p (sadd v1 V)) as Hent.
    { intros c k v p Hx. destruct (R2 _ _ _ _ Hx) as [Hx'|(x & d & He & -> & -> & Hn)].
      - destruct (dj_ent _ _ _ _ D c k v p) as (Y1 & Y2 & Y3 & Y4); [apply Hin; auto|]. splits; auto. intros x Hxp. apply In_sadd. right. apply Y4, Hxp.
      - apply (In_edges_from g v1 _ Wf) in He. destruct He as (b' & w & Eq & He). inv Eq. splits; [|apply clear_snoc'; assumption|apply NoDup_cons_iff; split; [intros C; apply Hv, Hinc, C|exact Hnd]|intros x [<-|Hx']; apply In_sadd; auto].
        change (rev (b' :: v1 :: path)) with (rev (v1 :: path) ++ [b']). eapply lpath_snoc; eauto. }
    assert (forall c k v p, In (c, k, (v, p)) q' -> good c) as Hge.
    { intros c k v p Hx. destruct (Hent _ _ _ _ Hx) as [Hx' _]. eapply lpath_good; eauto. }
    split.
    + exists (fun x => if eq_dec x v1 then cost else dst x). constructor.
      * intros x Hx. apply In_sadd. right. apply (dj_S _ _ _ _ D), Hx.
      * exact Hent.
      * intros x Hx HS. destruct (eq_dec x v1) as [->|Hn]; [exact Gcost|]. apply In_sadd in Hx. destruct Hx as [->|Hx]; [congruence|].
        apply (dj_gd _ _ _ _ D); auto.
      * exact R6.
      * intros x Hx HS p d Hp Hc. destruct (eq_dec x v1) as [->|Hn]; [eapply Hopt; eauto|]. apply In_sadd in Hx.
        destruct Hx as [->|Hx]; [congruence|]. eapply (dj_low _ _ _ _ D); eauto.
      * intros x y w Hx HS He Hy. destruct (eq_dec x v1) as [->|Hn].
        -- destruct (R5 v1 y w) as (m' & Hm' & Hle); [apply In_edges_from; [exact Wf|]; eauto|exact Hy|].
           destruct (R3 y m' Hm' Hy) as (c & k & p & Hx' & Hle'). exists c, k, p. split; [exact Hx'|].
           apply (l_trans _ _ L) with m'; eauto. apply (l_add _ _ L); eauto.
        -- apply In_sadd in Hx. destruct Hx as [->|Hx]; [congruence|]. rewrite In_sadd in Hy.
           destruct (dj_fr _ _ _ _ D x y w Hx HS He) as (c & k & p & Hx' & Hle); [tauto|]. exists c, k, p. split; [|exact Hle].
           apply R1. apply Hin in Hx'. destruct Hx' as [Eq|?]; [inv Eq; tauto|assumption].
      * exact R3.
      * intros Hna. rewrite In_sadd in Hna. destruct (dj_st _ _ _ _ D) as (c & k & p & Hx' & Hle); [tauto|]. exists c, k, p. split; [|exact Hle].
        apply R1. apply Hin in Hx'. destruct Hx' as [Eq|?]; [inv Eq; tauto|assumption].
      * intros He. apply In_sadd in He. destruct He as [->|He]; [congruence|]. apply (dj_e _ _ _ _ D), He.
    + left. unfold m; cbn [fst snd]. apply unseen_sadd_lt; assumption.
  - exists (fun _ => a_zero ar). pose proof (w_refl ar good L _ (l_zero _ _ L)) as Hz0. constructor.
    + intros x Hx. apply In_set_of, Hx.
    + intros c k v p [Eq|[]]. inv Eq. splits; [constructor|intros ? []|constructor|intros ? []].
    + intros x Hx HS. apply (l_zero _ _ L).
    + intros x m'. cbn. destruct (eq_dec x a) as [->|]; [|discriminate]. intros Eq. inv Eq. apply (l_zero _ _ L).
    + intros x Hx HS. apply (proj1 (In_set_of x S)) in Hx. tauto.
    + intros x y w Hx HS. apply (proj1 (In_set_of x S)) in Hx. tauto.
    + intros y m'. cbn. destruct (eq_dec y a) as [->|]; [|discriminate]. intros Eq _. inv Eq. exists (a_zero ar), 0, []. cbn. auto.
    + intros _. exists (a_zero ar), 0, []. cbn. auto.
    + intros He. apply (In_set_of e S), He.
  - exists t. auto. Qed.
End Dij.

Lemma gshortest_path_spec g a e S : wf g -> good_edges good g -> In a (nodes g) -> In e (nodes g) ->
  exists r, returns (fun n => gshortest_path ar n g a e S) (Ok r) /\ gsp_post g a e S r.
Proof. intros Wf Hn Ha He. unfold gshortest_path.
  assert (contains g a = true) as -> by (apply contains_In, Ha). assert (contains g e = true) as -> by (apply contains_In, He). cbn [negb].
  apply (gsp_loop_spec g a e S Wf Hn Ha). Qed.
End F.
