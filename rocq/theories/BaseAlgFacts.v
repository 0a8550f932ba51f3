(** Proofs about is_connected, network_size and components. *)
From Verif Require Import Prelude PreludeFacts Base BaseFacts BaseFacts2 BaseFacts3 Spec SpecFacts Loop SearchFacts BaseAlg.

Section F.
Context {A O V : Type} {EA : EqDec A}.
Notation graph := (graph A O V).
Implicit Types (g : graph) (a b x y : A).

Lemma In_from g a b : wf g -> (In b (nodes_from g a) <-> has_edge g a b).
Proof. intros H. apply In_nodes_from, H. Qed.
Lemma In_to g a b : wf g -> (In a (nodes_to g b) <-> has_edge g a b).
Proof. intros H. apply In_nodes_to, H. Qed.
Lemma has_edge_nodes g a b : wf g -> has_edge g a b -> In a (nodes g) /\ In b (nodes g).
Proof. intros H [v Hv]. eapply edge_nodes; eauto. Qed.

(** ** is_connected *)
Lemma conn_scan_eq n2 vis cs q :
  conn_scan n2 vis cs q = if mem n2 cs then None else Some (q ++ filter (fun c => negb (mem c vis)) cs).
Proof. revert q. induction cs as [|c cs IH]; intros q; cbn; [rewrite app_nil_r; reflexivity|].
  destruct (eq_dec c n2) as [->|Hn]; [destruct (eq_dec n2 n2); [reflexivity|congruence]|].
  destruct (eq_dec n2 c); [congruence|]. destruct (mem c vis) eqn:E; cbn; rewrite IH; [reflexivity|].
  destruct (mem n2 cs); [reflexivity|]. rewrite <- app_assoc. reflexivity. Qed.

Lemma is_connected_spec g a b : wf g ->
  exists r, returns (fun n => is_connected n g a b) (Ok r) /\ (r = true <-> reach1 (has_edge g) a b).
Proof. intros W. set (R := has_edge g). unfold is_connected. destruct (dmem a (g_edges g)) eqn:Ea.
  2:{ exists false. split; [apply returns_const; discriminate|]. split; [discriminate|]. intros (c & [v Hv] & _). exfalso.
      apply dmem_nokey in Ea. apply Ea. unfold edge, eget in Hv. destruct (dget a (g_edges g)) eqn:E; [|discriminate]. eapply dget_Some_key; eauto. }
  assert (In a (nodes g)) as Ha.
  { apply dmem_key in Ea. apply (nwf_key_inner _ _ (wf_e _ W)) in Ea. destruct (In_dec' a (nodes g)) as [h|h]; [exact h|].
    exfalso; apply Ea. apply (wf_notin_out g a W h). }
  pose (I := fun s : list A * list A => let '(q, vis) := s in
     (forall x, In x q \/ In x vis -> In x (nodes g) /\ reach R a x) /\
     (forall x y, In x vis -> R x y -> y <> b /\ (In y vis \/ In y q)) /\ (In a vis \/ In a q)).
  destruct (loop_returns (conn_step g b) I (fun s' s => lt2 ((fun s => (unseen (nodes g) (snd s), seen (snd s) (fst s))) s') ((fun s => (unseen (nodes g) (snd s), seen (snd s) (fst s))) s))
     (fun r => exists t, r = Ok t /\ (t = true <-> reach1 R a b))) with (s := ([a], @nil A)) as (r & Hr & t & -> & Ht).
  - apply (wf_of lt2 (fun s : list A * list A => (unseen (nodes g) (snd s), seen (snd s) (fst s)))), lt2_wf.
  - intros [q vis] (I1 & I2 & I3). destruct q as [|n q]; cbn [conn_step].
    + split; [discriminate|]. exists false. split; [reflexivity|]. split; [discriminate|]. intros (c & Hc & Hr). exfalso.
      destruct I3 as [I3|[]].
      assert (In c vis) as Hcv by (destruct (I2 _ _ I3 Hc) as (_ & [?|[]]); assumption).
      assert (forall x, reach R c x -> In x vis /\ x <> b) as G.
      { intros x Hx. revert x Hx. apply reach_ind_r.
        - split; [exact Hcv|]. apply (I2 _ _ I3 Hc).
        - intros x y _ [Hx _] Hxy. destruct (I2 _ _ Hx Hxy) as (? & [?|[]]). auto. }
      destruct (G b Hr); congruence.
    + rewrite conn_scan_eq. fold (nodes_from g n).
      destruct (I1 n (or_introl (or_introl eq_refl))) as [Hn Hrn].
      destruct (mem_spec b (nodes_from g n)) as [Hb|Hb].
      * split; [discriminate|]. exists true. split; [reflexivity|]. split; [|auto]. intros _. apply In_from in Hb; [|exact W].
        apply (reach1_snoc R a n b Hrn Hb).
      * split; [hnf; splits|].
        -- intros x Hx. rewrite in_app_iff, filter_In, In_sadd in Hx.
           destruct Hx as [[Hx|[Hx _]]|[->|Hx]]; [apply I1; cbn; auto| |auto|apply I1; auto].
           apply In_from in Hx; [|exact W]. split; [apply (has_edge_nodes g n x W Hx)|eapply reach_snoc; eauto].
        -- intros x y Hx Hxy. rewrite In_sadd, in_app_iff, filter_In, negb_true_iff, mem_notIn, In_sadd.
           apply In_sadd in Hx. destruct (eq_dec x n) as [->|Hne].
           ++ apply In_from in Hxy; [|exact W]. split; [intros ->; exact (Hb Hxy)|].
              destruct (In_dec' y vis); [auto|]. destruct (eq_dec y n); [auto|]. right; right. tauto.
           ++ destruct Hx as [->|Hx]; [congruence|]. destruct (I2 _ _ Hx Hxy) as [? [?|[->|?]]]; auto.
        -- rewrite In_sadd, in_app_iff. destruct I3 as [?|[->|?]]; auto.
        -- unfold lt2; cbn [fst snd]. destruct (mem_spec n vis) as [Hv|Hv].
           ++ right. unfold sadd. destruct (mem_spec n vis) as [_|h]; [|tauto]. split; [reflexivity|]. rewrite seen_app.
              rewrite (seen_zero vis (filter _ _)); [|intros x Hx; apply filter_In in Hx; destruct Hx as [_ Hx]; apply negb_true_iff, mem_notIn in Hx; exact Hx].
              unfold seen. cbn. destruct (mem_spec n vis); [cbn; lia|tauto].
           ++ left. apply unseen_sadd_lt; auto.
  - hnf; splits; cbn; auto. intros x [[<-|[]]|[]]. split; [exact Ha|apply reach_refl].
  - exists t. split; [exact Hr|exact Ht]. Qed.

(** ** network_size *)
Definition ball (R : A -> A -> Prop) a (d : nat) x : Prop := exists m, m <= d /\ steps R m a x.
Lemma ball_S R a d x : ball R a (S d) x <-> x = a \/ exists y, ball R a d y /\ R y x.
Proof. split.
  - intros (m & Hm & Hs). destruct m as [|m]; [left; apply steps_0_inv in Hs; auto|right].
    apply steps_snoc_inv in Hs. destruct Hs as (y & Hy & Hyx). exists y. split; [exists m; split; [lia|exact Hy]|exact Hyx].
  - intros [->|(y & (m & Hm & Hs) & Hy)]; [exists 0; split; [lia|constructor]|].
    exists (S m). split; [lia|eapply steps_snoc; eauto]. Qed.
Lemma ball_mono R a d d' x : d <= d' -> ball R a d x -> ball R a d' x.
Proof. intros H (m & Hm & Hs). exists m. split; [lia|exact Hs]. Qed.
Lemma ball_0 R a x : ball R a 0 x <-> x = a.
Proof. split; [intros (m & Hm & Hs); assert (m = 0) by lia; subst; apply steps_0_inv in Hs; auto|intros ->; exists 0; split; [lia|constructor]]. Qed.

Lemma net_scan_spec g l : forall N Q N' Q', wf g -> net_scan g l N Q = (N', Q') ->
  (forall x, In x N' <-> In x N \/ In x l) /\
  (NoDup N -> NoDup N') /\
  (forall x, In x Q' -> In x Q \/ exists y, In y l /\ ~ In y N /\ has_edge g y x) /\
  (forall x, In x Q -> In x Q') /\
  (forall y x, In y l -> ~ In y N -> has_edge g y x -> In x N' \/ In x Q') /\
  (incl l N -> N' = N /\ Q' = Q).
Proof. induction l as [|p l IH]; intros N Q N' Q' W E; cbn in E.
  - inv E. splits; auto; cbn; try tauto.
  - destruct (mem_spec p N) as [Hp|Hp].
    + destruct (IH _ _ _ _ W E) as (H1 & H2 & H3 & H4 & H5 & H6). splits; auto.
      * intros x. rewrite H1. cbn. intuition (subst; auto).
      * intros x Hx. destruct (H3 x Hx) as [?|(y & Hy & ?)]; [auto|right; exists y; cbn; tauto].
      * intros y x [<-|Hy] Hn Hx; [tauto|eauto].
      * intros Hi. apply H6. intros z Hz. apply Hi; cbn; auto.
    + destruct (IH _ _ _ _ W E) as (H1 & H2 & H3 & H4 & H5 & H6). splits.
      * intros x. rewrite H1, In_sadd. cbn. intuition (subst; auto).
      * intros Hn. apply H2, NoDup_sadd, Hn.
      * intros x Hx. destruct (H3 x Hx) as [Hq|(y & Hy & Hn & He)].
        -- apply In_sunion in Hq. destruct Hq as [?|Hq]; [auto|right]. apply In_sdiff in Hq. destruct Hq as [Hq _].
           apply In_from in Hq; [|exact W]. exists p; cbn; auto.
        -- right. exists y. rewrite In_sadd in Hn. cbn; tauto.
      * intros x Hx. apply H4, In_sunion. auto.
      * intros y x [<-|Hy] Hn He.
        -- destruct (In_dec' x (sadd p N)) as [h|h]; [left; apply H1; auto|right; apply H4, In_sunion; right; apply In_sdiff].
           split; [apply In_from; assumption|exact h].
        -- destruct (eq_dec y p) as [->|Hne].
           ++ destruct (In_dec' x (sadd p N)) as [h|h]; [left; apply H1; auto|right; apply H4, In_sunion; right; apply In_sdiff].
              split; [apply In_from; assumption|exact h].
           ++ apply (H5 y); auto. rewrite In_sadd. tauto.
      * intros Hi. exfalso. apply Hp, Hi. cbn; auto. Qed.

Lemma network_size_spec ord g a k : wf g -> (forall i l, Permutation (ord i l) l) -> In a (nodes g) ->
  (match k with Some z => (0 <= z)%Z | None => True end) ->
  exists N, returns (fun n => network_size ord n g a k) (Ok N) /\ NoDup N /\
    forall x, In x N <-> match k with Some z => ball (has_edge g) a (Z.to_nat z) x | None => reach (has_edge g) a x end.
Proof. intros W Hord Ha Hk. set (R := has_edge g). unfold network_size.
  assert (contains g a = true) as -> by (apply contains_In, Ha). cbn [negb].
  pose (P := fun r => exists N, r = Ok N /\ NoDup N /\ forall x, In x N <-> match k with Some z => ball R a (Z.to_nat z) x | None => reach R a x end).
  pose (I := fun s : list A * list A * nat => let '(N, q, d) := s in
    1 <= d /\ NoDup N /\ (forall x, In x N <-> ball R a (d - 1) x) /\ (forall x, In x q -> ball R a d x) /\
    (forall x, ball R a d x -> In x N \/ In x q) /\
    match k with Some z => d - 1 <= Z.to_nat z | None => True end).
  assert (forall d x, ball R a d x -> In x (nodes g)) as Hball.
  { intros d x (m & _ & Hs). apply steps_reach in Hs. apply (reach_closed R a (fun x => In x (nodes g)) x Ha); [|exact Hs].
    intros y z _ Hyz. apply (has_edge_nodes g y z W Hyz). }
  pose (mu := fun s : list A * list A * nat => 2 * unseen (nodes g) (fst (fst s)) + (if is_nil (snd (fst s)) then 0 else 1)).
  destruct (loop_returns_nat (net_step ord g k) I mu P) with (s := ([a], set_of (nodes_from g a), 1)) as (r & Hr & N & -> & HN).
  - intros [[N q] d] (I0 & I1 & I2 & I3 & I4 & I5). unfold net_step. destruct (is_nil q) eqn:Eq.
    + destruct q; [|discriminate]. split; [discriminate|]. exists N. splits; auto.
      assert (forall x y, In x N -> R x y -> In y N) as Hcl.
      { intros x y Hx Hxy. destruct (I4 y) as [?|[]]; [|assumption]. apply I2 in Hx.
        assert (d = S (d - 1)) as -> by lia. apply ball_S. right. eauto. }
      assert (In a N) as HaN by (apply I2; exists 0; split; [lia|constructor]).
      assert (forall x, reach R a x -> In x N) as Hall by (intros x; apply reach_closed_in; assumption).
      intros x. destruct k as [z|].
      * split; [intros Hx; apply I2 in Hx; eapply ball_mono; [|exact Hx]; exact I5|].
        intros (m & _ & Hs). apply Hall. eapply steps_reach; eauto.
      * split; [|auto]. intros Hx. apply I2 in Hx. destruct Hx as (m & _ & Hs). eapply steps_reach; eauto.
    + destruct (match k with Some z => (z <? Z.of_nat d)%Z | None => false end) eqn:Ek.
      * destruct k as [z|]; [|discriminate]. apply Z.ltb_lt in Ek. split; [discriminate|]. exists N. splits; auto.
        intros x. rewrite I2. assert (d - 1 = Z.to_nat z) as -> by lia. reflexivity.
      * destruct (net_scan g (ord d q) N []) as [N' Q'] eqn:E.
        destruct (net_scan_spec g _ _ _ _ _ W E) as (H1 & H2 & H3 & H4 & H5 & H6).
        assert (forall x, In x (ord d q) <-> In x q) as Ho by (intros x; split; apply Permutation_in; [|symmetry]; apply Hord).
        assert (forall x, In x N' <-> ball R a d x) as HN'.
        { intros x. rewrite H1, Ho. split; [intros [Hx|Hx]; [apply I2 in Hx; eapply ball_mono; [|exact Hx]; lia|auto]|auto]. }
        split; [hnf; splits|].
        -- lia.
        -- auto.
        -- intros x. rewrite HN'. assert (S d - 1 = d) as -> by lia. reflexivity.
        -- intros x Hx. destruct (H3 x Hx) as [[]|(y & Hy & _ & He)]. apply ball_S. right. exists y. split; [apply I3, Ho, Hy|exact He].
        -- intros x Hx. apply ball_S in Hx. destruct Hx as [->|(y & Hy & Hyx)].
           ++ left. apply HN'. exists 0. split; [lia|constructor].
           ++ destruct (In_dec' y N) as [Hn|Hn].
              ** left. apply HN'. assert (d = S (d - 1)) as -> by lia. apply ball_S. right. exists y. split; [apply I2, Hn|exact Hyx].
              ** apply (H5 y x); auto. apply Ho. destruct (I4 y Hy); tauto.
        -- destruct k as [z|]; [|exact Logic.I]. apply Z.ltb_ge in Ek. lia.
        -- unfold mu; cbn [fst snd]. rewrite Eq.
           destruct (existsb (fun x => negb (mem x N)) q) eqn:Ex.
           ++ apply existsb_exists in Ex. destruct Ex as (x & Hx & Hnx). apply negb_true_iff, mem_notIn in Hnx.
              assert (unseen (nodes g) N' < unseen (nodes g) N) as Hlt.
              { apply (unseen_lt _ _ _ x); auto; [intros y _ Hy; apply H1; auto|apply (Hball d); auto|apply H1; right; apply Ho, Hx]. }
              destruct (is_nil Q'); lia.
           ++ assert (incl (ord d q) N) as Hi.
              { intros x Hx. apply Ho in Hx. destruct (In_dec' x N) as [h|h]; [exact h|exfalso].
                assert (existsb (fun x => negb (mem x N)) q = true) as C; [|congruence].
                apply existsb_exists. exists x. split; [exact Hx|]. apply negb_true_iff, mem_notIn, h. }
              destruct (H6 Hi) as [-> ->]. cbn. lia.
  - hnf; splits; auto; cbn.
    + constructor; [intros []|constructor].
    + intros x. rewrite ball_0. split; [intros [<-|[]]; reflexivity|auto].
    + intros x Hx. apply In_set_of, In_from in Hx; [|exact W]. apply ball_S. right. exists a. rewrite ball_0. auto.
    + intros x Hx. apply ball_S in Hx. destruct Hx as [->|(y & Hy & Hyx)]; [auto|]. apply ball_0 in Hy. subst y.
      right. apply In_set_of, In_from; assumption.
    + destruct k; [lia|exact Logic.I].
  - exists N. destruct HN. auto. Qed.

(** ** components *)
Definition nbr g := sym (has_edge g).
Lemma comp_loop_spec pick g c0 i : wf g -> In c0 (nodes g) -> (forall i l, l <> [] -> In (pick i l) l) ->
  exists comp i', returns (fun n => loop n (comp_step pick g) ([c0], sunion (set_of (nodes_from g c0)) (nodes_to g c0), i)) (Ok (comp, i')) /\
    NoDup comp /\ forall x, In x comp <-> reach (nbr g) c0 x.
Proof. intros W H0 Hpick. set (R := nbr g).
  assert (forall x y, R x y -> In x (nodes g) -> In y (nodes g)) as HRn.
  { intros x y [h|h] _; apply (has_edge_nodes g _ _ W h). }
  pose (I := fun s : list A * list A * nat => let '(comp, new, _) := s in
     NoDup comp /\ In c0 comp /\ (forall x, In x comp \/ In x new -> reach R c0 x) /\
     (forall x y, In x comp -> R x y -> In y comp \/ In y new)).
  pose (m := fun s : list A * list A * nat => (unseen (nodes g) (fst (fst s)), seen (fst (fst s)) (snd (fst s)))).
  assert (forall x, reach R c0 x -> In x (nodes g)) as Hrn by (intros x; apply reach_closed_in; [exact H0|intros; eauto]).
  destruct (loop_returns (comp_step pick g) I (fun s' s => lt2 (m s') (m s))
    (fun r => exists comp i', r = Ok (comp, i') /\ NoDup comp /\ forall x, In x comp <-> reach R c0 x))
    with (s := ([c0], sunion (set_of (nodes_from g c0)) (nodes_to g c0), i)) as (r & Hr & comp & i' & -> & HN).
  - apply (wf_of lt2 m), lt2_wf.
  - intros [[comp new] j] (I1 & I2 & I3 & I4). unfold comp_step. destruct (is_nil new) eqn:En.
    + destruct new; [|discriminate]. split; [discriminate|]. exists comp, j. splits; auto. intros x. split; [auto|].
      apply reach_closed_in; [exact I2|]. intros y z Hy Hyz. destruct (I4 y z Hy Hyz) as [?|[]]; assumption.
    + assert (new <> []) as Hne by (destruct new; [discriminate|congruence]).
      pose proof (Hpick j new Hne) as Hp. set (p := pick j new) in *.
      assert (reach R c0 p) as Hrp by auto.
      set (rest2 := sunion (sunion (sremove p new) (filter (fun x => negb (mem x (sadd p comp))) (nodes_from g p)))
                      (filter (fun x => negb (mem x (sadd p comp))) (nodes_to g p))).
      assert (forall x, In x rest2 <-> (In x new /\ x <> p) \/ (~ In x (sadd p comp) /\ R p x)) as Hrest.
      { intros x. unfold rest2. rewrite !In_sunion, In_sremove, !filter_In, !negb_true_iff, !mem_notIn, In_from, In_to by exact W.
        unfold R, nbr, sym. tauto. }
      split; [hnf; splits|].
      * apply NoDup_sadd, I1.
      * apply In_sadd; auto.
      * intros x. rewrite In_sadd, Hrest. intros [[->|Hx]|[[Hx _]|[_ Hx]]]; auto. eapply reach_snoc; eauto.
      * intros x y Hx Hxy. rewrite Hrest. destruct (In_dec' y (sadd p comp)) as [h|h]; [auto|]. right.
        apply In_sadd in Hx. destruct (eq_dec x p) as [->|Hn]; [auto|]. destruct Hx as [->|Hx]; [congruence|].
        rewrite In_sadd in h. destruct (I4 x y Hx Hxy) as [?|Hy]; [tauto|]. left. split; [exact Hy|]. intros ->; tauto.
      * unfold m, lt2; cbn [fst snd]. destruct (mem_spec p comp) as [Hc|Hc].
        -- right. assert (sadd p comp = comp) as Es by (apply sadd_in, Hc). rewrite Es. split; [reflexivity|].
           (* the members of comp waiting in new strictly decrease *)
           assert (forall l s : list A, (forall x, In x l -> ~ In x comp) -> filter (fun x => mem x comp) (sunion s l) = filter (fun x => mem x comp) s) as Hf.
           { intros l. induction l as [|x l IH]; intros s Hl; [reflexivity|]. change (sunion s (x :: l)) with (sunion (sadd x s) l). rewrite IH by (intros; apply Hl; cbn; auto).
             unfold sadd. destruct (mem x s); [reflexivity|]. rewrite filter_app. cbn. destruct (mem_spec x comp) as [h|h]; [exfalso; eapply Hl; cbn; eauto|].
             apply app_nil_r. }
           unfold seen. unfold rest2.
           assert (forall l x, In x (filter (fun x => negb (mem x (sadd p comp))) l) -> ~ In x comp) as Hfn.
           { intros l x Hx. apply filter_In in Hx. destruct Hx as [_ Hx]. apply negb_true_iff, mem_notIn in Hx. rewrite Es in Hx. exact Hx. }
           rewrite !Hf by apply Hfn. apply sremove_filter_lt; [exact Hp|apply mem_In, Hc].
        -- left. apply unseen_sadd_lt; auto.
  - hnf; splits; cbn; auto; try tauto.
    + constructor; [intros []|constructor].
    + intros x [[<-|[]]|Hx]; [apply reach_refl|]. apply In_sunion in Hx. rewrite In_set_of, In_from, In_to in Hx by exact W.
      apply reach_step. exact Hx.
    + intros x y [<-|[]] Hxy. right. apply In_sunion. rewrite In_set_of, In_from, In_to by exact W. exact Hxy.
  - exists comp, i'. destruct HN. auto. Qed.

Definition disjoint (c d : list A) : Prop := forall x, In x c -> ~ In x d.
Lemma components_spec pick g : wf g -> (forall i l, l <> [] -> In (pick i l) l) ->
  exists cs, returns (fun n => components pick n g) (Ok cs) /\
    (forall x, In x (nodes g) <-> exists c, In c cs /\ In x c) /\
    ForallOrdPairs disjoint cs /\
    (forall c, In c cs -> c <> [] /\ NoDup c /\ forall x, In x c -> forall y, In y c <-> reach (nbr g) x y).
Proof. intros W Hpick. set (R := nbr g). unfold components.
  assert (forall x y, R x y -> R y x) as Hsym by (intros x y [h|h]; [right|left]; exact h).
  assert (forall x y, reach R x y -> In x (nodes g) -> In y (nodes g)) as HRn.
  { intros x y H Hx. revert H. apply reach_closed_in; [exact Hx|]. intros u w _ [h|h]; apply (has_edge_nodes g _ _ W h). }
  pose (I := fun s : list A * list (list A) * nat => let '(ns, cs, _) := s in
    (forall x, In x (nodes g) <-> In x ns \/ exists c, In c cs /\ In x c) /\
    (forall x, In x ns -> forall c, In c cs -> ~ In x c) /\
    ForallOrdPairs disjoint cs /\
    (forall c, In c cs -> c <> [] /\ NoDup c /\ forall x, In x c -> forall y, In y c <-> reach R x y)).
  destruct (loop_returns2 (fun m => comps_step pick g m) I (fun s' s => length (fst (fst s')) < length (fst (fst s)))
    (fun r => exists cs, r = Ok cs /\ (forall x, In x (nodes g) <-> exists c, In c cs /\ In x c) /\ ForallOrdPairs disjoint cs /\
       (forall c, In c cs -> c <> [] /\ NoDup c /\ forall x, In x c -> forall y, In y c <-> reach R x y)))
    with (s := (set_of (nodes g), @nil (list A), 0)) as (r & Hr & cs & -> & HN).
  - apply (well_founded_ltof _ (fun s : list A * list (list A) * nat => length (fst (fst s)))).
  - intros [[ns cs] j] (I1 & I2 & I3 & I4). unfold comps_step. destruct (is_nil ns) eqn:En.
    + destruct ns; [|discriminate]. eexists. split; [apply settles_const; discriminate|]. cbn. exists cs. splits; auto.
      intros x. rewrite I1. cbn. tauto.
    + assert (ns <> []) as Hne by (destruct ns; [discriminate|congruence]).
      pose proof (Hpick j ns Hne) as Hp. set (p := pick j ns) in *.
      assert (In p (nodes g)) as Hpn by (apply I1; auto).
      destruct (comp_loop_spec pick g p (S j) W Hpn Hpick) as (comp & i' & Hret & Hnd & Hc).
      eexists (inl (sdiff (sremove p ns) comp, cs ++ [comp], i')). split.
      * destruct Hret as (_ & [N HN] & Hall). hnf; splits; [discriminate| |].
        -- exists N. intros n Hn. rewrite HN by exact Hn. reflexivity.
        -- intros n. destruct (Hall n) as [-> | ->]; auto.
      * assert (forall c, In c cs -> disjoint c comp) as Hdis.
        { intros c Hcs x Hx Hxc. apply Hc in Hxc. destruct (I4 c Hcs) as (_ & _ & Hcc). apply (I2 p Hp c Hcs).
          apply (Hcc x Hx). apply reach_sym; assumption. }
        assert (comp <> []) as Hcne by (assert (In p comp) as h by (apply Hc, reach_refl); destruct comp; [destruct h|congruence]).
        cbn [fst snd]. split; [hnf; splits|].
        -- intros x. rewrite In_sdiff, In_sremove. split.
           ++ intros Hx. apply I1 in Hx. destruct Hx as [Hx|(c & Hcs & Hx)]; [|right; exists c; rewrite in_app_iff; auto].
              destruct (In_dec' x comp) as [h|h]; [right; exists comp; rewrite in_app_iff; cbn; auto|left]. splits; auto.
              intros ->. apply h, Hc, reach_refl.
           ++ intros [[[Hx _] _]|(c & Hcs & Hx)]; [apply I1; auto|]. apply in_app_iff in Hcs. destruct Hcs as [Hcs|[<-|[]]].
              ** apply I1. right. eauto.
              ** apply Hc in Hx. apply (HRn p); assumption.
        -- intros x Hx c Hcs. apply In_sdiff in Hx. rewrite In_sremove in Hx. apply in_app_iff in Hcs.
           destruct Hcs as [Hcs|[<-|[]]]; [apply I2; tauto|tauto].
        -- clear - I3 Hdis. induction I3 as [|c cs Hf Hc IH]; cbn; [constructor; constructor|].
           constructor; [|apply IH; intros; apply Hdis; cbn; auto]. apply Forall_app. split; [exact Hf|]. constructor; [|constructor]. apply Hdis. cbn; auto.
        -- intros c Hcs. apply in_app_iff in Hcs. destruct Hcs as [Hcs|[<-|[]]]; [auto|]. splits; auto.
           intros x Hx y. apply Hc in Hx. rewrite Hc. split; intros H.
           ++ eapply reach_trans; [apply reach_sym; [exact Hsym|exact Hx]|exact H].
           ++ eapply reach_trans; eauto.
        -- assert (length (sdiff (sremove p ns) comp) <= length (sremove p ns)) as L1 by (unfold sdiff; apply filter_length_le).
           pose proof (sremove_length_lt p ns Hp). lia.
  - hnf; splits; cbn; try tauto.
    + intros x. rewrite In_set_of. split; [auto|intros [?|(c & [] & _)]; assumption].
    + constructor.
  - exists cs. splits; try apply HN. apply returns2_diag in Hr. exact Hr. Qed.
End F.
