(** Bidirectional Dijkstra with rounded addition: proofs about the generic model of shortest_path_bidirectional. *)
From Coq Require Import Sorted.
From Verif Require Import Prelude PreludeFacts Base BaseFacts BaseFacts2 BaseFacts3 Spec SpecFacts Loop SearchFacts BaseAlgFacts SpFacts GSp GSpec GSpFacts.

Section Laws.
Context {A W : Type} {EA : EqDec A} (ar : arith W) (good : W -> Prop) (L : lawful ar good) (rk : W -> nat) (L2 : lawful2 ar good rk).
Notation "x <== y" := (a_ltb ar y x = false) (at level 70).
Notation "x <<< y" := (a_ltb ar x y = true) (at level 70).
Notation add := (a_add ar).
Notation zero := (a_zero ar).
Implicit Types (E : A -> A -> option W) (p P : list A).
Definition EG (E : A -> A -> option W) : Prop := forall x y w, E x y = Some w -> good w.

Lemma ge_refl x : good x -> x <== x.
Proof. apply w_refl, L. Qed.
Lemma ge_trans x y z : good x -> good y -> good z -> x <== y -> y <== z -> x <== z.
Proof. intros G1 G2 G3 H1 H2. apply (l_trans _ _ L) with y; auto. Qed.
Lemma lt_le x y : good x -> good y -> x <<< y -> x <== y.
Proof. intros. apply (l_asym _ _ L); auto. Qed.
Lemma le_lt x y z : good x -> good y -> good z -> x <== y -> y <<< z -> x <<< z.
Proof. intros G1 G2 G3 H1 H2. destruct (a_ltb ar x z) eqn:E; [reflexivity|]. assert (z <== y) by (apply ge_trans with x; auto). congruence. Qed.
Lemma lt_le_t x y z : good x -> good y -> good z -> x <<< y -> y <== z -> x <<< z.
Proof. intros G1 G2 G3 H1 H2. destruct (a_ltb ar x z) eqn:E; [reflexivity|]. assert (y <== x) by (apply ge_trans with z; auto). congruence. Qed.
Lemma ggood x y : good x -> good y -> good (add x y).
Proof. apply (l_add _ _ L). Qed.
Lemma add_mono x x' y y' : good x -> good x' -> good y -> good y' -> x <== x' -> y <== y' -> add x y <== add x' y'.
Proof. intros G1 G2 G3 G4 H1 H2. apply ge_trans with (add x' y); try (apply ggood; auto); [apply (l_mono _ _ L); auto|].
  rewrite (l_comm _ _ _ L2 x' y), (l_comm _ _ _ L2 x' y') by auto. apply (l_mono _ _ L); auto. Qed.
Lemma le_addl x y : good x -> good y -> x <== add x y.
Proof. apply (l_infl _ _ L). Qed.
Lemma le_addr x y : good x -> good y -> y <== add x y.
Proof. intros G1 G2. rewrite (l_comm _ _ _ L2) by auto. apply (l_infl _ _ L); auto. Qed.

(** *** walks *)
Lemma lp_good E a p b d : EG E -> lpath ar E a p b d -> good d.
Proof. intros G H. induction H; [apply (l_zero _ _ L)|]. apply ggood; [exact IHlpath|eapply G; eauto]. Qed.
Lemma lp_zero E a p b d : EG E -> lpath ar E a p b d -> zero <== d.
Proof. intros G H. induction H as [|p b c w d H IH Hw]; [apply ge_refl, (l_zero _ _ L)|].
  assert (good d) by (eapply lp_good; eauto). assert (good w) by (eapply G; eauto).
  apply ge_trans with d; auto using (l_zero _ _ L), ggood, le_addl. Qed.
Definition prel (E : A -> A -> option W) (x y : A) : Prop := exists w, E x y = Some w.
Lemma lp_path E a p b d : lpath ar E a p b d -> path (prel E) a p b.
Proof. intros H. induction H as [|p b c w d H IH Hw]; [constructor|]. eapply path_snoc; [exact IH|]. exists w. exact Hw. Qed.
Lemma path_lp E a p b : path (prel E) a p b -> exists d, lpath ar E a p b d.
Proof. revert b. induction p as [|c p IH] using rev_ind; intros b H; [inversion H|]. destruct p as [|h p].
  - cbn in H. inversion H as [|? ? ? ? ? H']; [exists zero; subst; constructor|inversion H'].
  - apply path_snoc_inv in H; [|discriminate]. destruct H as (-> & x & Hx & w & Hw). destruct (IH _ Hx) as [d Hd]. exists (add d w). eapply lpath_snoc; eauto. Qed.
Lemma lp_cut E s1 s2 P d l1 y l2 : lpath ar E s1 P s2 d -> P = l1 ++ y :: l2 ->
  exists dl dr, lpath ar E s1 (l1 ++ [y]) y dl /\ lpath ar (gflip E) s2 (rev l2 ++ [y]) y dr.
Proof. intros H ->. apply lp_path in H. apply path_split in H. destruct H as [H1 H2]. apply path_lp in H1. destruct H1 as [dl H1].
  apply path_rev in H2. cbn [rev] in H2. destruct (path_lp (gflip E) s2 (rev l2 ++ [y]) y H2) as [dr Hr]. eauto. Qed.
Lemma cutsum_path E s1 s2 P d : cutsum ar E s1 s2 P d -> exists d', lpath ar E s1 P s2 d'.
Proof. intros (l1 & n & l2 & dl & dr & -> & H1 & H2 & _). apply lp_path in H1, H2. apply path_rev in H2.
  rewrite rev_app_distr, rev_involutive in H2. cbn [rev app] in H2. apply path_lp.
  change (l1 ++ n :: l2) with (l1 ++ [n] ++ l2). rewrite app_assoc. eapply path_app; [exact H1|exact H2]. Qed.
Lemma cutsum_flip E s1 s2 P d : EG E -> cutsum ar E s1 s2 P d -> cutsum ar (gflip E) s2 s1 (rev P) d.
Proof. intros G (l1 & n & l2 & dl & dr & -> & H1 & H2 & ->). exists (rev l2), n, (rev l1), dr, dl. splits.
  - rewrite rev_app_distr. cbn [rev]. rewrite <- app_assoc. reflexivity.
  - exact H2.
  - rewrite rev_involutive. exact H1.
  - apply (l_comm _ _ _ L2); [eapply lp_good; eauto|]. refine (lp_good (gflip E) _ _ _ _ _ H2). intros x y w. apply G. Qed.
Lemma cutsum_good E s1 s2 P d : EG E -> cutsum ar E s1 s2 P d -> good d.
Proof. intros G (l1 & n & l2 & dl & dr & -> & H1 & H2 & ->). apply ggood; [eapply lp_good; eauto|]. refine (lp_good (gflip E) _ _ _ _ _ H2). intros x y w. apply G. Qed.
(** a walk can be made simple without getting longer *)
Lemma lp_simple E a p b d : EG E -> lpath ar E a p b d -> exists p' d', lpath ar E a p' b d' /\ NoDup p' /\ d' <== d /\ incl p' p.
Proof. intros G H. induction H as [|p b c w d H (p' & d' & H1 & H2 & H3 & H4) Hw].
  - exists [a], zero. splits; [constructor|repeat constructor; intros []|apply ge_refl, (l_zero _ _ L)|apply incl_refl].
  - assert (good d) as Gd by (eapply lp_good; eauto). assert (good d') as Gd' by (eapply lp_good; eauto). assert (good w) as Gw by (eapply G; eauto).
    destruct (In_dec' c p') as [Hc|Hc].
    + apply in_split in Hc. destruct Hc as (q1 & q2 & ->).
      assert (forall q b0 d0, lpath ar E a q b0 d0 -> forall q1 q2, q = q1 ++ c :: q2 -> exists d1, lpath ar E a (q1 ++ [c]) c d1 /\ d1 <== d0) as Hpre.
      { clear -L G. intros q b0 d0 Hq. induction Hq as [|q b0 e w d0 Hq IH Hw]; intros q1 q2 Eq.
        - destruct q1 as [|h q1]; [|apply (f_equal (@length A)) in Eq; cbn in Eq; rewrite app_length in Eq; cbn in Eq; lia]. injection Eq as <- <-.
          exists zero. split; [constructor|apply ge_refl, (l_zero _ _ L)].
        - destruct q2 as [|z q2] using rev_ind.
          + apply app_inj_tail in Eq. destruct Eq as [<- <-]. exists (add d0 w). split; [eapply lpath_snoc; eauto|]. apply ge_refl, ggood; [eapply lp_good; eauto|eapply G; eauto].
          + clear IHq2. rewrite app_comm_cons, app_assoc in Eq. apply app_inj_tail in Eq. destruct Eq as [-> _]. destruct (IH q1 q2 eq_refl) as (d1 & Hd1 & Hle).
            exists d1. split; [exact Hd1|]. assert (good d0) by (eapply lp_good; eauto). assert (good w) by (eapply G; eauto). assert (good d1) by (eapply lp_good; eauto).
            apply ge_trans with d0; auto using ggood, le_addl. }
      destruct (Hpre _ _ _ H1 q1 q2 eq_refl) as (d1 & Hd1 & Hle). assert (good d1) as Gd1 by (eapply lp_good; eauto).
      exists (q1 ++ [c]), d1. splits; auto.
      * apply NoDup_app_iff in H2. destruct H2 as (N1 & N2 & N3). apply NoDup_app_iff. splits; [exact N1|repeat constructor; intros []|].
        intros x Hx [<-|[]]. apply (N3 c Hx). cbn; auto.
      * apply ge_trans with d'; auto using ggood. apply ge_trans with d; auto using ggood, le_addl.
      * intros x Hx. apply in_or_app. apply in_app_or in Hx. destruct Hx as [Hx|[<-|[]]]; [left; apply H4, in_or_app; auto|right; cbn; auto].
    + exists (p' ++ [c]), (add d' w). splits.
      * eapply lpath_snoc; eauto.
      * apply NoDup_app_iff. splits; [exact H2|repeat constructor; intros []|]. intros x Hx [<-|[]]. exact (Hc Hx).
      * apply (l_mono _ _ L); auto.
      * intros x Hx. apply in_app_or in Hx. apply in_or_app. destruct Hx as [Hx|Hx]; auto. Qed.
Lemma lpg E a p b d : lpath ar E a p b d -> EG E -> good d.
Proof. intros H G. exact (lp_good E a p b d G H). Qed.
Lemma lpz E a p b d : lpath ar E a p b d -> EG E -> zero <== d.
Proof. intros H G. exact (lp_zero E a p b d G H). Qed.
Lemma ctg E s1 s2 P d : cutsum ar E s1 s2 P d -> EG E -> good d.
Proof. intros H G. exact (cutsum_good E s1 s2 P d G H). Qed.
End Laws.

Section Bi.
Context {A W : Type} {EA : EqDec A} (ar : arith W) (good : W -> Prop) (L : lawful ar good) (rk : W -> nat) (L2 : lawful2 ar good rk).
Notation "x <== y" := (a_ltb ar y x = false) (at level 70).
Notation "x <<< y" := (a_ltb ar x y = true) (at level 70).
Notation add := (a_add ar).
Notation zero := (a_zero ar).
Notation inf := (a_inf ar).
Notation thread := (@gthread A W).
Notation side := (@gside A W).
Notation EGd := (EG good).
Implicit Types (x y z : A) (q : list thread) (X Y : side) (E : A -> A -> option W).
Lemma zero_good : good zero.
Proof. apply (l_zero _ _ L). Qed.
Lemma inf_good : good inf.
Proof. apply (l_inf _ _ _ L2). Qed.
Local Hint Resolve zero_good inf_good : core.

Definition gcle (t u : thread) : Prop := gth_cost t <== gth_cost u.
Definition qgood q : Prop := forall u, In u q -> good (gth_cost u).
Lemma ginsort_perm (t : thread) q : Permutation (ginsort ar t q) (t :: q).
Proof. induction q as [|u q IH]; cbn; [reflexivity|]. destruct (a_ltb ar (gth_cost t) (gth_cost u)); [reflexivity|].
  etransitivity; [apply perm_skip, IH|]. apply perm_swap. Qed.
Lemma ginsort_In (t u : thread) q : In u (ginsort ar t q) <-> u = t \/ In u q.
Proof. split; intros H.
  - apply (Permutation_in u (ginsort_perm t q)) in H. destruct H as [<-|H]; auto.
  - apply (Permutation_in u (Permutation_sym (ginsort_perm t q))). destruct H as [->|H]; cbn; auto. Qed.
Lemma ginsort_sorted (t : thread) q : good (gth_cost t) -> qgood q -> StronglySorted gcle q -> StronglySorted gcle (ginsort ar t q).
Proof. intros Gt. induction q as [|u q IH]; intros G H; cbn; [repeat constructor|]. inv H.
  assert (qgood q) as Gq by (intros v Hv; apply G; cbn; auto). assert (good (gth_cost u)) as Gu by (apply G; cbn; auto).
  destruct (a_ltb ar (gth_cost t) (gth_cost u)) eqn:E.
  - assert (gcle t u) by (apply (lt_le ar good L); auto). constructor; [constructor; assumption|]. constructor; [assumption|].
    rewrite Forall_forall in *. intros v Hv. apply (ge_trans ar good L) with (gth_cost u); auto. apply H3, Hv.
  - constructor; [auto|]. rewrite Forall_forall in *. intros v Hv. apply ginsort_In in Hv. destruct Hv as [->|Hv]; [exact E|auto]. Qed.
Lemma gfilter_sorted (f : thread -> bool) q : StronglySorted gcle q -> StronglySorted gcle (filter f q).
Proof. induction q as [|u q IH]; intros H; cbn; [constructor|]. inv H. destruct (f u); [|auto]. constructor; [auto|].
  rewrite Forall_forall in *. intros v Hv. apply filter_In in Hv. apply H3, Hv. Qed.
Fixpoint gdsum (d : dict A W) : nat := match d with [] => 0 | (_, v) :: t => rk v + gdsum t end.
Lemma gdsum_dset k v v' (d : dict A W) : dget k d = Some v -> gdsum (dset k v' d) + rk v = gdsum d + rk v'.
Proof. induction d as [|[k0 v0] d IH]; cbn; [discriminate|]. destruct (eq_dec k k0) as [->|Hn].
  - intros E. inv E. cbn. lia.
  - intros E. specialize (IH E). cbn. lia. Qed.
Definition Mgood (M : dict A W) : Prop := forall n m, dget n M = Some m -> good m.

(** the relaxation loop *)
Lemma gbi_relax_spec (st : thread) len om es : good (gth_cost st) -> good len -> (forall d n, In (d, n) es -> good d) -> Mgood om ->
  forall q (M : dict A W) (P : dict A (list A)) q' M' P',
  fold_left (gbi_relax ar st len om) es (q, M, P) = (q', M', P') ->
  StronglySorted gcle q -> qgood q -> Mgood M ->
  StronglySorted gcle q' /\ (forall u, In u q -> In u q') /\
  (forall c n p, In (c, n, p) q' -> In (c, n, p) q \/
     (p = gth_node st :: gth_path st /\ exists d, In (d, n) es /\ c = add (gth_cost st) d /\ exists m, dget n M' = Some m /\ m <== c)) /\
  (forall n, (dget n M' = dget n M /\ dget n P' = dget n P) \/
     exists d, In (d, n) es /\ dget n M' = Some (add (gth_cost st) d) /\ dget n P' = Some (gth_node st :: gth_path st) /\
       In (add (gth_cost st) d, n, gth_node st :: gth_path st) q' /\ match dget n M with None => True | Some m => add (gth_cost st) d <<< m end) /\
  (len = inf -> forall d n, In (d, n) es -> exists m, dget n M' = Some m /\ m <== add (gth_cost st) d) /\
  (forall N, (forall d n, In (d, n) es -> In n N) ->
     (q' = q /\ M' = M) \/ lt2 (unseen N (dkeys M'), gdsum M') (unseen N (dkeys M), gdsum M)).
Proof. intros Gst Glen Ges Gom. induction es as [|[d n2] es IH]; intros q M P q' M' P' Hf Hs Gq GM; cbn [fold_left] in Hf.
  { inv Hf. splits; auto; try (intros ? ? ? []); try (intros _ ? ? []). }
  assert (good d) as Gd by (apply (Ges d n2); cbn; auto).
  assert (good (add (gth_cost st) d)) as Gn by (apply (ggood ar good L); auto).
  assert (forall d n, In (d, n) es -> good d) as Ges' by (intros d0 n0 H0; apply (Ges d0 n0); cbn; auto). specialize (IH Ges').
  assert (Hskip : fold_left (gbi_relax ar st len om) es (q, M, P) = (q', M', P') ->
    (len = inf -> exists m, dget n2 M = Some m /\ m <== add (gth_cost st) d) ->
    StronglySorted gcle q' /\ (forall u, In u q -> In u q') /\
    (forall c n p, In (c, n, p) q' -> In (c, n, p) q \/
       (p = gth_node st :: gth_path st /\ exists d0, In (d0, n) ((d, n2) :: es) /\ c = add (gth_cost st) d0 /\ exists m, dget n M' = Some m /\ m <== c)) /\
    (forall n, (dget n M' = dget n M /\ dget n P' = dget n P) \/
       exists d0, In (d0, n) ((d, n2) :: es) /\ dget n M' = Some (add (gth_cost st) d0) /\ dget n P' = Some (gth_node st :: gth_path st) /\
         In (add (gth_cost st) d0, n, gth_node st :: gth_path st) q' /\ match dget n M with None => True | Some m => add (gth_cost st) d0 <<< m end) /\
    (len = inf -> forall d0 n, In (d0, n) ((d, n2) :: es) -> exists m, dget n M' = Some m /\ m <== add (gth_cost st) d0) /\
    (forall N, (forall d0 n, In (d0, n) ((d, n2) :: es) -> In n N) ->
       (q' = q /\ M' = M) \/ lt2 (unseen N (dkeys M'), gdsum M') (unseen N (dkeys M), gdsum M))).
  { intros Hf' Hi. destruct (IH _ _ _ _ _ _ Hf' Hs Gq GM) as (H1 & H2 & H3 & H4 & H5 & H6). splits; auto.
    - intros c n p Hin. destruct (H3 _ _ _ Hin) as [?|(-> & d0 & ? & ? & ?)]; [auto|]. right. split; [reflexivity|]. exists d0. cbn; auto.
    - intros n. destruct (H4 n) as [?|(d0 & ? & ?)]; [auto|]. right. exists d0. cbn; tauto.
    - intros El d0 n [Eq|Hin]; [inv Eq|auto]. destruct (Hi eq_refl) as (m & Hm & Hle). destruct (H4 n) as [[-> _]|(d1 & Hd1 & -> & _ & _ & Hlt)]; [eauto|].
      rewrite Hm in Hlt. eexists. split; [reflexivity|]. assert (good (add (gth_cost st) d1)) by (apply (ggood ar good L); eauto).
      apply (ge_trans ar good L) with m; eauto. apply (lt_le ar good L); eauto.
    - intros N HN. apply H6. intros d0 n0 ?. apply (HN d0 n0); cbn; auto. }
  unfold gbi_relax in Hf at 2.
  destruct (a_ltb ar len (add (gth_cost st) d)) eqn:E1.
  { apply (Hskip Hf). intros ->. rewrite (l_top _ _ _ L2) in E1 by auto. discriminate. }
  destruct (match dget n2 om with Some m => a_ltb ar len (add (add (gth_cost st) d) m) | None => false end) eqn:E2.
  { apply (Hskip Hf). intros ->. destruct (dget n2 om) as [mo|] eqn:Emo; [|discriminate]. rewrite (l_top _ _ _ L2) in E2; [discriminate|]. apply (ggood ar good L); eauto. }
  destruct (match dget n2 M with None => true | Some prev => a_ltb ar (add (gth_cost st) d) prev end) eqn:E3.
  2:{ apply (Hskip Hf). intros ->. destruct (dget n2 M) as [prev|]; [|discriminate]. eauto. }
  clear Hskip. destruct (IH _ _ _ _ _ _ Hf) as (H1 & H2 & H3 & H4 & H5 & H6).
  { apply ginsort_sorted; auto. }
  { intros u Hu. apply ginsort_In in Hu. destruct Hu as [->|Hu]; [exact Gn|auto]. }
  { intros n m. rewrite dget_dset. destruct (eq_dec n n2); [intros E; inv E; exact Gn|apply GM]. }
  assert (exists m, dget n2 M' = Some m /\ m <== add (gth_cost st) d) as Hm2.
  { destruct (H4 n2) as [[-> _]|(d1 & Hd1 & -> & _ & _ & Hlt)]; rewrite dget_dset in *; destruct (eq_dec n2 n2); try congruence; eexists; (split; [reflexivity|]).
    - apply (ge_refl ar good L), Gn.
    - apply (lt_le ar good L); auto. apply (ggood ar good L); eauto. }
  splits; auto.
  - intros u Hu. apply H2, ginsort_In. auto.
  - intros c n p Hin. destruct (H3 _ _ _ Hin) as [Hi|(-> & d0 & ? & ? & ?)].
    + apply ginsort_In in Hi. destruct Hi as [Eq|Hi]; [|auto]. inv Eq. right. split; [reflexivity|]. exists d. splits; cbn; auto.
    + right. split; [reflexivity|]. exists d0. cbn; auto.
  - intros n. destruct (H4 n) as [[Ha Hb]|(d0 & Hi & Ha & Hb & Hc & Hd)]; rewrite !dget_dset in *; destruct (eq_dec n n2) as [->|Hn].
    + right. exists d. splits; cbn; auto; [apply H2, ginsort_In; auto|]. destruct (dget n2 M); [exact E3|exact Logic.I].
    + auto.
    + right. exists d0. splits; cbn; auto. destruct (dget n2 M) as [prev|] eqn:Ep; [|exact Logic.I].
      apply (lt_le_t ar good L) with (add (gth_cost st) d); eauto; [apply (ggood ar good L); eauto|]. apply (lt_le ar good L); eauto.
    + right. exists d0. splits; cbn; auto.
  - intros El d0 n [Eq|Hin]; [inv Eq; exact Hm2|auto].
  - intros N HN. right.
    assert (lt2 (unseen N (dkeys (dset n2 (add (gth_cost st) d) M)), gdsum (dset n2 (add (gth_cost st) d) M)) (unseen N (dkeys M), gdsum M)) as Hlt.
    { pose proof (HN d n2 (or_introl eq_refl)) as HinN. destruct (dget n2 M) as [prev|] eqn:Ep.
      - right. cbn. rewrite dkeys_dset_in by (eapply dget_Some_key; eauto). split; [reflexivity|]. pose proof (gdsum_dset n2 prev (add (gth_cost st) d) M Ep).
        pose proof (l_rank _ _ _ L2 _ _ Gn (GM _ _ Ep) E3). lia.
      - left. cbn. rewrite dkeys_dset_sadd. apply unseen_sadd_lt; [exact HinN|]. apply dget_None, Ep. }
    destruct (H6 N) as [[-> ->]|Hl]; [intros d0 n0 ?; apply (HN d0 n0); cbn; auto|exact Hlt|].
    unfold lt2 in *. cbn [fst snd] in *. lia. Qed.

Record gsound (E : A -> A -> option W) (s : A) (X : side) : Prop := {
  so_sort : StronglySorted gcle (gb_q X);
  so_ent : forall c n p, In (c, n, p) (gb_q X) -> lpath ar E s (rev p ++ [n]) n c /\ exists m, dget n (gb_mins X) = Some m /\ m <== c;
  so_min : forall n m, dget n (gb_mins X) = Some m -> exists p, dget n (gb_paths X) = Some p /\ lpath ar E s (rev p ++ [n]) n m;
  so_bnd : forall n, In n (gb_boundary X) -> exists m, dget n (gb_mins X) = Some m }.
Record gexact_side (E : A -> A -> option W) (s : A) (X : side) : Prop := {
  ex_low : forall n m, In n (gb_boundary X) -> dget n (gb_mins X) = Some m -> forall p d, lpath ar E s p n d -> m <== d;
  ex_fr : forall n m y w, In n (gb_boundary X) -> dget n (gb_mins X) = Some m -> E n y = Some w -> exists m', dget y (gb_mins X) = Some m' /\ m' <== add m w;
  ex_pend : forall y m, dget y (gb_mins X) = Some m -> ~ In y (gb_boundary X) -> exists p, In (m, y, p) (gb_q X);
  ex_mono : forall n m u, In n (gb_boundary X) -> dget n (gb_mins X) = Some m -> In u (gb_q X) -> m <== gth_cost u;
  ex_st : dget s (gb_mins X) = Some zero;
  ex_first : (gb_boundary X = [] /\ gb_q X = [(zero, s, [])]) \/ In s (gb_boundary X) }.
Definition gpending X Y (d : W) : Prop :=
  exists c n p m, In (c, n, p) (gb_q X) /\ In n (gb_boundary Y) /\ dget n (gb_mins Y) = Some m /\ add c m <== d.
Definition gspok (E : A -> A -> option W) (s1 s2 : A) (fwd : bool) (sp : list A) (l : W) : Prop :=
  if fwd then cutsum ar E s1 s2 sp l else cutsum ar (gflip E) s2 s1 sp l.
(** before the first meeting (the best length is float("inf")) and after it *)
Definition phase1 (E : A -> A -> option W) (s1 s2 : A) X Y : Prop :=
  gb_len X = inf /\ gexact_side E s1 X /\ gexact_side (gflip E) s2 Y /\
  (forall n m m', In n (gb_boundary X) -> In n (gb_boundary Y) -> dget n (gb_mins X) = Some m -> dget n (gb_mins Y) = Some m' -> inf <== add m m') /\ gb_sp X = [].
Definition phase2 (E : A -> A -> option W) (s1 s2 : A) (fwd : bool) X Y : Prop :=
  gb_len X <<< inf /\ good (gb_len X) /\ gspok E s1 s2 fwd (gb_sp X) (gb_len X) /\
  forall P d, lpath ar E s1 P s2 d -> exists k, cutsum ar E s1 s2 P k /\ (gb_len X <== k \/ gpending X Y k \/ gpending Y X k).
Record GJ (E : A -> A -> option W) (s1 s2 : A) (fwd : bool) (X Y : side) : Prop := {
  j_self : gsound E s1 X;
  j_other : gsound (gflip E) s2 Y;
  j_len : gb_len Y = gb_len X;
  j_sp : gb_sp Y = gb_sp X;
  j_ph : phase1 E s1 s2 X Y \/ phase2 E s1 s2 fwd X Y }.
Lemma EG_flip E : EGd E -> EGd (gflip E).
Proof. intros H x y w. apply H. Qed.
Lemma GJ_flip E s1 s2 fwd X Y : EGd E -> GJ E s1 s2 fwd X Y -> GJ (gflip E) s2 s1 (negb fwd) Y X.
Proof. intros G [H1 H2 H3 H4 H5]. constructor; auto. destruct H5 as [(A1 & A2 & A3 & A4 & A5)|(A1 & A2 & A3 & A4)]; [left|right]; unfold phase1, phase2; rewrite H3, H4.
  - splits; auto. intros n m m' Hx Hy Hm Hm'. assert (forall k v, dget k (gb_mins X) = Some v -> good v) as GX.
    { intros k v Hv. destruct (so_min _ _ _ H1 _ _ Hv) as (p & _ & Hp). eapply (lp_good ar good L); eauto. }
    assert (forall k v, dget k (gb_mins Y) = Some v -> good v) as GY.
    { intros k v Hv. destruct (so_min _ _ _ H2 _ _ Hv) as (p & _ & Hp). eapply (lp_good ar good L); [|eauto]. apply EG_flip, G. }
    rewrite (l_comm _ _ _ L2) by eauto. eapply A4; eauto.
  - splits; auto.
    + destruct fwd; exact A3.
    + intros P d Hp. assert (exists d', lpath ar E s1 (rev P) s2 d') as [d' Hd'].
      { apply lp_path in Hp. apply path_rev in Hp. exact (path_lp ar E s1 (rev P) s2 Hp). }
      destruct (A4 _ _ Hd') as (k & Hk & Hc). exists k. split; [|tauto]. rewrite <- (rev_involutive P). apply (cutsum_flip ar good L rk L2); assumption. Qed.

Definition gsmeas (N : list A) (X : side) : nat * (nat * nat) := (unseen N (dkeys (gb_mins X)), (gdsum (gb_mins X), length (gb_q X))).

Lemma mins_good E s X : EGd E -> gsound E s X -> Mgood (gb_mins X).
Proof. intros G H k v Hv. destruct (so_min _ _ _ H _ _ Hv) as (p & _ & Hp). eapply (lp_good ar good L); eauto. Qed.
Lemma q_good E s X : EGd E -> gsound E s X -> qgood (gb_q X).
Proof. intros G H [[c n] p] Hu. destruct (so_ent _ _ _ H c n p Hu) as [Hp _]. eapply (lp_good ar good L); eauto. Qed.

(** the frontier argument for one exact side *)
Lemma gexact_frontier E s X : EGd E -> gsound E s X -> gexact_side E s X -> forall p z d, lpath ar E s p z d -> ~ In z (gb_boundary X) ->
  exists y m pp, In (m, y, pp) (gb_q X) /\ m <== d.
Proof. intros G HS D p z d Hp. induction Hp as [|p b c w d Hp IH Hw]; intros Hz.
  - destruct (ex_pend _ _ _ D s zero (ex_st _ _ _ D) Hz) as (pp & Hin). exists s, zero, pp. split; [exact Hin|]. apply (ge_refl ar good L); auto.
  - assert (good d) as Gd by (eapply (lp_good ar good L); eauto). assert (good w) as Gw by (eapply G; eauto).
    destruct (In_dec' b (gb_boundary X)) as [Hb|Hb].
    + destruct (so_bnd _ _ _ HS b Hb) as (m & Hm). pose proof (ex_low _ _ _ D b m Hb Hm _ _ Hp) as Hle.
      destruct (ex_fr _ _ _ D b m c w Hb Hm Hw) as (m' & Hm' & Hle'). destruct (ex_pend _ _ _ D c m' Hm' Hz) as (pp & Hin).
      pose proof (mins_good _ _ _ G HS _ _ Hm) as Gm. pose proof (mins_good _ _ _ G HS _ _ Hm') as Gm'.
      exists c, m', pp. split; [exact Hin|]. apply (ge_trans ar good L) with (add m w); auto using (ggood ar good L). apply (l_mono _ _ L); auto.
    + destruct (IH Hb) as (y & m & pp & Hin & Hle). pose proof (q_good _ _ _ G HS _ Hin) as Gm. cbn in Gm. exists y, m, pp. split; [exact Hin|].
      apply (ge_trans ar good L) with d; auto using (ggood ar good L), (le_addl ar good L). Qed.

Section Search.
Variables (O : Type) (g : graph A O W) (S : list A) (srt : list (W * A) -> list (W * A)) (fwd : bool).
Variables (E : A -> A -> option W) (s1 s2 : A) (okn : A -> Prop).
Hypothesis HG : EGd E.
Hypothesis Hok : forall x y w, E x y = Some w -> okn y.
Hypothesis Hok1 : okn s1.
Definition ges_of (n : A) : list (W * A) :=
  srt (if fwd then map (fun e => (snd e, snd (fst e))) (filter (fun e => negb (mem (snd (fst e)) S)) (edges_from g n))
       else map (fun e => (snd e, fst (fst e))) (filter (fun e => negb (mem (fst (fst e)) S)) (edges_to g n))).
Hypothesis Hes : forall n, okn n -> forall d y, In (d, y) (ges_of n) <-> E n y = Some d.
Variable N : list A.
Hypothesis HN : forall n, okn n -> In n N.

Lemma gok_end p n d : lpath ar E s1 p n d -> okn n.
Proof. intros H. destruct H; [exact Hok1|eapply Hok; eauto]. Qed.

Lemma gsearch_spec X Y : GJ E s1 s2 fwd X Y ->
  exists X' Y', gbi_search ar srt g S fwd X Y = Ok (X', Y') /\ GJ E s1 s2 fwd X' Y' /\
    gb_q Y' = gb_q Y /\ gb_mins Y' = gb_mins Y /\
    (gb_q X = [] -> X' = X) /\ (gb_q X <> [] -> lt3 (gsmeas N X') (gsmeas N X)).
Proof. intros HJ. unfold gbi_search. destruct (gb_q X) as [|st q] eqn:Eq.
  { exists X, Y. splits; auto. congruence. }
  assert (exists c n p, st = (c, n, p)) as (c & n & p & ->) by (destruct st as [[c n] p]; eauto).
  cbn [gth_cost gth_node gth_path fst snd].
  pose proof (EG_flip E HG) as HG'.
  pose proof (mins_good _ _ _ HG (j_self _ _ _ _ _ _ HJ)) as GMX. pose proof (mins_good _ _ _ HG' (j_other _ _ _ _ _ _ HJ)) as GMY.
  pose proof (q_good _ _ _ HG (j_self _ _ _ _ _ _ HJ)) as GQX.
  pose proof (so_sort _ _ _ (j_self _ _ _ _ _ _ HJ)) as Hsrt. rewrite Eq in Hsrt. inversion Hsrt as [|? ? Hsrt' Hall]; subst. rewrite Forall_forall in Hall.
  destruct (so_ent _ _ _ (j_self _ _ _ _ _ _ HJ) c n p) as [Hw (m & Hm & Hmc)]; [rewrite Eq; cbn; auto|].
  pose proof (gok_end _ _ _ Hw) as Hokn.
  assert (good c) as Gc by (eapply (lpg ar good L); eauto).
  assert (good m) as Gm by eauto.
  assert (good (gb_len X)) as GL by (destruct (j_ph _ _ _ _ _ _ HJ) as [(-> & _)|(_ & Gl & _)]; auto).
  assert (forall c' n' p', In (c', n', p') q -> c <== c') as Hqc by (intros c' n' p' H; apply (Hall _ H)).
  assert (forall c' n' p', In (c', n', p') q -> good c') as Gq by (intros c' n' p' H; apply (GQX (c', n', p')); rewrite Eq; cbn; auto).
  destruct (a_ltb ar (gb_len X) c) eqn:Ecut.
  { (* the popped entry is beyond the best known length *)
    eexists _, Y. split; [reflexivity|]. destruct HJ as [H1 H2 H3 H4 H5].
    destruct H5 as [(Hl & _)|(Hl & _ & Hsp & Hcov)]; [rewrite Hl, (l_top _ _ _ L2) in Ecut by auto; discriminate|]. split.
    - constructor; cbn; auto.
      + destruct H1 as [S1 S2 S3 S4]. constructor; cbn; auto. intros c' n' p' Hin. apply S2. rewrite Eq. cbn; auto.
      + right. unfold phase2. cbn [gb_len gb_sp]. splits; auto. intros P d HP. destruct (Hcov P d HP) as (k & Hk & Hc). exists k. split; [exact Hk|].
        assert (good k) as Gk by (eapply (ctg ar good L); eauto).
        destruct Hc as [?|[(c' & n' & pp & m' & Hin & Hb & Hm' & Hle)|(c' & n' & pp & m' & Hin & Hb & Hm' & Hle)]]; auto.
        * rewrite Eq in Hin. destruct Hin as [Ein|Hin].
          -- inv Ein. left. assert (good m') by eauto. apply (ge_trans ar good L) with c'; auto; [apply (lt_le ar good L); auto|].
             apply (ge_trans ar good L) with (add c' m'); auto using (ggood ar good L), (le_addl ar good L).
          -- right; left. exists c', n', pp, m'. cbn; auto.
        * right; right. exists c', n', pp, m'. cbn; auto.
    - cbn. splits; auto; [congruence|]. intros _. unfold gsmeas. cbn. rewrite Eq. right. split; [reflexivity|]. right. split; [reflexivity|]. cbn. lia. }
  (* the meeting test *)
  match goal with |- exists X' Y', bind ?m _ = _ /\ _ =>
    assert (exists sp len q0, m = Ok (sp, len, q0) /\ a_ltb ar (gb_len X) len = false /\ good len /\
      ((sp = gb_sp X /\ len = gb_len X /\ q0 = q /\ (In n (gb_boundary Y) -> exists mo, dget n (gb_mins Y) = Some mo /\ a_ltb ar (add c mo) (gb_len X) = false)) \/
       (exists mo, In n (gb_boundary Y) /\ dget n (gb_mins Y) = Some mo /\ len = add c mo /\ a_ltb ar (add c mo) (gb_len X) = true /\
          q0 = filter (fun a => a_ltb ar (gth_cost a) (add c mo)) q /\ gspok E s1 s2 fwd sp (add c mo)))) as (sp & len & q0 & Em & Hll & Glen & Hmeet) end.
  { destruct (mem_spec n (gb_boundary Y)) as [HnY|HnY].
    - destruct (so_bnd _ _ _ (j_other _ _ _ _ _ _ HJ) n HnY) as (mo & Hmo). rewrite Hmo.
      destruct (so_min _ _ _ (j_other _ _ _ _ _ _ HJ) _ _ Hmo) as (op & Hop & Hwo). rewrite Hop. assert (good mo) as Gmo by eauto.
      assert (good (add c mo)) as Gs by (apply (ggood ar good L); auto).
      destruct (a_ltb ar (add c mo) (gb_len X)) eqn:Elt.
      + eexists _, _, _. split; [reflexivity|]. split; [apply (lt_le ar good L); auto|]. split; [exact Gs|].
        right. exists mo. splits; auto. unfold gspok. destruct fwd.
        * exists (rev p), n, op, c, mo. splits; auto.
        * exists (rev op), n, p, mo, c. splits; auto. apply (l_comm _ _ _ L2); auto.
      + eexists _, _, _. split; [reflexivity|]. split; [apply (ge_refl ar good L); auto|]. split; [exact GL|]. left. splits; auto. intros _. eauto.
    - eexists _, _, _. split; [reflexivity|]. split; [apply (ge_refl ar good L); auto|]. split; [exact GL|]. left. splits; auto. tauto. }
  rewrite Em. cbn [bind]. clear Em. fold (ges_of n).
  destruct (fold_left (gbi_relax ar (c, n, p) (gb_len X) (gb_mins Y)) (ges_of n) (q0, gb_mins X, gb_paths X)) as [[q1 M'] P'] eqn:Ef.
  assert (forall u, In u q0 -> In u q) as Hq0.
  { destruct Hmeet as [(_ & _ & -> & _)|(mo & _ & _ & _ & _ & -> & _)]; [auto|]. intros u Hu. apply filter_In in Hu. tauto. }
  assert (length q0 <= length q) as Hq0l.
  { destruct Hmeet as [(_ & _ & -> & _)|(mo & _ & _ & _ & _ & -> & _)]; [auto|]. apply filter_length_le. }
  assert (forall d y, In (d, y) (ges_of n) -> good d) as Ges. { intros d y Hd. apply Hes in Hd; [|exact Hokn]. eapply HG; eauto. }
  destruct (gbi_relax_spec (c, n, p) (gb_len X) (gb_mins Y) (ges_of n) Gc GL Ges GMY _ _ _ _ _ _ Ef) as (R1 & R2 & R3 & R4 & R5 & R6); [| |exact GMX|].
  { destruct Hmeet as [(_ & _ & -> & _)|(mo & _ & _ & _ & _ & -> & _)]; [auto|]. apply gfilter_sorted, Hsrt'. }
  { intros u Hu. apply GQX. rewrite Eq. cbn. auto. }
  cbn [gth_cost gth_node gth_path fst snd] in *.
  unfold gside_update. cbn [gb_len]. rewrite Hll. cbn [bind]. rewrite (j_len _ _ _ _ _ _ HJ), Hll. cbn [bind gb_q gb_boundary gb_mins gb_paths].
  eexists _, _. split; [reflexivity|].
  assert (Gd' : forall d y, In (d, y) (ges_of n) -> good (add c d)) by (intros d y Hd; apply (ggood ar good L); eauto).
  assert (Hmono : forall k v, dget k (gb_mins X) = Some v -> exists v', dget k M' = Some v' /\ v' <== v).
  { intros k v Hk. destruct (R4 k) as [[-> _]|(d & Hd & -> & _ & _ & Hlt)]; [exists v; split; [exact Hk|apply (ge_refl ar good L); eauto]|].
    rewrite Hk in Hlt. eexists; split; [reflexivity|]. apply (lt_le ar good L); eauto. }
  assert (Hmeas : forall sp' len', lt3 (gsmeas N (mkGSide q1 (sadd n (gb_boundary X)) M' P' sp' len')) (gsmeas N X)).
  { intros sp' len'. unfold gsmeas. cbn [gb_q gb_mins]. rewrite Eq. destruct (R6 N) as [[-> ->]|Hl].
    - intros d y Hd. apply Hes in Hd; [|exact Hokn]. apply HN; eapply Hok; eauto.
    - right. split; [reflexivity|]. right. split; [reflexivity|]. cbn. lia.
    - unfold lt3, lt2 in *. cbn [fst snd] in *. lia. }
  assert (Hsound : forall sp' len', gsound E s1 (mkGSide q1 (sadd n (gb_boundary X)) M' P' sp' len')).
  { intros sp' len'. destruct (j_self _ _ _ _ _ _ HJ) as [S1 S2 S3 S4].
    assert (forall y d, In (d, y) (ges_of n) -> lpath ar E s1 (rev (n :: p) ++ [y]) y (add c d)) as Hnew.
    { intros y d Hd. apply Hes in Hd; [|exact Hokn]. cbn [rev]. eapply lpath_snoc; eauto. }
    constructor; cbn [gb_q gb_boundary gb_mins gb_paths].
    - exact R1.
    - intros c' n' p' Hin. destruct (R3 _ _ _ Hin) as [Hi|(-> & d & Hd & -> & Hm')].
      + apply Hq0 in Hi. destruct (S2 c' n' p') as [Hw' (m' & Hm' & Hle)]; [rewrite Eq; cbn; auto|]. split; [exact Hw'|].
        destruct (Hmono _ _ Hm') as (v & Hv & Hle'). exists v. split; [exact Hv|].
        assert (good v). { destruct (R4 n') as [[Ea _]|(d & Hd & Ea & _)]; rewrite Ea in Hv; [eauto|inv Hv; eauto]. }
        apply (ge_trans ar good L) with m'; eauto.
      + split; [apply Hnew, Hd|exact Hm'].
    - intros k v Hk. destruct (R4 k) as [[Ea Eb]|(d & Hd & Ea & Eb & _)].
      + rewrite Ea in Hk. rewrite Eb. apply S3, Hk.
      + rewrite Ea in Hk. inv Hk. exists (n :: p). split; [exact Eb|]. apply Hnew, Hd.
    - intros k Hk. apply In_sadd in Hk. destruct Hk as [->|Hk].
      + destruct (Hmono _ _ Hm) as (v & Hv & _). eauto.
      + destruct (S4 k Hk) as (v & Hv). destruct (Hmono _ _ Hv) as (v' & Hv' & _). eauto. }
  assert (GM' : Mgood M') by apply (mins_good _ _ _ HG (Hsound [] inf)).
  split; [|cbn [gb_q gb_mins]; splits; auto; congruence].
  destruct (j_other _ _ _ _ _ _ HJ) as [T1 T2 T3 T4].
  constructor; cbn [gb_len gb_sp gb_q gb_boundary gb_mins gb_paths].
  { apply Hsound. } { constructor; auto. } { reflexivity. } { reflexivity. }
  destruct (j_ph _ _ _ _ _ _ HJ) as [Hph|Hph].
  2:{ (* a solution was already known *)
    right. destruct Hph as (Hlt0 & _ & Hsp & Hcov). unfold phase2. cbn [gb_len gb_sp].
    assert (len <== gb_len X /\ gspok E s1 s2 fwd sp len /\ (forall mo k, good k -> In n (gb_boundary Y) -> dget n (gb_mins Y) = Some mo -> add c mo <== k -> len <== k) /\
            (forall c' n' p', In (c', n', p') q -> In (c', n', p') q1 \/ len <== c')) as (HLL & Hsp' & Hpop & Hkeep).
    { destruct Hmeet as [(-> & -> & -> & Hm')|(mo & HnY & Hmo & -> & Hlt & -> & Hspk)].
      - splits; auto. intros mo k Gk HnY Hmo Hle. destruct (Hm' HnY) as (mo' & Hmo' & Hf). rewrite Hmo in Hmo'. inv Hmo'.
        apply (ge_trans ar good L) with (add c mo'); auto. apply (ggood ar good L); eauto.
      - splits; auto.
        + intros mo' k Gk _ Hmo' Hle. rewrite Hmo in Hmo'. inv Hmo'. exact Hle.
        + intros c' n' p' Hin. destruct (a_ltb ar c' (add c mo)) eqn:Hc'; [|auto]. left. apply R2, filter_In. split; [exact Hin|]. exact Hc'. }
    splits; auto.
    { apply (le_lt ar good L) with (gb_len X); auto. }
    intros P d HP. destruct (Hcov P d HP) as (k & Hk & Hc). exists k. split; [exact Hk|].
    assert (good k) as Gk by (eapply (ctg ar good L); eauto).
    destruct Hc as [?|[(c' & n' & pp & m' & Hin & Hb & Hm' & Hle)|(c' & n' & pp & m' & Hin & Hb & Hm' & Hle)]].
    + left. apply (ge_trans ar good L) with (gb_len X); auto.
    + rewrite Eq in Hin. destruct Hin as [Ein|Hin].
      * inv Ein. left. eapply Hpop; eauto.
      * assert (good c') by eauto. assert (good m') by eauto.
        destruct (Hkeep _ _ _ Hin) as [Hk'|Hk']; [right; left; exists c', n', pp, m'; cbn; auto|]. left.
        apply (ge_trans ar good L) with c'; auto. apply (ge_trans ar good L) with (add c' m'); auto using (ggood ar good L), (le_addl ar good L).
    + right; right. destruct (Hmono _ _ Hm') as (v & Hv & Hle'). exists c', n', pp, v. cbn [gb_q gb_boundary gb_mins]. splits; auto; [apply In_sadd; auto|].
      assert (good c') as Gc'. { destruct (T2 _ _ _ Hin) as [Hw' _]. eapply (lpg ar good L); eauto. }
      assert (good m') by eauto. assert (good v) by eauto.
      apply (ge_trans ar good L) with (add c' m'); auto using (ggood ar good L). apply (add_mono ar good L rk L2); auto. apply (ge_refl ar good L); auto. }
  (* no meeting so far *)
  destruct Hph as (El & HX & HY & Hdis & Hsp0). rewrite El in *.
  assert (Hcmin : forall z p' d, ~ In z (gb_boundary X) -> lpath ar E s1 p' z d -> c <== d).
  { intros z p' d Hz Hp'. assert (good d) by (eapply (lpg ar good L); eauto).
    destruct (gexact_frontier E s1 X HG (j_self _ _ _ _ _ _ HJ) HX p' z d Hp' Hz) as (y & my & pp & Hin & Hle).
    rewrite Eq in Hin. destruct Hin as [Ein|Hin]; [inv Ein; exact Hle|]. pose proof (Hqc _ _ _ Hin). apply (ge_trans ar good L) with my; eauto. }
  assert (Hvc : forall k v, In k (sadd n (gb_boundary X)) -> dget k M' = Some v -> v <== c).
  { intros k v Hk Hv. assert (good v) by eauto. apply In_sadd in Hk. destruct Hk as [->|Hk].
    - destruct (Hmono _ _ Hm) as (v' & Hv' & Hle). rewrite Hv in Hv'. inv Hv'. apply (ge_trans ar good L) with m; auto.
    - destruct (so_bnd _ _ _ (j_self _ _ _ _ _ _ HJ) k Hk) as (v0 & Hv0). destruct (Hmono _ _ Hv0) as (v' & Hv' & Hle). rewrite Hv in Hv'. inv Hv'.
      pose proof (ex_mono _ _ _ HX k v0 (c, n, p) Hk Hv0) as H'. rewrite Eq in H'. specialize (H' (or_introl eq_refl)). cbn in H'. apply (ge_trans ar good L) with v0; eauto. }
  assert (Hreal : forall k v, dget k M' = Some v -> exists pk, lpath ar E s1 pk k v).
  { intros k v Hv. destruct (so_min _ _ _ (Hsound [] inf) k v Hv) as (pk & _ & Hwk). eauto. }
  assert (Hlow : forall k v, In k (sadd n (gb_boundary X)) -> dget k M' = Some v -> forall p' d, lpath ar E s1 p' k d -> v <== d).
  { intros k v Hk Hv p' d Hp'. assert (good d) by (eapply (lpg ar good L); eauto). destruct (In_dec' k (gb_boundary X)) as [Hkb|Hkb].
    - destruct (so_bnd _ _ _ (j_self _ _ _ _ _ _ HJ) k Hkb) as (v0 & Hv0). destruct (Hmono _ _ Hv0) as (v' & Hv' & Hle). rewrite Hv in Hv'. inv Hv'.
      pose proof (ex_low _ _ _ HX k v0 Hkb Hv0 _ _ Hp'). apply (ge_trans ar good L) with v0; eauto.
    - pose proof (Hcmin k p' d Hkb Hp'). specialize (Hvc k v Hk Hv). apply (ge_trans ar good L) with c; eauto. }
  assert (Hfr : forall k v y w, In k (sadd n (gb_boundary X)) -> dget k M' = Some v -> E k y = Some w -> exists m', dget y M' = Some m' /\ m' <== add v w).
  { intros k v y w Hk Hv He. assert (good w) as Gw by (eapply HG; eauto). assert (good v) as Gv by eauto. destruct (Hreal k v Hv) as (pk & Hpk). destruct (In_dec' k (gb_boundary X)) as [Hkb|Hkb].
    - destruct (so_bnd _ _ _ (j_self _ _ _ _ _ _ HJ) k Hkb) as (v0 & Hv0). assert (good v0) as Gv0 by eauto. pose proof (ex_low _ _ _ HX k v0 Hkb Hv0 _ _ Hpk).
      destruct (ex_fr _ _ _ HX k v0 y w Hkb Hv0 He) as (m' & Hm' & Hle). assert (good m') as Gm' by eauto. destruct (Hmono _ _ Hm') as (v' & Hv' & Hle'). exists v'. split; [exact Hv'|].
      assert (good v') by eauto. apply (ge_trans ar good L) with m'; auto using (ggood ar good L). apply (ge_trans ar good L) with (add v0 w); auto using (ggood ar good L). apply (l_mono _ _ L); auto.
    - apply In_sadd in Hk. destruct Hk as [->|Hk]; [|tauto]. pose proof (Hcmin n pk v Hkb Hpk).
      destruct (R5 eq_refl w y) as (m' & Hm' & Hle); [apply Hes; auto|]. exists m'. split; [exact Hm'|].
      assert (good m') by eauto. apply (ge_trans ar good L) with (add c w); auto using (ggood ar good L). apply (l_mono _ _ L); auto. }
  assert (Hpd : forall y v, dget y M' = Some v -> ~ In y (sadd n (gb_boundary X)) -> (exists pp, In (v, y, pp) q) \/ (exists pp, In (v, y, pp) q1)).
  { intros y v Hv Hy. rewrite In_sadd in Hy. destruct (R4 y) as [[Ea _]|(d & Hd & Ea & _ & Hin & _)].
    - rewrite Ea in Hv. destruct (ex_pend _ _ _ HX y v Hv) as (pp & Hin); [tauto|]. rewrite Eq in Hin. destruct Hin as [Ein|Hin]; [inv Ein; tauto|eauto].
    - rewrite Ea in Hv. inv Hv. eauto. }
  assert (Hs1 : In s1 (sadd n (gb_boundary X))).
  { destruct (ex_first _ _ _ HX) as [[_ Hq]|Hin]; [|apply In_sadd; auto]. rewrite Eq in Hq. inv Hq. apply In_sadd; auto. }
  assert (HnX' : forall mo, In n (gb_boundary X) -> In n (gb_boundary Y) -> dget n (gb_mins Y) = Some mo -> inf <== add c mo).
  { intros mo H1 H2 H3. assert (good mo) by eauto. apply (ge_trans ar good L) with (add m mo); auto using (ggood ar good L); [eapply Hdis; eauto|]. apply (l_mono _ _ L); auto. }
  destruct Hmeet as [(-> & -> & -> & Hm')|(mo & HnY & Hmo & -> & Hlt & -> & Hspk)].
  - (* still no meeting *)
    left. unfold phase1. cbn [gb_len gb_sp gb_boundary gb_mins]. splits; auto.
    + constructor; cbn [gb_q gb_boundary gb_mins gb_paths]; auto.
      * intros y v Hv Hy. destruct (Hpd y v Hv Hy) as [(pp & Hin)|(pp & Hin)]; [exists pp; apply R2, Hin|eauto].
      * intros k v u Hk Hv Hu. specialize (Hvc k v Hk Hv). assert (good v) by eauto. destruct u as [[cu nu] pu]. destruct (R3 _ _ _ Hu) as [Hi|(_ & d & Hd & -> & _)].
        -- pose proof (Hqc _ _ _ Hi). cbn. apply (ge_trans ar good L) with c; eauto.
        -- cbn. apply (ge_trans ar good L) with c; eauto. apply (le_addl ar good L); eauto.
      * destruct (R4 s1) as [[-> _]|(d & Hd & _ & _ & _ & Hlt)]; [apply (ex_st _ _ _ HX)|]. exfalso. rewrite (ex_st _ _ _ HX) in Hlt.
        assert (zero <== add c d) as C; [|congruence]. assert (zero <== c) by (eapply (lpz ar good L); eauto).
        apply (ge_trans ar good L) with c; eauto. apply (le_addl ar good L); eauto.
    + destruct HY as [Y1 Y2 Y3 Y4 Y5 Y6]. constructor; auto.
    + intros k v v' Hk HkY Hv Hv'. assert (good v) as Gv by eauto. assert (good v') as Gv' by eauto. destruct (Hreal k v Hv) as (pk & Hpk).
      destruct (In_dec' k (gb_boundary X)) as [Hkb|Hkb].
      * destruct (so_bnd _ _ _ (j_self _ _ _ _ _ _ HJ) k Hkb) as (v0 & Hv0). assert (good v0) as Gv0 by eauto.
        pose proof (ex_low _ _ _ HX k v0 Hkb Hv0 _ _ Hpk). apply (ge_trans ar good L) with (add v0 v'); auto using (ggood ar good L); [eapply Hdis; eauto|].
        apply (l_mono _ _ L); auto.
      * apply In_sadd in Hk. destruct Hk as [->|Hk]; [|tauto]. destruct (Hm' HkY) as (mo & Hmo & Hge). rewrite Hmo in Hv'. inv Hv'.
        pose proof (Hcmin n pk v Hkb Hpk). apply (ge_trans ar good L) with (add c v'); auto using (ggood ar good L). apply (l_mono _ _ L); auto.
  - (* first meeting *)
    right. assert (good mo) as Gmo by eauto. unfold phase2. cbn [gb_len gb_sp]. splits; auto. intros P d HP.
    assert (~ In n (gb_boundary X)) as HnX by (intros C; specialize (HnX' mo C HnY Hmo); congruence).
    assert (Hmomin : forall z p' d', ~ In z (gb_boundary Y) -> lpath ar (gflip E) s2 p' z d' -> mo <== d').
    { intros z p' d' Hz Hp'. assert (good d') by (eapply (lpg ar good L); eauto).
      destruct (gexact_frontier (gflip E) s2 Y HG' (j_other _ _ _ _ _ _ HJ) HY p' z d' Hp' Hz) as (y & my & pp & Hin & Hle).
      pose proof (ex_mono _ _ _ HY n mo _ HnY Hmo Hin) as H'. cbn in H'. apply (ge_trans ar good L) with my; auto. apply (q_good _ _ _ HG' (j_other _ _ _ _ _ _ HJ) _ Hin). }
    assert (In s2 (gb_boundary Y)) as Hs2 by (destruct (ex_first _ _ _ HY) as [[C _]|Hin]; [rewrite C in HnY; destruct HnY|exact Hin]).
    assert (good d) as Gd by (eapply (lpg ar good L); eauto).
    destruct (In_dec' s2 (sadd n (gb_boundary X))) as [H2|H2].
    + exists (add d zero). split.
      { destruct (exists_last (l := P)) as (P0 & z & EP); [intros ->; apply lp_path in HP; inversion HP|].
        assert (z = s2) as ->. { apply lp_path in HP. rewrite EP in HP. destruct P0; [cbn in HP; inversion HP as [|? ? ? ? ? HP']; [congruence|inversion HP']|].
          apply path_snoc_inv in HP; [|discriminate]. destruct HP as [<- _]. reflexivity. }
        exists P0, s2, [], d, zero. splits; auto; [rewrite <- EP; exact HP|constructor]. }
      left. apply In_sadd in H2. destruct H2 as [<-|H2].
      * pose proof (ex_low _ _ _ HY s2 mo HnY Hmo [s2] zero (lpath_one _ _ _)). pose proof (Hcmin s2 P d HnX HP). apply (add_mono ar good L rk L2); auto.
      * destruct (so_bnd _ _ _ (j_self _ _ _ _ _ _ HJ) s2 H2) as (v0 & Hv0). assert (good v0) as Gv0 by eauto.
        pose proof (ex_low _ _ _ HX s2 v0 H2 Hv0 _ _ HP). pose proof (Hdis s2 v0 zero H2 Hs2 Hv0 (ex_st _ _ _ HY)).
        apply (ge_trans ar good L) with inf; auto using (ggood ar good L).
        apply (ge_trans ar good L) with (add v0 zero); auto using (ggood ar good L). apply (l_mono _ _ L); auto.
    + destruct (split_first (sadd n (gb_boundary X)) P s2) as (l1 & y & l2 & Ep & Hy & Hl1); [destruct HP; [cbn; auto|apply in_or_app; cbn; auto]|exact H2|].
      destruct (exists_last (l := l1)) as (l0 & x & El1).
      { intros ->. apply lp_path in HP. destruct (path_head _ _ _ _ HP) as (t & Et). rewrite Ep in Et. cbn in Et. inv Et. tauto. }
      subst l1. destruct (lp_cut ar E s1 s2 P d (l0 ++ [x]) y l2 HP Ep) as (dl & dr & Pl & Pr).
      assert (good dl) as Gdl by (eapply (lpg ar good L); eauto). assert (good dr) as Gdr by (eapply (lpg ar good L); eauto).
      exists (add dl dr). split. { exists (l0 ++ [x]), y, l2, dl, dr. splits; auto. }
      assert (exists d1 w, lpath ar E s1 (l0 ++ [x]) x d1 /\ E x y = Some w /\ dl = add d1 w) as (d1 & w & P1 & P4 & ->).
      { inversion Pl as [Ex|pp b c0 w d0 Hpp Hww Ex].
        - exfalso. apply (f_equal (@length A)) in Ex. rewrite !app_length in Ex. cbn in Ex. lia.
        - apply app_inj_tail in Ex. destruct Ex as [-> ->]. exists d0, w. assert (b = x) as ->; [|auto].
          apply lp_path in Hpp. destruct l0 as [|h l0]; [cbn in Hpp; inversion Hpp as [|? ? ? ? ? Hx']; [congruence|inversion Hx']|].
          apply path_snoc_inv in Hpp; [|discriminate]. tauto. }
      assert (good d1) as Gd1 by (eapply (lpg ar good L); eauto). assert (good w) as Gw by (eapply HG; eauto).
      assert (In x (sadd n (gb_boundary X))) as HxV by (apply Hl1, in_or_app; cbn; auto).
      destruct (so_bnd _ _ _ (Hsound [] inf) x HxV) as (mx & Hmx). cbn in Hmx. assert (good mx) as Gmx by eauto.
      pose proof (Hlow x mx HxV Hmx _ _ P1) as Hle1. destruct (Hfr x mx y w HxV Hmx P4) as (my & Hmy & Hle). assert (good my) as Gmy by eauto.
      assert (my <== add d1 w) as Hmyl. { apply (ge_trans ar good L) with (add mx w); auto using (ggood ar good L). apply (l_mono _ _ L); auto. }
      assert (~ In y (gb_boundary X)) as HyX by (intros C; apply Hy, In_sadd; auto).
      destruct (In_dec' y (gb_boundary Y)) as [HyY|HyY].
      * destruct (T4 y HyY) as (moy & Hmoy). assert (good moy) as Gmoy by eauto. pose proof (ex_low _ _ _ HY y moy HyY Hmoy _ _ Pr) as Hr.
        assert (add my moy <== add (add d1 w) dr) as Hsum by (apply (add_mono ar good L rk L2); auto).
        destruct (Hpd y my Hmy Hy) as [(pp & Hin)|(pp & Hin)].
        -- destruct (a_ltb ar my (add c mo)) eqn:Hc'.
           ++ right; left. exists my, y, pp, moy. cbn. splits; auto. apply R2, filter_In. split; [exact Hin|]. exact Hc'.
           ++ left. apply (ge_trans ar good L) with my; auto using (ggood ar good L). apply (ge_trans ar good L) with (add my moy); auto using (ggood ar good L). apply (le_addl ar good L); auto.
        -- right; left. exists my, y, pp, moy. cbn. splits; auto.
      * left. pose proof (Hcmin y _ _ HyX Pl). pose proof (Hmomin y _ _ HyY Pr). apply (add_mono ar good L rk L2); auto. Qed.
End Search.
End Bi.

Section Final.
Context {A O W : Type} {EA : EqDec A} (ar : arith W) (good : W -> Prop) (L : lawful ar good) (rk : W -> nat) (L2 : lawful2 ar good rk).
Notation graph := (graph A O W).
Notation "x <== y" := (a_ltb ar y x = false) (at level 70).
Implicit Types (g : graph) (a b x y : A) (p : list A).

(** the edges that touch no node of S *)
Definition geavoid g (S : list A) : A -> A -> option W := fun x y => if mem x S || mem y S then None else edge g x y.
Lemma geavoid_Some g S x y w : geavoid g S x y = Some w <-> edge g x y = Some w /\ ~ In x S /\ ~ In y S.
Proof. unfold geavoid. destruct (mem_spec x S), (mem_spec y S); cbn; split; try discriminate; try tauto. Qed.
Lemma lpath_avoid (E E' : A -> A -> option W) (S : list A) a p b d :
  (forall x y w, E' x y = Some w <-> E x y = Some w /\ ~ In x S /\ ~ In y S) -> ~ In a S ->
  (lpath ar E' a p b d <-> lpath ar E a p b d /\ clear_of S p).
Proof. intros HE Ha. split.
  - intros H. induction H as [|p b c w d H [IH1 IH2] Hw].
    + split; [constructor|]. intros x [<-|[]]. exact Ha.
    + apply HE in Hw. destruct Hw as (Hw & _ & Hc). split; [eapply lpath_snoc; eauto|]. intros x Hx. apply in_app_or in Hx. destruct Hx as [Hx|[<-|[]]]; auto.
  - intros [H Hc]. induction H as [|p b c w d H IH Hw]; [constructor|]. assert (clear_of S p) as Hcp by (intros x Hx; apply Hc, in_or_app; auto).
    eapply lpath_snoc; [apply IH, Hcp|]. apply HE. splits; auto.
    + apply Hcp. destruct H; [cbn; auto|apply in_or_app; cbn; auto].
    + apply Hc, in_or_app. cbn; auto. Qed.
Lemma cutsum_avoid g (S : list A) a e P d : ~ In a S -> ~ In e S -> (cutsum ar (geavoid g S) a e P d <-> cutsum ar (edge g) a e P d /\ clear_of S P).
Proof. intros Ha He. pose proof (geavoid_Some g S) as HE.
  assert (forall x y w, gflip (geavoid g S) x y = Some w <-> gflip (edge g) x y = Some w /\ ~ In x S /\ ~ In y S) as HE'.
  { intros x y w. unfold gflip. rewrite HE. tauto. }
  unfold cutsum. split.
  - intros (l1 & n & l2 & dl & dr & -> & H1 & H2 & ->). apply (proj1 (lpath_avoid _ _ S _ _ _ _ HE Ha)) in H1. apply (proj1 (lpath_avoid _ _ S _ _ _ _ HE' He)) in H2.
    destruct H1 as [H1 C1], H2 as [H2 C2]. split; [exists l1, n, l2, dl, dr; auto|]. intros x Hx. apply in_app_or in Hx. destruct Hx as [Hx|[<-|Hx]].
    + apply C1, in_or_app; auto.
    + apply C1, in_or_app; cbn; auto.
    + apply C2, in_or_app. left. apply in_rev in Hx. exact Hx.
  - intros [(l1 & n & l2 & dl & dr & -> & H1 & H2 & ->) Hc]. exists l1, n, l2, dl, dr.
    assert (clear_of S (l1 ++ [n])) as C1. { intros x Hx. apply Hc. apply in_app_or in Hx. apply in_or_app. cbn in *. tauto. }
    assert (clear_of S (rev l2 ++ [n])) as C2. { intros x Hx. apply Hc. apply in_app_or in Hx. rewrite <- in_rev in Hx. apply in_or_app. cbn in *. tauto. }
    splits; auto; [apply (lpath_avoid _ _ S _ _ _ _ HE Ha)|apply (lpath_avoid _ _ S _ _ _ _ HE' He)]; auto. Qed.

Definition gbmeas (N : list A) (s : gside * gside) : nat * (nat * nat) :=
  let a := gsmeas rk N (fst s) in let b := gsmeas rk N (snd s) in
  (fst a + fst b, (fst (snd a) + fst (snd b), snd (snd a) + snd (snd b))).
Definition gbi_post g a e (S : list A) (r : W * list A) : Prop :=
  let '(d, p) := r in
  (cutsum ar (edge g) a e p d /\ clear_of S p /\ a_ltb ar d (a_inf ar) = true /\
   forall p' d', lpath ar (edge g) a p' e d' -> clear_of S p' -> exists k, cutsum ar (edge g) a e p' k /\ d <== k) \/
  (d = a_inf ar /\ p = [] /\ forall p' d', lpath ar (edge g) a p' e d' -> clear_of S p' -> exists k, cutsum ar (edge g) a e p' k /\ a_inf ar <== k).

Lemma gbidir_spec g a e (S : list A) srt : wf g -> good_edges good g -> (forall l, Permutation (srt l) l) ->
  In a (nodes g) -> In e (nodes g) -> ~ In a S -> ~ In e S ->
  exists r, returns (fun n => gshortest_path_bidirectional ar srt n g a e S) (Ok r) /\ gbi_post g a e S r.
Proof. intros Wf Hn Hsrt Ha He HaS HeS. unfold gshortest_path_bidirectional.
  assert (contains g a = true) as -> by (apply contains_In, Ha). assert (contains g e = true) as -> by (apply contains_In, He). cbn [negb].
  pose (E := geavoid g S). pose (okn := fun x => In x (nodes g) /\ ~ In x S).
  assert (HE0 : EG good E) by (intros x y w H; apply geavoid_Some in H; eapply Hn; apply H).
  assert (HE1 : forall x y w, E x y = Some w -> okn y).
  { intros x y w H; apply geavoid_Some in H. split; [|tauto]. apply (edge_nodes g x y w Wf). tauto. }
  assert (HE2 : forall x y w, gflip E x y = Some w -> okn y).
  { intros x y w H; apply geavoid_Some in H. split; [|tauto]. apply (edge_nodes g y x w Wf). tauto. }
  assert (Hes1 : forall n, okn n -> forall d y, In (d, y) (ges_of O g S srt true n) <-> E n y = Some d).
  { intros n [_ Hn'] d y. unfold ges_of. split; intros H.
    - apply (Permutation_in _ (Hsrt _)) in H. apply in_map_iff in H. destruct H as ([[x1 x2] x3] & Eq & H). cbn in Eq. inv Eq.
      apply filter_In in H. destruct H as [H Hm]. apply (In_edges_from g n _ Wf) in H. destruct H as (b & v & Eq & H). inv Eq. apply geavoid_Some. splits; auto.
      cbn in Hm. apply negb_true_iff, mem_notIn in Hm. exact Hm.
    - apply (Permutation_in _ (Permutation_sym (Hsrt _))). apply geavoid_Some in H. apply in_map_iff. exists (n, y, d). split; [reflexivity|].
      apply filter_In. split; [apply In_edges_from; [exact Wf|]; exists y, d; tauto|]. cbn. apply negb_true_iff, mem_notIn. tauto. }
  assert (Hes2 : forall n, okn n -> forall d y, In (d, y) (ges_of O g S srt false n) <-> gflip E n y = Some d).
  { intros n [_ Hn'] d y. unfold ges_of. split; intros H.
    - apply (Permutation_in _ (Hsrt _)) in H. apply in_map_iff in H. destruct H as ([[x1 x2] x3] & Eq & H). cbn in Eq. inv Eq.
      apply filter_In in H. destruct H as [H Hm]. apply (In_edges_to g n _ Wf) in H. destruct H as (b & v & Eq & H). inv Eq. apply geavoid_Some. splits; auto.
      cbn in Hm. apply negb_true_iff, mem_notIn in Hm. exact Hm.
    - apply (Permutation_in _ (Permutation_sym (Hsrt _))). apply geavoid_Some in H. apply in_map_iff. exists (y, n, d). split; [reflexivity|].
      apply filter_In. split; [apply In_edges_to; [exact Wf|]; exists y, d; tauto|]. cbn. apply negb_true_iff, mem_notIn. tauto. }
  destruct (loop_returns (gbi_step ar srt g S) (fun s => GJ ar good E a e true (fst s) (snd s)) (fun s' s => lt3 (gbmeas (nodes g) s') (gbmeas (nodes g) s))
     (fun r => exists t, r = Ok t /\ gbi_post g a e S t)) with (s := (gside0 ar a, gside0 ar e)) as (r & Hr & t & -> & Ht).
  - apply (wf_of lt3 (gbmeas (nodes g))), lt3_wf.
  - intros [fw bw] HJ. cbn [fst snd] in HJ. unfold gbi_step.
    destruct (is_nil (gb_q fw) && is_nil (gb_q bw)) eqn:Enil.
    + apply andb_true_iff in Enil. destruct Enil as [E1 E2]. assert (gb_q fw = []) as Q1 by (destruct (gb_q fw); [auto|discriminate]).
      assert (gb_q bw = []) as Q2 by (destruct (gb_q bw); [auto|discriminate]).
      split; [discriminate|]. eexists. split; [reflexivity|]. unfold gbi_post.
      destruct (j_ph _ _ _ _ _ _ _ _ HJ) as [(El & HX & HY & Hdis & Hsp)|(Hlt & _ & Hsp & Hcov)].
      * right. splits; auto. intros p' d' Hp' Hc.
        assert (lpath ar E a p' e d') as Hp by (apply (lpath_avoid _ _ S _ _ _ _ (geavoid_Some g S) HaS); auto).
        assert (In e (gb_boundary bw)) as Heb.
        { destruct (In_dec' e (gb_boundary bw)) as [h|h]; [exact h|]. destruct (ex_pend _ _ _ _ HY e _ (ex_st _ _ _ _ HY) h) as (pp & Hin). rewrite Q2 in Hin. destruct Hin. }
        assert (In e (gb_boundary fw)) as Hef.
        { destruct (In_dec' e (gb_boundary fw)) as [h|h]; [exact h|]. destruct (gexact_frontier ar good L E a fw HE0 (j_self _ _ _ _ _ _ _ _ HJ) HX p' e d' Hp h) as (y & m & pp & Hin & _).
          rewrite Q1 in Hin. destruct Hin. }
        destruct (so_bnd _ _ _ _ (j_self _ _ _ _ _ _ _ _ HJ) e Hef) as (m & Hm). pose proof (mins_good ar good L _ _ _ HE0 (j_self _ _ _ _ _ _ _ _ HJ) _ _ Hm) as Gm.
        pose proof (Hdis e m _ Hef Heb Hm (ex_st _ _ _ _ HY)) as Hge. pose proof (ex_low _ _ _ _ HX e m Hef Hm _ _ Hp) as Hle.
        assert (good d') as Gd' by (eapply (lpg ar good L); eauto).
        exists (a_add ar d' (a_zero ar)). split.
        -- destruct (exists_last (l := p')) as (P0 & z & EP); [intros ->; apply lp_path in Hp'; inversion Hp'|].
           assert (z = e) as ->. { clear -EP Hp'. apply lp_path in Hp'. rewrite EP in Hp'. destruct P0; [cbn in Hp'; inversion Hp' as [|? ? ? ? ? HP']; [congruence|inversion HP']|].
             apply path_snoc_inv in Hp'; [|discriminate]. destruct Hp' as [<- _]. reflexivity. }
           exists P0, e, [], d', (a_zero ar). splits; auto; [rewrite <- EP; exact Hp'|constructor].
        -- apply (ge_trans ar good L) with (a_add ar m (a_zero ar)); try apply (ggood ar good L); auto using (l_zero _ _ L), (l_inf _ _ _ L2). apply (l_mono _ _ L); auto using (l_zero _ _ L).
      * left. cbn in Hsp. apply cutsum_avoid in Hsp; [|exact HaS|exact HeS]. destruct Hsp as [Hsp1 Hsp2]. splits; auto. intros p' d' Hp' Hc.
        destruct (Hcov p' d') as (k & Hk & Hck); [apply (lpath_avoid _ _ S _ _ _ _ (geavoid_Some g S) HaS); auto|]. exists k.
        apply cutsum_avoid in Hk; [|exact HaS|exact HeS]. split; [apply Hk|].
        destruct Hck as [?|[(c & n & pp & m & Hin & _)|(c & n & pp & m & Hin & _)]]; [assumption| |].
        -- rewrite Q1 in Hin. destruct Hin.
        -- rewrite Q2 in Hin. destruct Hin.
    + destruct (gsearch_spec ar good L rk L2 O g S srt true E a e okn HE0 HE1 (conj Ha HaS) Hes1 (nodes g) (fun n H => proj1 H) fw bw HJ)
        as (fw1 & bw1 & E1 & J1 & Q1 & M1 & Z1 & L1). rewrite E1. cbn [bind].
      apply (GJ_flip ar good L rk L2) in J1; [|exact HE0]. cbn [negb] in J1.
      destruct (gsearch_spec ar good L rk L2 O g S srt false (gflip E) e a okn (EG_flip good E HE0) HE2 (conj He HeS) Hes2 (nodes g) (fun n H => proj1 H) bw1 fw1 J1)
        as (bw2 & fw2 & E2 & J2 & Q2 & M2 & Z2 & LL2). rewrite E2. cbn [bind fst snd].
      apply (GJ_flip ar good L rk L2) in J2; [|apply EG_flip, HE0]. cbn [negb] in J2. split; [exact J2|].
      assert (gsmeas rk (nodes g) bw1 = gsmeas rk (nodes g) bw) as Eb by (unfold gsmeas; rewrite Q1, M1; reflexivity).
      assert (gsmeas rk (nodes g) fw2 = gsmeas rk (nodes g) fw1) as Ef by (unfold gsmeas; rewrite Q2, M2; reflexivity).
      assert (gb_q fw = [] \/ gb_q fw <> []) as Cf by (destruct (gb_q fw); [auto|right; discriminate]).
      assert (gb_q bw1 = [] \/ gb_q bw1 <> []) as Cb by (destruct (gb_q bw1); [auto|right; discriminate]).
      unfold gbmeas. cbn [fst snd]. rewrite Ef. rewrite <- Eb.
      destruct Cf as [Cf|Cf], Cb as [Cb|Cb].
      * rewrite <- Q1 in Enil. rewrite Cf, Cb in Enil. discriminate.
      * rewrite (Z1 Cf). specialize (LL2 Cb). unfold lt3, lt2 in *. cbn [fst snd] in *. lia.
      * rewrite (Z2 Cb). specialize (L1 Cf). unfold lt3, lt2 in *. cbn [fst snd] in *. lia.
      * specialize (L1 Cf). specialize (LL2 Cb). unfold lt3, lt2 in *. cbn [fst snd] in *. lia.
  - assert (forall E' s', gsound ar E' s' (gside0 ar s')) as Hs0.
    { intros E' s'. constructor; cbn.
      - repeat constructor.
      - intros c n p [Eq|[]]. inv Eq. split; [constructor|]. exists (a_zero ar). destruct (eq_dec n n); [|congruence]. split; [reflexivity|apply (ge_refl ar good L), (l_zero _ _ L)].
      - intros n m. destruct (eq_dec n s') as [->|]; [|discriminate]. intros Eq. inv Eq. exists []. split; [reflexivity|constructor].
      - intros n []. }
    assert (forall E' s', gexact_side ar E' s' (gside0 ar s')) as Hx0.
    { intros E' s'. constructor; cbn; try tauto.
      - intros y m. destruct (eq_dec y s') as [->|]; [|discriminate]. intros Eq _. inv Eq. eauto.
      - destruct (eq_dec s' s'); [reflexivity|congruence]. }
    cbn [fst snd]. constructor; auto. left. unfold phase1. cbn. splits; auto. intros n m m' [].
  - exists t. auto. Qed.
End Final.
