(** Bidirectional Dijkstra: proofs about shortest_path_bidirectional. *)
From Coq Require Import Sorted.
From Verif Require Import Prelude PreludeFacts Base BaseFacts BaseFacts2 BaseFacts3 Spec SpecFacts Loop SearchFacts BaseAlgFacts Sp SpFacts.
Local Open Scope Z_scope.

Section Bi.
Context {A : Type} {EA : EqDec A}.
Notation thread := (thread A).
Notation side := (side A).
Implicit Types (x y z : A) (q : list thread) (X Y : side).

Definition cle (t u : thread) : Prop := th_cost t <= th_cost u.
Lemma insort_perm (t : thread) q : Permutation (insort t q) (t :: q).
Proof. induction q as [|u q IH]; cbn; [reflexivity|]. destruct (th_cost t <? th_cost u); [reflexivity|].
  etransitivity; [apply perm_skip, IH|]. apply perm_swap. Qed.
Lemma insort_In (t u : thread) q : In u (insort t q) <-> u = t \/ In u q.
Proof. split; intros H.
  - apply (Permutation_in u (insort_perm t q)) in H. destruct H as [<-|H]; auto.
  - apply (Permutation_in u (Permutation_sym (insort_perm t q))). destruct H as [->|H]; cbn; auto. Qed.
Lemma insort_sorted (t : thread) q : StronglySorted cle q -> StronglySorted cle (insort t q).
Proof. induction q as [|u q IH]; intros H; cbn; [repeat constructor|]. inv H. destruct (Z.ltb_spec (th_cost t) (th_cost u)).
  - constructor; [constructor; assumption|]. constructor; [unfold cle; lia|]. rewrite Forall_forall in *. intros v Hv. specialize (H3 v Hv). unfold cle in *; lia.
  - constructor; [auto|]. rewrite Forall_forall in *. intros v Hv. apply insort_In in Hv. destruct Hv as [->|Hv]; [unfold cle; lia|auto]. Qed.
Lemma filter_sorted (f : thread -> bool) q : StronglySorted cle q -> StronglySorted cle (filter f q).
Proof. induction q as [|u q IH]; intros H; cbn; [constructor|]. inv H. destruct (f u); [|auto]. constructor; [auto|].
  rewrite Forall_forall in *. intros v Hv. apply filter_In in Hv. apply H3, Hv. Qed.

Fixpoint dsum (d : dict A Z) : nat := match d with [] => 0 | (_, v) :: t => Z.to_nat v + dsum t end.
Lemma dsum_dset k v v' (d : dict A Z) : dget k d = Some v -> (dsum (dset k v' d) + Z.to_nat v = dsum d + Z.to_nat v')%nat.
Proof. induction d as [|[k0 v0] d IH]; cbn; [discriminate|]. destruct (eq_dec k k0) as [->|Hn].
  - intros E. inv E. cbn. lia.
  - intros E. specialize (IH E). cbn. lia. Qed.

(** the relaxation loop *)
Lemma bi_relax_spec (st : thread) len om es : forall q (M : dict A Z) (P : dict A (list A)) q' M' P',
  fold_left (bi_relax st len om) es (q, M, P) = (q', M', P') ->
  StronglySorted cle q ->
  StronglySorted cle q' /\ (forall u, In u q -> In u q') /\
  (forall c n p, In (c, n, p) q' -> In (c, n, p) q \/
     (p = th_node st :: th_path st /\ exists d, In (d, n) es /\ c = th_cost st + d /\ exists m, dget n M' = Some m /\ m <= c)) /\
  (forall n, (dget n M' = dget n M /\ dget n P' = dget n P) \/
     exists d, In (d, n) es /\ dget n M' = Some (th_cost st + d) /\ dget n P' = Some (th_node st :: th_path st) /\
       In (th_cost st + d, n, th_node st :: th_path st) q' /\ match dget n M with None => True | Some m => th_cost st + d < m end) /\
  (len = Inf -> forall d n, In (d, n) es -> exists m, dget n M' = Some m /\ m <= th_cost st + d) /\
  (forall N, (forall d n, In (d, n) es -> In n N /\ 0 <= th_cost st + d) ->
     (q' = q /\ M' = M) \/ lt2 (unseen N (dkeys M'), dsum M') (unseen N (dkeys M), dsum M)).
Proof. induction es as [|[d n2] es IH]; intros q M P q' M' P' Hf Hs; cbn [fold_left] in Hf.
  { inv Hf. splits; auto; try (intros ? ? ? []); try (intros _ ? ? []). }
  pose (path := th_node st :: th_path st).
  assert (Hskip : fold_left (bi_relax st len om) es (q, M, P) = (q', M', P') ->
    (len = Inf -> exists m, dget n2 M = Some m /\ m <= th_cost st + d) ->
    StronglySorted cle q' /\ (forall u, In u q -> In u q') /\
    (forall c n p, In (c, n, p) q' -> In (c, n, p) q \/
       (p = th_node st :: th_path st /\ exists d0, In (d0, n) ((d, n2) :: es) /\ c = th_cost st + d0 /\ exists m, dget n M' = Some m /\ m <= c)) /\
    (forall n, (dget n M' = dget n M /\ dget n P' = dget n P) \/
       exists d0, In (d0, n) ((d, n2) :: es) /\ dget n M' = Some (th_cost st + d0) /\ dget n P' = Some (th_node st :: th_path st) /\
         In (th_cost st + d0, n, th_node st :: th_path st) q' /\ match dget n M with None => True | Some m => th_cost st + d0 < m end) /\
    (len = Inf -> forall d0 n, In (d0, n) ((d, n2) :: es) -> exists m, dget n M' = Some m /\ m <= th_cost st + d0) /\
    (forall N, (forall d0 n, In (d0, n) ((d, n2) :: es) -> In n N /\ 0 <= th_cost st + d0) ->
       (q' = q /\ M' = M) \/ lt2 (unseen N (dkeys M'), dsum M') (unseen N (dkeys M), dsum M))).
  { intros Hf' Hi. destruct (IH _ _ _ _ _ _ Hf' Hs) as (H1 & H2 & H3 & H4 & H5 & H6). splits; auto.
    - intros c n p Hin. destruct (H3 _ _ _ Hin) as [?|(-> & d0 & ? & ? & ?)]; [auto|]. right. split; [reflexivity|]. exists d0. cbn; auto.
    - intros n. destruct (H4 n) as [?|(d0 & ? & ?)]; [auto|]. right. exists d0. cbn; tauto.
    - intros El d0 n [Eq|Hin]; [inv Eq|auto]. destruct (Hi eq_refl) as (m & Hm & Hle). destruct (H4 n) as [[-> _]|(d1 & _ & -> & _ & _ & Hlt)]; [eauto|].
      rewrite Hm in Hlt. eexists. split; [reflexivity|lia].
    - intros N HN. apply H6. intros; apply HN; cbn; auto. }
  unfold bi_relax in Hf at 2.
  destruct (ext_ltb len (Fin (th_cost st + d))) eqn:E1.
  { apply (Hskip Hf). intros ->. discriminate. }
  destruct (match dget n2 om with Some m => ext_ltb len (Fin (th_cost st + d + m)) | None => false end) eqn:E2.
  { apply (Hskip Hf). intros ->. destruct (dget n2 om); discriminate. }
  destruct (match dget n2 M with None => true | Some prev => th_cost st + d <? prev end) eqn:E3.
  2:{ apply (Hskip Hf). intros ->. destruct (dget n2 M) as [prev|]; [|discriminate]. apply Z.ltb_ge in E3. eauto. }
  clear Hskip. destruct (IH _ _ _ _ _ _ Hf (insort_sorted _ _ Hs)) as (H1 & H2 & H3 & H4 & H5 & H6).
  assert (exists m, dget n2 M' = Some m /\ m <= th_cost st + d) as Hm2.
  { destruct (H4 n2) as [[-> _]|(d1 & _ & -> & _ & _ & Hlt)]; rewrite dget_dset in *; destruct (eq_dec n2 n2); try congruence; eexists; (split; [reflexivity|lia]). }
  splits; auto.
  - intros u Hu. apply H2, insort_In. auto.
  - intros c n p Hin. destruct (H3 _ _ _ Hin) as [Hi|(-> & d0 & ? & ? & ?)].
    + apply insort_In in Hi. destruct Hi as [Eq|Hi]; [|auto]. inv Eq. right. split; [reflexivity|]. exists d. splits; cbn; auto.
    + right. split; [reflexivity|]. exists d0. cbn; auto.
  - intros n. destruct (H4 n) as [[Ha Hb]|(d0 & Hi & Ha & Hb & Hc & Hd)]; rewrite !dget_dset in *; destruct (eq_dec n n2) as [->|Hn].
    + right. exists d. splits; cbn; auto; [apply H2, insort_In; auto|]. destruct (dget n2 M); [apply Z.ltb_lt, E3|exact Logic.I].
    + auto.
    + right. exists d0. splits; cbn; auto. destruct (dget n2 M); [apply Z.ltb_lt in E3; lia|exact Logic.I].
    + right. exists d0. splits; cbn; auto.
  - intros El d0 n [Eq|Hin]; [inv Eq; exact Hm2|auto].
  - intros N HN. right.
    assert (lt2 (unseen N (dkeys (dset n2 (th_cost st + d) M)), dsum (dset n2 (th_cost st + d) M)) (unseen N (dkeys M), dsum M)) as Hlt.
    { destruct (HN d n2) as [HinN H0]; [cbn; auto|]. destruct (dget n2 M) as [prev|] eqn:Ep.
      - right. cbn. rewrite dkeys_dset_in by (eapply dget_Some_key; eauto). split; [reflexivity|]. pose proof (dsum_dset n2 prev (th_cost st + d) M Ep).
        apply Z.ltb_lt in E3. lia.
      - left. cbn. rewrite dkeys_dset_sadd. apply unseen_sadd_lt; [exact HinN|]. apply dget_None, Ep. }
    destruct (H6 N) as [[-> ->]|Hl]; [intros; apply HN; cbn; auto|exact Hlt|].
    unfold lt2 in *. cbn [fst snd] in *. lia. Qed.

Definition flip (E : A -> A -> option Z) : A -> A -> option Z := fun x y => E y x.

Record sound (E : A -> A -> option Z) (s : A) (X : side) : Prop := {
  so_sort : StronglySorted cle (b_q X);
  so_ent : forall c n p, In (c, n, p) (b_q X) -> wpath E s (rev p ++ [n]) n c /\ exists m, dget n (b_mins X) = Some m /\ m <= c;
  so_min : forall n m, dget n (b_mins X) = Some m -> exists p, dget n (b_paths X) = Some p /\ wpath E s (rev p ++ [n]) n m;
  so_bnd : forall n, In n (b_boundary X) -> exists m, dget n (b_mins X) = Some m }.
Record exact_side (E : A -> A -> option Z) (s : A) (X : side) : Prop := {
  ex_low : forall n m, In n (b_boundary X) -> dget n (b_mins X) = Some m -> forall p d, wpath E s p n d -> m <= d;
  ex_fr : forall n m y w, In n (b_boundary X) -> dget n (b_mins X) = Some m -> E n y = Some w -> exists m', dget y (b_mins X) = Some m' /\ m' <= m + w;
  ex_pend : forall y m, dget y (b_mins X) = Some m -> ~ In y (b_boundary X) -> exists p, In (m, y, p) (b_q X);
  ex_mono : forall n m u, In n (b_boundary X) -> dget n (b_mins X) = Some m -> In u (b_q X) -> m <= th_cost u;
  ex_st : dget s (b_mins X) = Some 0;
  ex_first : (b_boundary X = [] /\ b_q X = [(0, s, [])]) \/ In s (b_boundary X) }.
Definition pending (X Y : side) (d : Z) : Prop :=
  exists c n p m, In (c, n, p) (b_q X) /\ In n (b_boundary Y) /\ dget n (b_mins Y) = Some m /\ c + m <= d.
Definition spok (E : A -> A -> option Z) (s1 s2 : A) (fwd : bool) (sp : list A) (L : Z) : Prop :=
  if fwd then wpath E s1 sp s2 L else wpath (flip E) s2 sp s1 L.
Record J (E : A -> A -> option Z) (s1 s2 : A) (fwd : bool) (X Y : side) : Prop := {
  j_self : sound E s1 X;
  j_other : sound (flip E) s2 Y;
  j_len : b_len Y = b_len X;
  j_sp : b_sp Y = b_sp X;
  j_ph : match b_len X with
         | Inf => exact_side E s1 X /\ exact_side (flip E) s2 Y /\ (forall n, In n (b_boundary X) -> ~ In n (b_boundary Y)) /\ b_sp X = []
         | Fin L => spok E s1 s2 fwd (b_sp X) L /\ forall p d, wpath E s1 p s2 d -> L <= d \/ pending X Y d \/ pending Y X d
         end }.
Lemma J_flip E s1 s2 fwd X Y : J E s1 s2 fwd X Y -> J (flip E) s2 s1 (negb fwd) Y X.
Proof. intros [H1 H2 H3 H4 H5]. constructor; auto; rewrite H3. destruct (b_len X) as [L|].
  - destruct H5 as [H5 H6]. split.
    + rewrite H4. destruct fwd; exact H5.
    + intros p d Hp. apply wpath_rev in Hp. destruct (H6 _ _ Hp) as [?|[?|?]]; auto.
  - destruct H5 as (H5 & H6 & H7 & H8). splits; auto; [|congruence]. intros n Ha Hb. apply (H7 n Hb Ha). Qed.

Definition smeas (N : list A) (X : side) : nat * (nat * nat) := (unseen N (dkeys (b_mins X)), (dsum (b_mins X), length (b_q X))).

(** the frontier argument for one exact side *)
Lemma exact_frontier E s X : (forall x y w, E x y = Some w -> 0 <= w) -> sound E s X -> exact_side E s X -> forall p z d, wpath E s p z d -> ~ In z (b_boundary X) ->
  exists y m pp, dget y (b_mins X) = Some m /\ In (m, y, pp) (b_q X) /\ m <= d /\ In y p /\ ~ In y (b_boundary X).
Proof. intros Hnn HS D p z d Hp Hz. destruct (In_dec' s (b_boundary X)) as [Hs|Hs].
  2:{ destruct (ex_pend _ _ _ D s 0 (ex_st _ _ _ D) Hs) as (pp & Hin). exists s, 0, pp. splits; auto; [apply (ex_st _ _ _ D)|eapply wpath_nonneg; eauto|].
      destruct (wpath_head _ _ _ _ _ Hp) as (t & ->). cbn; auto. }
  destruct (split_first (b_boundary X) p z) as (l1 & y & l2 & Ep & Hy & Hl1); [eapply wpath_end_In; eauto|exact Hz|].
  destruct (exists_last (l := l1)) as (l0 & x & El).
  { intros ->. destruct (wpath_head _ _ _ _ _ Hp) as (t & Et). rewrite Ep in Et. cbn in Et. inv Et. tauto. }
  subst l1 p. rewrite <- app_assoc in Hp. cbn in Hp. apply wpath_split in Hp. destruct Hp as (d1 & d2 & H1 & H2 & ->).
  apply wpath_inv2 in H2. destruct H2 as (_ & w & d' & H4 & H8 & ->). pose proof (wpath_nonneg E _ _ _ _ Hnn H8).
  assert (In x (b_boundary X)) as HxV by (apply Hl1, in_or_app; cbn; auto).
  assert (exists m, dget x (b_mins X) = Some m /\ m <= d1) as (mx & Hmx & Hle).
  { destruct (so_bnd _ _ _ HS x HxV) as (mx & Hmx). exists mx. split; [exact Hmx|]. eapply (ex_low _ _ _ D); eauto. }
  destruct (ex_fr _ _ _ D x mx y w HxV Hmx H4) as (m' & Hm' & Hle').
  destruct (ex_pend _ _ _ D y m' Hm' Hy) as (pp & Hin). exists y, m', pp. splits; auto; [lia|]. rewrite <- app_assoc. apply in_or_app. cbn; auto. Qed.

Section Search.
Variables (O : Type) (g : graph A O Z) (S : list A) (srt : list (Z * A) -> list (Z * A)) (fwd : bool).
Variables (E : A -> A -> option Z) (s1 s2 : A) (okn : A -> Prop).
Hypothesis Hnn : forall x y w, E x y = Some w -> 0 <= w.
Hypothesis Hok : forall x y w, E x y = Some w -> okn y.
Hypothesis Hok1 : okn s1.
Definition es_of (n : A) : list (Z * A) :=
  srt (if fwd then map (fun e => (snd e, snd (fst e))) (filter (fun e => negb (mem (snd (fst e)) S)) (edges_from g n))
       else map (fun e => (snd e, fst (fst e))) (filter (fun e => negb (mem (fst (fst e)) S)) (edges_to g n))).
Hypothesis Hes : forall n, okn n -> forall d y, In (d, y) (es_of n) <-> E n y = Some d.
Variable N : list A.
Hypothesis HN : forall n, okn n -> In n N.

Lemma ok_end p n d : wpath E s1 p n d -> okn n.
Proof. intros H. assert (forall a, okn a -> wpath E a p n d -> okn n) as G; [|eauto]. clear H. intros a Ha H.
  induction H; [exact Ha|]. eapply IHwpath, Hok; eauto. Qed.

Lemma search_spec X Y : J E s1 s2 fwd X Y ->
  exists X' Y', bi_search srt g S fwd X Y = Ok (X', Y') /\ J E s1 s2 fwd X' Y' /\
    b_q Y' = b_q Y /\ b_mins Y' = b_mins Y /\
    (b_q X = [] -> X' = X) /\ (b_q X <> [] -> lt3 (smeas N X') (smeas N X)).
Proof. intros HJ. unfold bi_search. destruct (b_q X) as [|st q] eqn:Eq.
  { exists X, Y. splits; auto. congruence. }
  assert (exists c n p, st = (c, n, p)) as (c & n & p & ->) by (destruct st as [[c n] p]; eauto).
  cbn [th_cost th_node th_path fst snd].
  pose proof (so_sort _ _ _ (j_self _ _ _ _ _ _ HJ)) as Hsrt. rewrite Eq in Hsrt. inversion Hsrt as [|? ? Hsrt' Hall]; subst. rewrite Forall_forall in Hall.
  destruct (so_ent _ _ _ (j_self _ _ _ _ _ _ HJ) c n p) as [Hw (m & Hm & Hmc)]; [rewrite Eq; cbn; auto|].
  pose proof (ok_end _ _ _ Hw) as Hokn.
  assert (0 <= c) as Hc0 by (eapply wpath_nonneg; eauto).
  assert (forall c' n' p', In (c', n', p') q -> c <= c') as Hqc by (intros c' n' p' H; apply (Hall _ H)).
  destruct (ext_ltb (b_len X) (Fin c)) eqn:Ecut.
  { (* the popped entry is beyond the best known length *)
    eexists _, Y. split; [reflexivity|]. destruct (b_len X) as [L|] eqn:El; [|discriminate]. cbn in Ecut. apply Z.ltb_lt in Ecut. split.
    - destruct HJ as [H1 H2 H3 H4 H5]. rewrite El in *. destruct H1 as [S1 S2 S3 S4]. constructor; cbn; auto.
      + constructor; cbn; auto. intros c' n' p' Hin. apply S2. rewrite Eq. cbn; auto.
      + destruct H5 as [H5 H6]. split; [exact H5|]. intros p' d Hp'. destruct (H6 _ _ Hp') as [?|[(c' & n' & pp & m' & Hin & Hb & Hm' & Hle)|(c' & n' & pp & m' & Hin & Hb & Hm' & Hle)]]; auto.
        * rewrite Eq in Hin. destruct Hin as [Ein|Hin].
          -- inv Ein. left. destruct (so_min _ _ _ H2 _ _ Hm') as (pq & _ & Hwq).
             assert (0 <= m') by (eapply wpath_nonneg; [|exact Hwq]; intros x y w; apply Hnn). lia.
          -- right; left. exists c', n', pp, m'. cbn; auto.
        * right; right. exists c', n', pp, m'. cbn; auto.
    - cbn. splits; auto; [congruence|]. intros _. unfold smeas. cbn. rewrite Eq. right. split; [reflexivity|]. right. split; [reflexivity|]. cbn. lia. }
  assert (Hm0 : forall k v, dget k (b_mins Y) = Some v -> 0 <= v).
  { intros k v Hk. destruct (so_min _ _ _ (j_other _ _ _ _ _ _ HJ) _ _ Hk) as (pq & _ & Hwq).
    eapply wpath_nonneg; [|exact Hwq]. intros x y w; apply Hnn. }
  (* the meeting test *)
  match goal with |- exists X' Y', bind ?m _ = _ /\ _ =>
    assert (exists sp len q0, m = Ok (sp, len, q0) /\ ext_ltb (b_len X) len = false /\
      ((sp = b_sp X /\ len = b_len X /\ q0 = q /\ (In n (b_boundary Y) -> exists mo, dget n (b_mins Y) = Some mo /\ ext_ltb (Fin (c + mo)) (b_len X) = false)) \/
       (exists mo, In n (b_boundary Y) /\ dget n (b_mins Y) = Some mo /\ len = Fin (c + mo) /\ ext_ltb (Fin (c + mo)) (b_len X) = true /\
          q0 = filter (fun a => th_cost a <? c + mo) q /\ spok E s1 s2 fwd sp (c + mo)))) as (sp & len & q0 & Em & Hll & Hmeet) end.
  { assert (forall l, ext_ltb l l = false) as Hirr by (intros [z|]; cbn; [apply Z.ltb_irrefl|reflexivity]).
    destruct (mem_spec n (b_boundary Y)) as [HnY|HnY].
    - destruct (so_bnd _ _ _ (j_other _ _ _ _ _ _ HJ) n HnY) as (mo & Hmo). rewrite Hmo.
      destruct (so_min _ _ _ (j_other _ _ _ _ _ _ HJ) _ _ Hmo) as (op & Hop & Hwo). rewrite Hop.
      destruct (ext_ltb (Fin (c + mo)) (b_len X)) eqn:Elt.
      + eexists _, _, _. split; [reflexivity|]. split.
        * destruct (b_len X) as [L|]; [|reflexivity]. cbn in *. apply Z.ltb_lt in Elt. apply Z.ltb_ge. lia.
        * right. exists mo. splits; auto. unfold spok. destruct fwd.
          -- apply wpath_rev in Hwo. rewrite rev_app_distr, rev_involutive in Hwo. cbn in Hwo.
             pose proof (wpath_app _ _ _ _ _ _ _ _ Hw Hwo) as H. rewrite <- app_assoc in H. exact H.
          -- apply wpath_rev in Hw. rewrite rev_app_distr, rev_involutive in Hw. cbn in Hw.
             pose proof (wpath_app _ _ _ _ _ _ _ _ Hwo Hw) as H. rewrite <- app_assoc in H. rewrite Z.add_comm. exact H.
      + eexists _, _, _. split; [reflexivity|]. split; [apply Hirr|]. left. splits; auto. intros _. eauto.
    - eexists _, _, _. split; [reflexivity|]. split; [apply Hirr|]. left. splits; auto. tauto. }
  rewrite Em. cbn [bind]. clear Em. fold (es_of n).
  destruct (fold_left (bi_relax (c, n, p) (b_len X) (b_mins Y)) (es_of n) (q0, b_mins X, b_paths X)) as [[q1 M'] P'] eqn:Ef.
  assert (forall u, In u q0 -> In u q) as Hq0.
  { destruct Hmeet as [(_ & _ & -> & _)|(mo & _ & _ & _ & _ & -> & _)]; [auto|]. intros u Hu. apply filter_In in Hu. tauto. }
  assert (length q0 <= length q)%nat as Hq0l.
  { destruct Hmeet as [(_ & _ & -> & _)|(mo & _ & _ & _ & _ & -> & _)]; [auto|]. apply filter_length_le. }
  destruct (bi_relax_spec _ _ _ _ _ _ _ _ _ _ Ef) as (R1 & R2 & R3 & R4 & R5 & R6).
  { destruct Hmeet as [(_ & _ & -> & _)|(mo & _ & _ & _ & _ & -> & _)]; [auto|]. apply filter_sorted, Hsrt'. }
  cbn [th_cost th_node th_path fst snd] in *.
  unfold side_update. cbn [b_len]. rewrite Hll. cbn [bind]. rewrite (j_len _ _ _ _ _ _ HJ), Hll. cbn [bind b_q b_boundary b_mins b_paths].
  eexists _, _. split; [reflexivity|].
  assert (Hmono : forall k v, dget k (b_mins X) = Some v -> exists v', dget k M' = Some v' /\ v' <= v).
  { intros k v Hk. destruct (R4 k) as [[-> _]|(d & _ & -> & _ & _ & Hlt)]; [exists v; split; [exact Hk|lia]|].
    rewrite Hk in Hlt. eexists; split; [reflexivity|lia]. }
  assert (Hmeas : forall sp' len', lt3 (smeas N (mkSide q1 (sadd n (b_boundary X)) M' P' sp' len')) (smeas N X)).
  { intros sp' len'. unfold smeas. cbn [b_q b_mins]. rewrite Eq. destruct (R6 N) as [[-> ->]|Hl].
    - intros d y Hd. apply Hes in Hd; [|exact Hokn]. split; [apply HN; eapply Hok; eauto|]. specialize (Hnn _ _ _ Hd). lia.
    - right. split; [reflexivity|]. right. split; [reflexivity|]. cbn. lia.
    - unfold lt3, lt2 in *. cbn [fst snd] in *. lia. }
  assert (Hsound : forall sp' len', sound E s1 (mkSide q1 (sadd n (b_boundary X)) M' P' sp' len')).
  { intros sp' len'. destruct (j_self _ _ _ _ _ _ HJ) as [S1 S2 S3 S4].
    assert (forall y d, In (d, y) (es_of n) -> wpath E s1 (rev (n :: p) ++ [y]) y (c + d)) as Hnew.
    { intros y d Hd. apply Hes in Hd; [|exact Hokn]. cbn [rev]. eapply wpath_snoc; eauto. }
    constructor; cbn [b_q b_boundary b_mins b_paths].
    - exact R1.
    - intros c' n' p' Hin. destruct (R3 _ _ _ Hin) as [Hi|(-> & d & Hd & -> & Hm')].
      + apply Hq0 in Hi. destruct (S2 c' n' p') as [Hw' (m' & Hm' & Hle)]; [rewrite Eq; cbn; auto|]. split; [exact Hw'|].
        destruct (Hmono _ _ Hm') as (v & Hv & Hle'). exists v. split; [exact Hv|lia].
      + split; [apply Hnew, Hd|exact Hm'].
    - intros k v Hk. destruct (R4 k) as [[Ea Eb]|(d & Hd & Ea & Eb & _)].
      + rewrite Ea in Hk. rewrite Eb. apply S3, Hk.
      + rewrite Ea in Hk. inv Hk. exists (n :: p). split; [exact Eb|]. apply Hnew, Hd.
    - intros k Hk. apply In_sadd in Hk. destruct Hk as [->|Hk].
      + destruct (Hmono _ _ Hm) as (v & Hv & _). eauto.
      + destruct (S4 k Hk) as (v & Hv). destruct (Hmono _ _ Hv) as (v' & Hv' & _). eauto. }
  split; [|cbn [b_q b_mins]; splits; auto; congruence].
  destruct (j_other _ _ _ _ _ _ HJ) as [T1 T2 T3 T4].
  constructor; cbn [b_len b_sp b_q b_boundary b_mins b_paths].
  { apply Hsound. } { constructor; auto. } { reflexivity. } { reflexivity. }
  pose proof (j_ph _ _ _ _ _ _ HJ) as Hph. destruct (b_len X) as [L|] eqn:El.
  - (* a solution was already known *)
    destruct Hph as [Hsp Hcov].
    assert (exists L', len = Fin L' /\ L' <= L /\ spok E s1 s2 fwd sp L' /\ (forall mo d, In n (b_boundary Y) -> dget n (b_mins Y) = Some mo -> c + mo <= d -> L' <= d) /\
            (forall c' n' p', In (c', n', p') q -> In (c', n', p') q1 \/ L' <= c')) as (L' & -> & HLL & Hsp' & Hpop & Hkeep).
    { destruct Hmeet as [(-> & -> & -> & Hm')|(mo & HnY & Hmo & -> & Hlt & -> & Hspk)].
      - exists L. splits; auto; [lia|]. intros mo d HnY Hmo Hle. destruct (Hm' HnY) as (mo' & Hmo' & Hf). rewrite Hmo in Hmo'. inv Hmo'.
        cbn in Hf. apply Z.ltb_ge in Hf. lia.
      - cbn in Hlt. apply Z.ltb_lt in Hlt. exists (c + mo). splits; auto; [lia| |].
        + intros mo' d _ Hmo' Hle. rewrite Hmo in Hmo'. inv Hmo'. exact Hle.
        + intros c' n' p' Hin. destruct (Z.ltb_spec c' (c + mo)) as [Hc'|Hc']; [|auto]. left. apply R2, filter_In. split; [exact Hin|]. apply Z.ltb_lt, Hc'. }
    split; [exact Hsp'|]. intros p' d Hp'. destruct (Hcov _ _ Hp') as [?|[(c' & n' & pp & m' & Hin & Hb & Hm' & Hle)|(c' & n' & pp & m' & Hin & Hb & Hm' & Hle)]].
    + left; lia.
    + rewrite Eq in Hin. destruct Hin as [Ein|Hin].
      * inv Ein. left. eapply Hpop; eauto.
      * destruct (Hkeep _ _ _ Hin) as [Hk|Hk]; [right; left; exists c', n', pp, m'; cbn; auto|]. left. specialize (Hm0 _ _ Hm'). lia.
    + right; right. destruct (Hmono _ _ Hm') as (v & Hv & Hle'). exists c', n', pp, v. cbn [b_q b_boundary b_mins]. splits; auto; [apply In_sadd; auto|lia].
  - (* no meeting so far *)
    destruct Hph as (HX & HY & Hdis & Hsp0).
    assert (Hcmin : forall z p' d, ~ In z (b_boundary X) -> wpath E s1 p' z d -> c <= d).
    { intros z p' d Hz Hp'. destruct (exact_frontier E s1 X Hnn (j_self _ _ _ _ _ _ HJ) HX p' z d Hp' Hz) as (y & my & pp & _ & Hin & Hle & _).
      rewrite Eq in Hin. destruct Hin as [Ein|Hin]; [inv Ein; lia|]. specialize (Hqc _ _ _ Hin). lia. }
    assert (Hvc : forall k v, In k (sadd n (b_boundary X)) -> dget k M' = Some v -> v <= c).
    { intros k v Hk Hv. apply In_sadd in Hk. destruct Hk as [->|Hk].
      - destruct (Hmono _ _ Hm) as (v' & Hv' & Hle). rewrite Hv in Hv'. inv Hv'. lia.
      - destruct (so_bnd _ _ _ (j_self _ _ _ _ _ _ HJ) k Hk) as (v0 & Hv0). destruct (Hmono _ _ Hv0) as (v' & Hv' & Hle). rewrite Hv in Hv'. inv Hv'.
        pose proof (ex_mono _ _ _ HX k v0 (c, n, p) Hk Hv0). rewrite Eq in H. specialize (H (or_introl eq_refl)). cbn in H. lia. }
    assert (Hreal : forall k v, dget k M' = Some v -> exists pk, wpath E s1 pk k v).
    { intros k v Hv. destruct (so_min _ _ _ (Hsound [] Inf) k v Hv) as (pk & _ & Hwk). eauto. }
    assert (Hlow : forall k v, In k (sadd n (b_boundary X)) -> dget k M' = Some v -> forall p' d, wpath E s1 p' k d -> v <= d).
    { intros k v Hk Hv p' d Hp'. destruct (In_dec' k (b_boundary X)) as [Hkb|Hkb].
      - destruct (so_bnd _ _ _ (j_self _ _ _ _ _ _ HJ) k Hkb) as (v0 & Hv0). destruct (Hmono _ _ Hv0) as (v' & Hv' & Hle). rewrite Hv in Hv'. inv Hv'.
        pose proof (ex_low _ _ _ HX k v0 Hkb Hv0 _ _ Hp'). lia.
      - pose proof (Hcmin k p' d Hkb Hp'). specialize (Hvc k v Hk Hv). lia. }
    assert (Hfr : forall k v y w, In k (sadd n (b_boundary X)) -> dget k M' = Some v -> E k y = Some w -> exists m', dget y M' = Some m' /\ m' <= v + w).
    { intros k v y w Hk Hv He. destruct (Hreal k v Hv) as (pk & Hpk). destruct (In_dec' k (b_boundary X)) as [Hkb|Hkb].
      - destruct (so_bnd _ _ _ (j_self _ _ _ _ _ _ HJ) k Hkb) as (v0 & Hv0). pose proof (ex_low _ _ _ HX k v0 Hkb Hv0 _ _ Hpk).
        destruct (ex_fr _ _ _ HX k v0 y w Hkb Hv0 He) as (m' & Hm' & Hle). destruct (Hmono _ _ Hm') as (v' & Hv' & Hle'). exists v'. split; [exact Hv'|lia].
      - apply In_sadd in Hk. destruct Hk as [->|Hk]; [|tauto]. pose proof (Hcmin n pk v Hkb Hpk).
        destruct (R5 eq_refl w y) as (m' & Hm' & Hle); [apply Hes; auto|]. exists m'. split; [exact Hm'|lia]. }
    assert (Hpd : forall y v, dget y M' = Some v -> ~ In y (sadd n (b_boundary X)) -> (exists pp, In (v, y, pp) q) \/ (exists pp, In (v, y, pp) q1)).
    { intros y v Hv Hy. rewrite In_sadd in Hy. destruct (R4 y) as [[Ea _]|(d & Hd & Ea & _ & Hin & _)].
      - rewrite Ea in Hv. destruct (ex_pend _ _ _ HX y v Hv) as (pp & Hin); [tauto|]. rewrite Eq in Hin. destruct Hin as [Ein|Hin]; [inv Ein; tauto|eauto].
      - rewrite Ea in Hv. inv Hv. eauto. }
    assert (Hs1 : In s1 (sadd n (b_boundary X))).
    { destruct (ex_first _ _ _ HX) as [[_ Hq]|Hin]; [|apply In_sadd; auto]. rewrite Eq in Hq. inv Hq. apply In_sadd; auto. }
    destruct Hmeet as [(-> & -> & -> & Hm')|(mo & HnY & Hmo & -> & Hlt & -> & Hspk)].
    + (* still no meeting *)
      assert (~ In n (b_boundary Y)) as HnY by (intros C; destruct (Hm' C) as (mo & _ & Hf); discriminate Hf).
      splits; auto.
      * constructor; cbn [b_q b_boundary b_mins b_paths]; auto.
        -- intros y v Hv Hy. destruct (Hpd y v Hv Hy) as [(pp & Hin)|(pp & Hin)]; [exists pp; apply R2, Hin|eauto].
        -- intros k v u Hk Hv Hu. specialize (Hvc k v Hk Hv). destruct u as [[cu nu] pu]. destruct (R3 _ _ _ Hu) as [Hi|(_ & d & Hd & -> & _)].
           ++ specialize (Hqc _ _ _ Hi). cbn. lia.
           ++ apply Hes in Hd; [|exact Hokn]. specialize (Hnn _ _ _ Hd). cbn. lia.
        -- destruct (R4 s1) as [[-> _]|(d & Hd & _ & _ & _ & Hlt)]; [apply (ex_st _ _ _ HX)|]. exfalso. rewrite (ex_st _ _ _ HX) in Hlt.
           apply Hes in Hd; [|exact Hokn]. specialize (Hnn _ _ _ Hd). lia.
      * destruct HY as [Y1 Y2 Y3 Y4 Y5 Y6]. constructor; auto.
      * intros k Hk. apply In_sadd in Hk. destruct Hk as [->|Hk]; [exact HnY|apply Hdis, Hk].
    + (* first meeting *)
      split; [exact Hspk|]. intros P d HP.
      assert (~ In n (b_boundary X)) as HnX by (intros C; apply (Hdis n C HnY)).
      assert (Hmomin : forall z p' d', ~ In z (b_boundary Y) -> wpath (flip E) s2 p' z d' -> mo <= d').
      { intros z p' d' Hz Hp'. destruct (exact_frontier (flip E) s2 Y (fun x y w => Hnn y x w) (j_other _ _ _ _ _ _ HJ) HY p' z d' Hp' Hz) as (y & my & pp & _ & Hin & Hle & _).
        pose proof (ex_mono _ _ _ HY n mo _ HnY Hmo Hin). cbn in H. lia. }
      assert (In s2 (b_boundary Y)) as Hs2 by (destruct (ex_first _ _ _ HY) as [[C _]|Hin]; [rewrite C in HnY; destruct HnY|exact Hin]).
      destruct (In_dec' s2 (sadd n (b_boundary X))) as [H2|H2].
      * left. apply In_sadd in H2. destruct H2 as [<-|H2]; [|exfalso; apply (Hdis _ H2 Hs2)].
        pose proof (ex_low _ _ _ HY s2 mo HnY Hmo [s2] 0 (wpath_one _ _)). pose proof (Hcmin s2 P d HnX HP). lia.
      * destruct (split_first (sadd n (b_boundary X)) P s2) as (l1 & y & l2 & Ep & Hy & Hl1); [eapply wpath_end_In; eauto|exact H2|].
        destruct (exists_last (l := l1)) as (l0 & x & El1).
        { intros ->. destruct (wpath_head _ _ _ _ _ HP) as (t & Et). rewrite Ep in Et. cbn in Et. inv Et. tauto. }
        subst l1 P. rewrite <- app_assoc in HP. cbn in HP. apply wpath_split in HP. destruct HP as (d1 & d2 & P1 & P2 & ->).
        apply wpath_inv2 in P2. destruct P2 as (_ & w & d' & P4 & P8 & ->). pose proof (wpath_nonneg E _ _ _ _ Hnn P8).
        assert (In x (sadd n (b_boundary X))) as HxV by (apply Hl1, in_or_app; cbn; auto).
        destruct (so_bnd _ _ _ (Hsound [] Inf) x HxV) as (mx & Hmx). cbn in Hmx.
        pose proof (Hlow x mx HxV Hmx _ _ P1). destruct (Hfr x mx y w HxV Hmx P4) as (my & Hmy & Hle).
        pose proof (wpath_snoc _ _ _ _ _ _ _ P1 P4) as P5.
        assert (~ In y (b_boundary X)) as HyX by (intros C; apply Hy, In_sadd; auto).
        apply wpath_rev in P8.
        destruct (In_dec' y (b_boundary Y)) as [HyY|HyY].
        -- destruct (T4 y HyY) as (moy & Hmoy). pose proof (ex_low _ _ _ HY y moy HyY Hmoy _ _ P8).
           destruct (Hpd y my Hmy Hy) as [(pp & Hin)|(pp & Hin)].
           ++ destruct (Z.ltb_spec my (c + mo)) as [Hc'|Hc']; [|left; lia]. right; left. exists my, y, pp, moy. cbn. splits; auto; [|lia].
              apply R2, filter_In. split; [exact Hin|]. apply Z.ltb_lt, Hc'.
           ++ right; left. exists my, y, pp, moy. cbn. splits; auto. lia.
        -- left. pose proof (Hcmin y _ _ HyX P5). pose proof (Hmomin y _ _ HyY P8). lia. Qed.
End Search.
End Bi.
Section Final.
Context {A O : Type} {EA : EqDec A}.
Notation graph := (graph A O Z).
Implicit Types (g : graph) (a b x y : A) (p : list A).

(** the edges that touch no node of S *)
Definition eavoid g (S : list A) : A -> A -> option Z := fun x y => if mem x S || mem y S then None else edge g x y.
Lemma eavoid_Some g S x y w : eavoid g S x y = Some w <-> edge g x y = Some w /\ ~ In x S /\ ~ In y S.
Proof. unfold eavoid. destruct (mem_spec x S), (mem_spec y S); cbn; split; try discriminate; try tauto. Qed.
Lemma wpath_avoid g S a p b d : ~ In a S -> (wpath (eavoid g S) a p b d <-> wpath (edge g) a p b d /\ clear_of S p).
Proof. intros Ha. split.
  - intros H. induction H as [a|a b p c w d He Hp IH].
    + split; [constructor|]. intros x [<-|[]]. exact Ha.
    + apply eavoid_Some in He. destruct He as (He & _ & Hb). destruct (IH Hb) as [H1 H2]. split; [econstructor; eauto|].
      intros x [<-|Hx]; [exact Ha|auto].
  - intros [H Hc]. induction H as [a|a b p c w d He Hp IH]; [constructor|]. destruct (wpath_head _ _ _ _ _ Hp) as (t & ->).
    assert (~ In b S) as Hb by (apply Hc; cbn; auto). econstructor; [apply eavoid_Some; splits; eauto|]. apply IH; [exact Hb|].
    intros x Hx. apply Hc. cbn in *; auto. Qed.

Definition bmeas (N : list A) (s : side A * side A) : nat * (nat * nat) :=
  let a := smeas N (fst s) in let b := smeas N (snd s) in
  ((fst a + fst b)%nat, ((fst (snd a) + fst (snd b))%nat, (snd (snd a) + snd (snd b))%nat)).

Lemma bidir_spec g a e S srt : wf g -> nonneg g -> (forall l, Permutation (srt l) l) ->
  In a (nodes g) -> In e (nodes g) -> ~ In a S -> ~ In e S ->
  exists r, returns (fun n => shortest_path_bidirectional srt n g a e S) (Ok r) /\ sp_post g a e S r.
Proof. intros W Hn Hsrt Ha He HaS HeS. unfold shortest_path_bidirectional.
  assert (contains g a = true) as -> by (apply contains_In, Ha). assert (contains g e = true) as -> by (apply contains_In, He). cbn [negb].
  pose (E := eavoid g S). pose (okn := fun x => In x (nodes g) /\ ~ In x S).
  assert (HE0 : forall x y w, E x y = Some w -> 0 <= w) by (intros x y w H; apply eavoid_Some in H; eapply Hn; apply H).
  assert (HE1 : forall x y w, E x y = Some w -> okn y).
  { intros x y w H; apply eavoid_Some in H. split; [|tauto]. apply (edge_nodes g x y w W). tauto. }
  assert (HE2 : forall x y w, flip E x y = Some w -> okn y).
  { intros x y w H; apply eavoid_Some in H. split; [|tauto]. apply (edge_nodes g y x w W). tauto. }
  assert (Hes1 : forall n, okn n -> forall d y, In (d, y) (es_of O g S srt true n) <-> E n y = Some d).
  { intros n [_ Hn'] d y. unfold es_of. split; intros H.
    - apply (Permutation_in _ (Hsrt _)) in H. apply in_map_iff in H. destruct H as ([[x1 x2] x3] & Eq & H). cbn in Eq. inv Eq.
      apply filter_In in H. destruct H as [H Hm]. apply (In_edges_from g n _ W) in H. destruct H as (b & v & Eq & H). inv Eq. apply eavoid_Some. splits; auto.
      cbn in Hm. apply negb_true_iff, mem_notIn in Hm. exact Hm.
    - apply (Permutation_in _ (Permutation_sym (Hsrt _))). apply eavoid_Some in H. apply in_map_iff. exists (n, y, d). split; [reflexivity|].
      apply filter_In. split; [apply In_edges_from; [exact W|]; exists y, d; tauto|]. cbn. apply negb_true_iff, mem_notIn. tauto. }
  assert (Hes2 : forall n, okn n -> forall d y, In (d, y) (es_of O g S srt false n) <-> flip E n y = Some d).
  { intros n [_ Hn'] d y. unfold es_of. split; intros H.
    - apply (Permutation_in _ (Hsrt _)) in H. apply in_map_iff in H. destruct H as ([[x1 x2] x3] & Eq & H). cbn in Eq. inv Eq.
      apply filter_In in H. destruct H as [H Hm]. apply (In_edges_to g n _ W) in H. destruct H as (b & v & Eq & H). inv Eq. apply eavoid_Some. splits; auto.
      cbn in Hm. apply negb_true_iff, mem_notIn in Hm. exact Hm.
    - apply (Permutation_in _ (Permutation_sym (Hsrt _))). apply eavoid_Some in H. apply in_map_iff. exists (y, n, d). split; [reflexivity|].
      apply filter_In. split; [apply In_edges_to; [exact W|]; exists y, d; tauto|]. cbn. apply negb_true_iff, mem_notIn. tauto. }
  destruct (loop_returns (bi_step srt g S) (fun s => J E a e true (fst s) (snd s)) (fun s' s => lt3 (bmeas (nodes g) s') (bmeas (nodes g) s))
     (fun r => exists t, r = Ok t /\ sp_post g a e S t)) with (s := (side0 a, side0 e)) as (r & Hr & t & -> & Ht).
  - apply (wf_of lt3 (bmeas (nodes g))), lt3_wf.
  - intros [fw bw] HJ. cbn [fst snd] in HJ. unfold bi_step.
    destruct (is_nil (b_q fw) && is_nil (b_q bw)) eqn:Enil.
    + apply andb_true_iff in Enil. destruct Enil as [E1 E2]. assert (b_q fw = []) as Q1 by (destruct (b_q fw); [auto|discriminate]).
      assert (b_q bw = []) as Q2 by (destruct (b_q bw); [auto|discriminate]).
      split; [discriminate|]. eexists. split; [reflexivity|]. pose proof (j_ph _ _ _ _ _ _ HJ) as Hph.
      destruct (b_len fw) as [L|] eqn:El.
      * destruct Hph as [Hsp Hcov]. cbn in Hsp. apply (wpath_avoid g S) in Hsp; [|exact HaS]. hnf. splits; try tauto. intros p' d' Hp' Hc.
        destruct (Hcov p' d') as [?|[(c & n & pp & m & Hin & _)|(c & n & pp & m & Hin & _)]]; [apply wpath_avoid; auto|assumption| |].
        -- rewrite Q1 in Hin. destruct Hin.
        -- rewrite Q2 in Hin. destruct Hin.
      * destruct Hph as (HX & HY & Hdis & Hsp). hnf. split; [exact Hsp|]. intros p' d' Hp' Hc.
        assert (In e (b_boundary bw)) as Heb.
        { destruct (In_dec' e (b_boundary bw)) as [h|h]; [exact h|]. destruct (ex_pend _ _ _ HY e 0 (ex_st _ _ _ HY) h) as (pp & Hin). rewrite Q2 in Hin. destruct Hin. }
        assert (~ In e (b_boundary fw)) as Hef by (intros C; apply (Hdis e C Heb)).
        destruct (exact_frontier E a fw HE0 (j_self _ _ _ _ _ _ HJ) HX p' e d') as (y & m & pp & _ & Hin & _); [apply wpath_avoid; auto|exact Hef|].
        rewrite Q1 in Hin. destruct Hin.
    + destruct (search_spec O g S srt true E a e okn HE0 HE1 (conj Ha HaS) Hes1 (nodes g) (fun n H => proj1 H) fw bw HJ)
        as (fw1 & bw1 & E1 & J1 & Q1 & M1 & Z1 & L1). rewrite E1. cbn [bind].
      apply J_flip in J1. cbn [negb] in J1.
      destruct (search_spec O g S srt false (flip E) e a okn (fun x y w => HE0 y x w) HE2 (conj He HeS) Hes2 (nodes g) (fun n H => proj1 H) bw1 fw1 J1)
        as (bw2 & fw2 & E2 & J2 & Q2 & M2 & Z2 & L2). rewrite E2. cbn [bind fst snd].
      apply J_flip in J2. cbn [negb] in J2. split; [exact J2|].
      assert (smeas (nodes g) bw1 = smeas (nodes g) bw) as Eb by (unfold smeas; rewrite Q1, M1; reflexivity).
      assert (smeas (nodes g) fw2 = smeas (nodes g) fw1) as Ef by (unfold smeas; rewrite Q2, M2; reflexivity).
      assert (b_q fw = [] \/ b_q fw <> []) as Cf by (destruct (b_q fw); [auto|right; discriminate]).
      assert (b_q bw1 = [] \/ b_q bw1 <> []) as Cb by (destruct (b_q bw1); [auto|right; discriminate]).
      unfold bmeas. cbn [fst snd]. rewrite Ef. rewrite <- Eb.
      destruct Cf as [Cf|Cf], Cb as [Cb|Cb].
      * rewrite <- Q1 in Enil. rewrite Cf, Cb in Enil. discriminate.
      * rewrite (Z1 Cf). specialize (L2 Cb). unfold lt3, lt2 in *. cbn [fst snd] in *. lia.
      * rewrite (Z2 Cb). specialize (L1 Cf). unfold lt3, lt2 in *. cbn [fst snd] in *. lia.
      * specialize (L1 Cf). specialize (L2 Cb). unfold lt3, lt2 in *. cbn [fst snd] in *. lia.
  - assert (forall E' s', sound E' s' (side0 s')) as Hs0.
    { intros E' s'. constructor; cbn.
      - repeat constructor.
      - intros c n p [Eq|[]]. inv Eq. split; [constructor|]. exists 0. destruct (eq_dec n n); [|congruence]. split; [reflexivity|lia].
      - intros n m. destruct (eq_dec n s') as [->|]; [|discriminate]. intros Eq. inv Eq. exists []. split; [reflexivity|constructor].
      - intros n []. }
    assert (forall E' s', exact_side E' s' (side0 s')) as Hx0.
    { intros E' s'. constructor; cbn; try tauto.
      - intros y m. destruct (eq_dec y s') as [->|]; [|discriminate]. intros Eq _. inv Eq. eauto.
      - destruct (eq_dec s' s'); [reflexivity|congruence]. }
    cbn [fst snd]. constructor; auto. cbn. splits; auto.
  - exists t. auto. Qed.

Lemma bidir_dist g a e srt : wf g -> nonneg g -> (forall l, Permutation (srt l) l) -> In a (nodes g) -> In e (nodes g) ->
  exists d p, returns (fun n => shortest_path_bidirectional srt n g a e []) (Ok (d, p)) /\ dist (edge g) a e d /\
    match d with Fin z => wpath (edge g) a p e z | Inf => p = [] end.
Proof. intros W Hn Hs Ha He. destruct (bidir_spec g a e [] srt W Hn Hs Ha He) as ([d p] & Hr & Hp); [intros []|intros []|]. exists d, p. split; [exact Hr|].
  unfold sp_post, clear_of in Hp. destruct d as [z|].
  - destruct Hp as (H1 & _ & H2). splits; auto. split; [eauto|]. intros p' z' H'. eapply H2; eauto.
  - destruct Hp as [-> H]. split; [|reflexivity]. intros p' z' H'. apply (H p' z' H'). intros x _ []. Qed.
End Final.
