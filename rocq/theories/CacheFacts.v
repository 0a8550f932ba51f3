(** ShortestPathCache: proofs. *)
From Verif Require Import Prelude PreludeFacts Base BaseFacts BaseFacts2 BaseFacts3 Spec SpecFacts Loop SearchFacts BaseAlgFacts Sp SpFacts BidirFacts.
Local Open Scope Z_scope.

Section C.
Context {A O : Type} {EA : EqDec A}.
Notation graph := (graph A O Z).
Implicit Types (g : graph) (a b x y : A) (p : list A).

Definition good g x y (r : ext * list A) : Prop :=
  dist (edge g) x y (fst r) /\ match fst r with Fin z => wpath (edge g) x (snd r) y z | Inf => snd r = [] end.
Definition cgood g (c : cache_t A) : Prop := forall x y r, dget (x, y) c = Some r -> good g x y r.
Definition ckeeps (c c' : cache_t A) : Prop := forall k, In k (dkeys c) -> In k (dkeys c').

(** a stretch of a shortest walk is a shortest walk *)
Lemma sub_shortest (E : A -> A -> option Z) a p1 h t p2 b z : wpath E a (p1 ++ (h :: t) ++ p2) b z ->
  (forall p d, wpath E a p b d -> z <= d) ->
  exists d, wpath E h (h :: t) (last (h :: t) h) d /\ dist E h (last (h :: t) h) (Fin d).
Proof. intros H Hmin. cbn in H. apply wpath_split in H. destruct H as (d1 & d2 & H1 & H2 & ->).
  assert (h :: t <> []) as Hne by discriminate. pose proof (app_removelast_last h Hne) as El. set (l := last (h :: t) h) in *. set (s' := removelast (h :: t)) in *.
  change (h :: t ++ p2) with ((h :: t) ++ p2) in H2. rewrite El, <- app_assoc in H2. cbn [app] in H2.
  apply wpath_split in H2. destruct H2 as (d21 & d22 & H21 & H22 & ->). rewrite <- El in H21. exists d21. split; [exact H21|]. split; [eauto|].
  intros q d' Hq. destruct (wpath_head _ _ _ _ _ Hq) as (q' & ->). pose proof (wpath_app _ _ _ _ _ _ _ _ H1 Hq) as G1.
  pose proof (wpath_app _ _ _ _ _ _ _ _ G1 H22) as G2. specialize (Hmin _ _ G2). lia. Qed.

Section U.
Variables (g : graph) (a e : A) (path : list A) (z : Z).
Hypothesis W : wf g.
Hypothesis Hn : nonneg g.
Hypothesis Ha : In a (nodes g).
Hypothesis Hp : wpath (edge g) a path e z.
Hypothesis Hmin : forall p d, wpath (edge g) a p e d -> z <= d.

Lemma section_good p1 h t p2 : path = p1 ++ (h :: t) ++ p2 ->
  exists d, returns (fun n => distance_from_path n g (h :: t)) (Ok d) /\ good g h (last (h :: t) h) (d, h :: t).
Proof. intros Ep. rewrite Ep in Hp. destruct (sub_shortest _ _ _ _ _ _ _ _ Hp Hmin) as (d & Hw & Hd).
  assert (forall x, In x (h :: t) -> In x (nodes g)) as Hin.
  { intros x Hx. apply (wpath_in_nodes g a (p1 ++ (h :: t) ++ p2) e z W Ha Hp). apply in_or_app. right. apply in_or_app. auto. }
  destruct (distance_from_path_spec g h t W Hn) as (d' & Hl & Hr); [apply Hin; cbn; auto|intros; apply Hin; cbn; auto|].
  assert (d' = Fin d) as -> by (eapply legs_fun; [exact Hl|]; eapply legs_wpath; eauto).
  exists (Fin d). split; [exact Hr|]. split; [exact Hd|exact Hw]. Qed.

Lemma cgood_dset c x y r : cgood g c -> good g x y r -> cgood g (dset (x, y) r c).
Proof. intros Hc Hr u v r'. rewrite dget_dset. destruct (eq_dec (u, v) (x, y)) as [Eq|_]; [|apply Hc]. intros E. inv Eq. inv E. exact Hr. Qed.
Lemma ckeeps_dset (c : cache_t A) k r : ckeeps c (dset k r c).
Proof. intros k' H. apply In_dkeys_dset. auto. Qed.

Lemma inner_good k : forall i c, cgood g c ->
  exists c', returns (fun n => cache_inner n g path i k c) (Ok c') /\ cgood g c' /\ ckeeps c c' /\
    (i = 0%nat -> (3 <= length path)%nat -> (1 <= k)%nat -> In (hd a path, last path (hd a path)) (dkeys c')).
Proof. induction k as [|k IH]; intros i c Hc; cbn [cache_inner].
  - exists c. splits; auto; [apply returns_const; discriminate|intros ? ?; assumption|lia].
  - set (section := skipn i (firstn (length path - i) path)).
    assert (exists p1 p2, path = p1 ++ section ++ p2) as (p1 & p2 & Ep).
    { exists (firstn i (firstn (length path - i) path)), (skipn (length path - i) path). unfold section. rewrite app_assoc, firstn_skipn. symmetry. apply firstn_skipn. }
    destruct (length section <? 3)%nat eqn:El.
    { exists c. splits; auto; [apply returns_const; discriminate|intros ? ?; assumption|]. intros -> Hl _. exfalso. apply Nat.ltb_lt in El.
      unfold section in El. cbn [skipn] in El. rewrite Nat.sub_0_r, firstn_all in El. lia. }
    destruct section as [|h t] eqn:Es; [discriminate|].
    destruct (section_good p1 h t p2 Ep) as (d & Hr & Hg).
    destruct (IH (S i) (dset (h, last (h :: t) h) (d, h :: t) c)) as (c' & Hr' & Hc' & Hk & _); [apply cgood_dset; auto|].
    exists c'. splits; auto.
    + refine (returns_bind _ (fun n d => cache_inner n g path (S i) k (dset (h, last (h :: t) h) (d, h :: t) c)) d _ Hr _). exact Hr'.
    + intros x Hx. apply Hk, ckeeps_dset, Hx.
    + intros -> _ _. apply Hk, In_dkeys_dset. left.
      assert (path = h :: t) as -> by (unfold section in Es; cbn [skipn] in Es; rewrite Nat.sub_0_r, firstn_all in Es; exact Es). reflexivity. Qed.
Lemma tails_good k : forall p1 p2 c, path = p1 ++ p2 -> cgood g c ->
  exists c', returns (fun n => cache_tails n g p2 k c) (Ok c') /\ cgood g c' /\ ckeeps c c'.
Proof. induction k as [|k IH]; intros p1 p2 c Ep Hc; cbn [cache_tails].
  - exists c. splits; auto; [apply returns_const; discriminate|intros ? ?; assumption].
  - destruct p2 as [|h t]; [exists c; splits; auto; [apply returns_const; discriminate|intros ? ?; assumption]|].
    destruct (section_good p1 h t []) as (d & Hr & Hg); [rewrite app_nil_r; exact Ep|].
    destruct (IH (p1 ++ [h]) t (dset (h, last (h :: t) h) (d, h :: t) c)) as (c' & Hr' & Hc' & Hk); [rewrite <- app_assoc; exact Ep|apply cgood_dset; auto|].
    exists c'. splits; auto.
    + refine (returns_bind _ (fun n d => cache_tails n g t k (dset (h, last (h :: t) h) (d, h :: t) c)) d _ Hr _). exact Hr'.
    + intros x Hx. apply Hk, ckeeps_dset, Hx. Qed.
Lemma update_good c : cgood g c -> exists c', returns (fun n => update_cache n g path c) (Ok c') /\ cgood g c' /\ In (a, e) (dkeys c').
Proof. intros Hc. destruct (wpath_head _ _ _ _ _ Hp) as (t & Ep).
  assert (hd a path = a /\ last path a = e) as [Hh Hl].
  { split; [rewrite Ep; reflexivity|]. apply (path_last (erel (edge g)) a path e a). eapply wpath_path; eauto. }
  assert (exists c1, returns (fun n => if (length path <=? 2)%nat then d <- distance_from_path n g path ;; Ok (dset (a, last path a) (d, path) c) else Ok c) (Ok c1) /\
    cgood g c1 /\ ((length path <= 2)%nat -> In (a, e) (dkeys c1))) as (c1 & R1 & G1 & K1).
  { destruct (Nat.leb_spec (length path) 2) as [Hle|Hle].
    - destruct (section_good [] a t []) as (d & Hr & Hg); [rewrite app_nil_r; exact Ep|]. rewrite <- Ep in Hr, Hg.
      exists (dset (a, last path a) (d, path) c). splits; [|apply cgood_dset; auto|].
      + apply (returns_bind_ok _ (fun d => dset (a, last path a) (d, path) c) d Hr).
      + intros _. apply In_dkeys_dset. left. congruence.
    - exists c. splits; auto; [apply returns_const; discriminate|lia]. }
  destruct (inner_good (length path) 0 c1 G1) as (c2 & R2 & G2 & K2 & I2).
  destruct (tails_good (length path - 2) [] path c2 eq_refl G2) as (c3 & R3 & G3 & K3).
  exists c3. splits; auto.
  - unfold update_cache. rewrite Ep in *. cbv beta iota.
    refine (returns_bind _ (fun n c1 => c2 <- cache_inner n g (a :: t) 0 (length (a :: t)) c1 ;; cache_tails n g (a :: t) (length (a :: t) - 2) c2) c1 _ R1 _).
    refine (returns_bind _ (fun n c2 => cache_tails n g (a :: t) (length (a :: t) - 2) c2) c2 _ R2 _). exact R3.
  - apply K3. destruct (le_lt_dec (length path) 2) as [Hle|Hle]; [apply K2, K1, Hle|]. rewrite Hh, Hl in I2. apply I2; lia. Qed.
End U.

Context {H : Type} {EH : EqDec H}.
Variables (hash : list A -> H) (srt : list (Z * A) -> list (Z * A)).
Definition rgood g (rc : dict (A * A * H) (ext * list A)) : Prop :=
  forall x y h r, dget (x, y, h) rc = Some r -> exists av, hash av = h /\ sp_post g x y av r.
(** what one memoized query should answer *)
Definition query_ok g (q : A * A * option (list A)) (r : ext * list A) : Prop :=
  let '(s, e, av) := q in match av with None => good g s e r | Some av => sp_post g s e av r end.
Lemma sp_post_cong g x y S S' r : (forall u, In u S <-> In u S') -> sp_post g x y S r -> sp_post g x y S' r.
Proof. intros HS. assert (forall p, clear_of S p <-> clear_of S' p) as Hc.
  { intros p. unfold clear_of. split; intros Hc u Hu; specialize (Hc u Hu); rewrite ?HS in *; rewrite <- ?HS in *; auto. }
  destruct r as [[z|] p]; cbn.
  - intros (H1 & H2 & H3). splits; auto; [apply Hc, H2|]. intros p' d' Hp Hcl. apply (H3 p' d' Hp), Hc, Hcl.
  - intros (H1 & H3). splits; auto. intros p' d' Hp Hcl. apply (H3 p' d' Hp), Hc, Hcl. Qed.

Definition query_pre g (q : A * A * option (list A)) : Prop :=
  let '(s, e, av) := q in In s (nodes g) /\ In e (nodes g) /\ match av with None => True | Some av => ~ In s av /\ ~ In e av end.

Lemma cached_sp_spec g c rc q : wf g -> nonneg g -> (forall l, Permutation (srt l) l) ->
  (forall l l', hash l = hash l' -> forall u, In u l <-> In u l') ->
  query_pre g q -> cgood g c -> rgood g rc ->
  exists r c' rc', returns (fun n => cached_sp hash srt n g (c, rc) (fst (fst q)) (snd (fst q)) (snd q)) (Ok (r, (c', rc'))) /\
    query_ok g q r /\ cgood g c' /\ rgood g rc'.
Proof. destruct q as [[s e] av]. intros W Hn Hs Hh (Ps & Pe & Pav) Hc Hr. cbn [fst snd]. unfold cached_sp.
  assert (contains g s = true) as -> by (apply contains_In, Ps). assert (contains g e = true) as -> by (apply contains_In, Pe). cbn [negb].
  destruct av as [av|].
  - destruct Pav as [P1 P2]. destruct (dget (s, e, hash av) rc) as [r|] eqn:Er.
    + exists r, c, rc. splits; auto; [apply returns_const; discriminate|]. destruct (Hr _ _ _ _ Er) as (av' & Hav & Hpost).
      cbn. eapply sp_post_cong; [|exact Hpost]. apply Hh, Hav.
    + destruct (bidir_spec g s e av srt W Hn Hs Ps Pe P1 P2) as (r & Hret & Hpost).
      exists r, c, (dset (s, e, hash av) r rc). splits; auto.
      * apply (returns_bind_ok _ (fun r => (r, (c, dset (s, e, hash av) r rc))) r Hret).
      * intros x y h r'. rewrite dget_dset. destruct (eq_dec (x, y, h) (s, e, hash av)) as [Eq|_]; [|apply Hr]. intros E'. inv Eq. inv E'. eauto.
  - destruct (dget (s, e) c) as [r|] eqn:Er.
    + exists r, c, rc. splits; auto; [apply returns_const; discriminate|]. apply Hc, Er.
    + destruct (bidir_dist g s e srt W Hn Hs Ps Pe) as (d & p & Hret & Hd & Hw).
      assert (exists c', returns (fun n => if is_nil p then Ok (dset (s, e) (Inf, []) c) else update_cache n g p c) (Ok c') /\ cgood g c' /\ In (s, e) (dkeys c')) as (c' & R' & G' & K').
      { destruct d as [z|].
        - destruct (wpath_head _ _ _ _ _ Hw) as (t & Et). destruct Hd as [_ Hd].
          destruct (update_good g s e p z W Hn Ps Hw Hd c Hc) as (c' & R' & G' & K'). exists c'. splits; auto. rewrite Et in R' |- *. cbn [is_nil]. exact R'.
        - subst p. cbn [is_nil]. eexists. splits; [apply returns_const; discriminate| |apply In_dkeys_dset; auto].
          intros x y r. rewrite dget_dset. destruct (eq_dec (x, y) (s, e)) as [Eq|_]; [|apply Hc]. intros E'. inv Eq. inv E'. split; [exact Hd|reflexivity]. }
      destruct (dget_key _ _ K') as (r' & Hr'). exists r', c', rc. splits; auto; [|apply G', Hr'].
      refine (returns_bind _ (fun n r => c' <- (if is_nil (snd r) then Ok (dset (s, e) (Inf, []) c) else update_cache n g (snd r) c) ;;
        match dget (s, e) c' with None => Err KeyError | Some r' => Ok (r', (c', rc)) end) (d, p) _ Hret _). cbn [snd].
      refine (returns_bind _ (fun n c' => match dget (s, e) c' with None => Err KeyError | Some r' => Ok (r', (c', rc)) end) c' _ R' _).
      rewrite Hr'. apply returns_const. discriminate. Qed.

Lemma cached_seq_spec g : wf g -> nonneg g -> (forall l, Permutation (srt l) l) ->
  (forall l l', hash l = hash l' -> forall u, In u l <-> In u l') ->
  forall qs, (forall q, In q qs -> query_pre g q) -> forall c rc, cgood g c -> rgood g rc ->
  exists rs, returns (fun n => cached_seq hash srt n g (c, rc) qs) (Ok rs) /\ Forall2 (query_ok g) qs rs.
Proof. intros W Hn Hs Hh. induction qs as [|[[s e] av] qs IH]; intros Hq c rc Hc Hr; cbn [cached_seq].
  - exists []. split; [apply returns_const; discriminate|constructor].
  - destruct (cached_sp_spec g c rc (s, e, av) W Hn Hs Hh) as (r & c' & rc' & R1 & Q1 & G1 & G2); auto; [apply Hq; cbn; auto|].
    destruct (IH) with (c := c') (rc := rc') as (rs & R2 & F2); auto; [intros; apply Hq; cbn; auto|].
    exists (r :: rs). split; [|constructor; auto]. cbn [fst snd] in R1.
    refine (returns_bind _ (fun n (r : (ext * list A) * (cache_t A * dict (A * A * H) (ext * list A))) => let '(ans, st') := r in rest <- cached_seq hash srt n g st' qs ;; Ok (ans :: rest)) (r, (c', rc')) _ R1 _).
    apply (returns_bind_ok _ (fun rest => r :: rest) rs R2). Qed.
End C.
