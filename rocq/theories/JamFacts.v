(** Facts about the traffic jam solver *)
From Verif Require Import Prelude PreludeFacts Base BaseFacts BaseFacts2 BaseFacts3 Spec SpecFacts Loop SearchFacts BaseAlgFacts
  MaxFlowFacts HashFacts Sp SpFacts Bfs BfsFacts Fw DmFacts TrafficSpec Traffic TrafficFacts Jam.

Lemma foldM_ext {S X} (f f' : S -> X -> res S) l s : (forall s x, f s x = f' s x) -> foldM f l s = foldM f' l s.
Proof. intros H. revert s. induction l as [|x l IH]; intros s; cbn; [reflexivity|]. rewrite H. destruct (f' s x); cbn; auto. Qed.
Lemma loop_ext {S R} (f f' : S -> S + res R) n s : (forall s, f s = f' s) -> loop n f s = loop n f' s.
Proof. intros H. revert s. induction n as [|n IH]; intros s; cbn; [reflexivity|]. rewrite H. destruct (f' s); auto. Qed.

(** ** positions *)
Section Pos.
Context {L N : Type} {EL : EqDec L} {EN : EqDec N}.
Notation state := (list (L * N)).
Implicit Types (s t : state).
Definition upd s (l : L) (b : N) : state := map (fun p => if eq_dec (fst p) l then (l, b) else p) s.
Lemma dkeys_upd s l b : dkeys (upd s l b) = dkeys s.
Proof. unfold upd, dkeys. rewrite map_map. apply map_ext. intros [k v]. cbn. destruct (eq_dec k l); cbn; congruence. Qed.
Lemma upd_dset s l b : NoDup (dkeys s) -> In l (dkeys s) -> upd s l b = dset l b s.
Proof. intros D H. induction s as [|[k v] s IH]; [destruct H|]. cbn in *. apply NoDup_cons_iff in D. destruct D as [D1 D2].
  destruct (eq_dec k l) as [->|Hne].
  - destruct (eq_dec l l); [|congruence]. f_equal. unfold upd. rewrite <- (map_id s) at 2. apply map_ext_in. intros [k' v'] Hk. cbn. destruct (eq_dec k' l) as [->|]; [|reflexivity].
    exfalso. apply D1. apply in_map_iff. exists (l, v'). auto.
  - destruct (eq_dec l k); [congruence|]. f_equal. apply IH; [exact D2|]. destruct H; [congruence|assumption]. Qed.
Lemma dset_dset s l a b : dset l a (dset l b s) = dset l a s.
Proof. induction s as [|[k v] s IH]; cbn; [destruct (eq_dec l l); congruence|]. destruct (eq_dec l k) as [->|]; cbn; [destruct (eq_dec k k); congruence|]. destruct (eq_dec l k); congruence. Qed.
Lemma dget_dvals s l a : dget l s = Some a -> In a (dvals s).
Proof. intros H. apply dget_In in H. apply in_map_iff. exists (l, a). auto. Qed.
Lemma In_dvals s a : In a (dvals s) -> exists l, In (l, a) s.
Proof. intros H. apply in_map_iff in H. destruct H as ([l b] & E & H). cbn in E. subst. eauto. Qed.
Lemma dset_inj s l b l' b' : In l (dkeys s) -> ~ In b (dvals s) -> dset l b s = dset l' b' s -> l = l' /\ b = b'.
Proof. intros Hl Hb E. assert (dget l (dset l b s) = Some b) as H1 by (rewrite dget_dset; destruct (eq_dec l l); congruence). rewrite E, dget_dset in H1.
  destruct (eq_dec l l') as [->|Hne]; [split; congruence|]. apply dget_dvals in H1. contradiction. Qed.
Lemma In_dset s l b k c : NoDup (dkeys s) -> In (k, c) (dset l b s) -> (k = l /\ c = b) \/ (k <> l /\ In (k, c) s).
Proof. intros D H. apply (NoDup_dset l b) in D as D'. apply (In_dget k c _ D') in H. rewrite dget_dset in H. destruct (eq_dec k l) as [->|]; [left; split; congruence|right]. split; [assumption|]. apply dget_In, H. Qed.
Lemma state_moves_same s : state_moves s s = [].
Proof. induction s as [|p s IH]; [reflexivity|]. cbn [state_moves]. rewrite IH. destruct (eq_dec p p); [reflexivity|congruence]. Qed.
Lemma state_moves_dset s l a b : NoDup (dkeys s) -> dget l s = Some a -> a <> b -> state_moves s (dset l b s) = [[(l, (a, b))]].
Proof. intros D H Hab. induction s as [|[k v] s IH]; [discriminate|]. cbn [dget dset dkeys map fst] in *. apply NoDup_cons_iff in D. destruct D as [D1 D2].
  destruct (eq_dec l k) as [->|Hne].
  - inversion H; subst v. cbn [state_moves]. rewrite state_moves_same. destruct (eq_dec (k, a) (k, b)) as [E|]; [inversion E; congruence|]. reflexivity.
  - cbn [state_moves]. rewrite IH by auto. destruct (eq_dec (k, v) (k, v)); [reflexivity|congruence]. Qed.
End Pos.

(** ** queues *)
Section Queue.
Context {L N : Type} {EL : EqDec L} {EN : EqDec N}.
Lemma insort_e_perm (x : entry L N) q : Permutation (insort_e x q) (x :: q).
Proof. induction q as [|y q IH]; cbn; [reflexivity|]. destruct (entry_lt x y); [reflexivity|]. rewrite IH. apply perm_swap. Qed.
Lemma qremove_map (s : list (L * N)) (q : list (entry L N)) : map e_loads (qremove s q) = lremove s (map e_loads q).
Proof. induction q as [|y q IH]; [reflexivity|]. cbn [qremove map lremove]. destruct (eq_dec (e_loads y) s) as [E|E], (eq_dec s (e_loads y)) as [E'|E']; try congruence. cbn [map]. rewrite IH. reflexivity. Qed.
End Queue.

Section Jam.
Context {L N O : Type} {EL : EqDec L} {EN : EqDec N}.
Notation graph := (graph N O Z).
Notation state := (list (L * N)).
Context (srt : list (Z * N) -> list (Z * N)) (Hsrt : forall l, Permutation (srt l) l)
  (ordS : list state -> list state) (HordS : forall l, Permutation (ordS l) l) (now : nat -> Z)
  (g : graph) (W : wf g) (all : dict L (load N)) (Hall : NoDup (dkeys all)).
Context (Hst : forall l ld, dget l all = Some ld -> In (ld_start ld) (nodes g)).
Context (Hen : forall l ld x, dget l all = Some ld -> In x (ld_ends ld) -> In x (nodes g)).
Definition S0 : state := map (fun x => (fst x, ld_start (snd x))) all.
Definition goal (s : state) : Prop := dkeys s = dkeys all /\ NoDup (dvals s) /\ forall l a, In (l, a) s -> exists ld, dget l all = Some ld /\ In a (ld_ends ld).
Context (finals : list state) (Hfin : forall s, In s finals <-> goal s) (Hfnd : NoDup finals).
Context (dms : dict L (dict N Z)) (Hdms : forall l, In l (dkeys all) -> exists m, dget l dms = Some m /\ m <> []).
Implicit Types (s x : state) (J : jam L N).

Lemma gradient_ok s : dkeys s = dkeys all -> exists z, gradient dms s = Ok z.
Proof. intros E. unfold gradient. assert (forall k v, In (k, v) s -> exists d, jam_distance dms k v = Ok d) as H.
  { intros k v Hk. destruct (Hdms k) as (m & Hm & Hne); [rewrite <- E; apply in_map_iff; exists (k, v); auto|]. unfold jam_distance. rewrite Hm.
    destruct (dget v m) as [d|]; [eauto|]. destruct m as [|[k' v'] m]; [congruence|]. cbn. eauto. }
  clear E. generalize 0%Z. induction s as [|[k v] s IH]; intros z; cbn; [eauto|]. destruct (H k v (or_introl eq_refl)) as [d ->]. cbn. apply IH. intros k' v' H'. apply H. right. exact H'. Qed.

Definition legal s s' (d : Z) : Prop := exists l a b ld, dkeys s = dkeys all /\ dget l all = Some ld /\ dget l s = Some a /\ ~ In b (dvals s) /\ edge g a b = Some d /\
  s' = dset l b s /\ (~ In b (ld_proh ld) \/ In b (ld_ends ld)).
Lemma legal_fun s s' d d' : legal s s' d -> legal s s' d' -> d = d'.
Proof. intros (l & a & b & ld & K & A & G & B & E & -> & _) (l' & a' & b' & ld' & K' & A' & G' & B' & E' & Q & _).
  apply dset_inj in Q; [|eapply dget_Some_key; eauto|exact B]. destruct Q as [<- <-]. congruence. Qed.

Definition ok_state (fwd : bool) s : Prop := dkeys s = dkeys all /\
  (forall l a, In (l, a) s -> In a (nodes g) /\ exists ld, dget l all = Some ld /\ (~ In a (ld_proh ld) \/ (if fwd then a = ld_start ld else In a (ld_ends ld)))) /\
  (fwd = false -> NoDup (dvals s)).

Lemma In_options fwd s l d b : In (l, (d, b)) (jam_options srt fwd g all s) <->
  exists a ld, In (l, a) s /\ dget l all = Some ld /\ (if fwd then edge g a b = Some d else edge g b a = Some d) /\ ~ In b (dvals s) /\ ~ In b (ld_proh ld).
Proof. unfold jam_options. rewrite in_flat_map. split.
  - intros ([k a] & Hk & H). cbn [fst snd] in H. destruct (dget k all) as [ld|] eqn:Ek; [|destruct H]. apply in_map_iff in H. destruct H as (o & E & H). inversion E; subst k o.
    apply (Permutation_in _ (Hsrt _)) in H. apply in_map_iff in H. destruct H as (e & E' & H). apply filter_In in H. destruct H as [H Hb]. apply andb_true_iff in Hb. destruct Hb as [B1 B2]. apply negb_true_iff, mem_notIn in B1, B2.
    exists a, ld. destruct fwd.
    + apply In_edges_from in H; [|exact W]. destruct H as (y & v & -> & He). cbn in *. inversion E'; subst. auto.
    + apply In_edges_to in H; [|exact W]. destruct H as (y & v & -> & He). cbn in *. inversion E'; subst. auto.
  - intros (a & ld & Hk & Hl & He & B1 & B2). exists (l, a). split; [exact Hk|]. cbn [fst snd]. rewrite Hl. apply in_map_iff. exists (d, b). split; [reflexivity|].
    apply (Permutation_in _ (Permutation_sym (Hsrt _))). apply in_map_iff. apply mem_notIn in B1, B2. destruct fwd.
    + exists (a, b, d). split; [reflexivity|]. apply filter_In. split; [apply In_edges_from; [exact W|]; exists b, d; auto|]. cbn. rewrite B1, B2. reflexivity.
    + exists (b, a, d). split; [reflexivity|]. apply filter_In. split; [apply In_edges_to; [exact W|]; exists b, d; auto|]. cbn. rewrite B1, B2. reflexivity. Qed.

(** an option leads to a state of the same kind over a legal step *)
Lemma option_ok fwd s l d b : ok_state fwd s -> In (l, (d, b)) (jam_options srt fwd g all s) ->
  ok_state fwd (upd s l b) /\ (if fwd then legal s (upd s l b) d else legal (upd s l b) s d).
Proof. intros (K & H & ND) Ho. apply In_options in Ho. destruct Ho as (a & ld & Hk & Hl & He & B1 & B2).
  assert (NoDup (dkeys s)) as D by (rewrite K; exact Hall). assert (In l (dkeys s)) as Hlk by (apply in_map_iff; exists (l, a); auto).
  assert (dget l s = Some a) as Ha by (apply In_dget; auto). rewrite (upd_dset s l b D Hlk).
  assert (In b (nodes g)) as Hb. { assert (has_edge g a b \/ has_edge g b a) as [Q|Q] by (destruct fwd; [left|right]; exists d; exact He); apply has_edge_nodes in Q; tauto. }
  assert (ok_state fwd (dset l b s)) as Ok'.
  { hnf; splits.
    - rewrite dkeys_dset_in by exact Hlk. exact K.
    - intros l' a' H'. apply In_dset in H'; [|exact D]. destruct H' as [[-> ->]|[_ H']]; [|apply H, H']. split; [exact Hb|]. exists ld. auto.
    - intros Ef. apply NoDup_dvals_dset; auto. }
  split; [exact Ok'|]. destruct fwd.
  - exists l, a, b, ld. splits; auto.
  - specialize (ND eq_refl). exists l, b, a, ld. splits; auto.
    + apply Ok'.
    + rewrite dget_dset. destruct (eq_dec l l); congruence.
    + intros C. apply (dvals_dset_in s l b a D ND B1 a Ha) in C. destruct C as [->|[_ C]]; [|congruence]. apply B1, (dget_dvals s l), Ha.
    + rewrite dset_dset. symmetry. apply dset_same, Ha.
    + destruct (H l a Hk) as (_ & ld' & Hl' & Hp). assert (ld' = ld) by congruence. subst. exact Hp. Qed.

Definition qs (h : half L N) : list state := map e_loads (h_queue h).
Record HI (fwd : bool) (M : Base.graph state unit Z) (h : half L N) : Prop := {
  hi_nd : NoDup (qs h);
  hi_kd : NoDup (dkeys (h_edge h));
  hi_ks : forall x, In x (dkeys (h_edge h)) <-> In x (qs h);
  hi_ev : forall x e, dget x (h_edge h) = Some e -> e_loads e = x;
  hi_dj : forall x, In x (qs h) -> ~ In x (h_visited h);
  hi_ok : forall x, In x (qs h) \/ In x (h_visited h) -> ok_state fwd x;
  hi_rc : forall x, In x (qs h) \/ In x (h_visited h) -> if fwd then reach (has_edge M) S0 x else exists e, In e finals /\ reach (has_edge M) x e;
  hi_rt : forall x, (if fwd then x = S0 else In x finals) -> In x (qs h) \/ In x (h_visited h) }.
Definition MI (M : Base.graph state unit Z) : Prop := reachable M /\ In S0 (nodes M) /\ forall s s' d, edge M s s' = Some d -> legal s s' d.
Definition arrow (fwd : bool) (M : Base.graph state unit Z) s s' : Prop := if fwd then has_edge M s s' else has_edge M s' s.
Definition covered (fwd : bool) (M : Base.graph state unit Z) (h : half L N) (ov : list state) s (o : L * (Z * N)) : Prop :=
  arrow fwd M s (upd s (fst o) (snd (snd o))) /\ (In (upd s (fst o) (snd (snd o))) (qs h) \/ In (upd s (fst o) (snd (snd o))) (h_visited h) \/ In (upd s (fst o) (snd (snd o))) ov).

Lemma HI_mono fwd M M' h : (forall a b, has_edge M a b -> has_edge M' a b) -> HI fwd M h -> HI fwd M' h.
Proof. intros Hm []. constructor; auto. intros x Hx. specialize (hi_rc0 x Hx). destruct fwd; [apply (reach_mono _ _ _ _ Hm), hi_rc0|].
  destruct hi_rc0 as (e & He & Hr). exists e. split; [exact He|apply (reach_mono _ _ _ _ Hm), Hr]. Qed.
Definition Inv1 (fwd : bool) J : Prop := j_stop J = false /\ MI (j_mov J) /\ HI fwd (j_mov J) (j_self J) /\ HI (negb fwd) (j_mov J) (j_other J).
Definition ext_of J J' : Prop := j_other J' = j_other J /\ h_visited (j_self J') = h_visited (j_self J) /\ (forall x, In x (qs (j_self J)) -> In x (qs (j_self J'))) /\
  (forall a b, has_edge (j_mov J) a b -> has_edge (j_mov J') a b).

Lemma jam_option_spec fuel fwd rof (s : entry L N) J o : Inv1 fwd J -> In (e_loads s) (h_visited (j_self J)) -> In o (jam_options srt fwd g all (e_loads s)) ->
  exists J', jam_option ordS fuel fwd rof S0 finals dms s J o = Ok J' /\ Inv1 fwd J' /\ ext_of J J' /\ covered fwd (j_mov J') (j_self J') (h_visited (j_other J')) (e_loads s) o.
Proof. intros (St & M1 & Hs & Ho) Hv Hin. destruct o as [l [d b]]. unfold jam_option. rewrite St. fold (upd (e_loads s) l b).
  assert (ok_state fwd (e_loads s)) as Oks by (apply (hi_ok _ _ _ Hs); auto).
  destruct (option_ok fwd (e_loads s) l d b Oks Hin) as [OkN Hleg]. set (new := upd (e_loads s) l b) in *.
  destruct (gradient_ok new) as [z Hz]; [apply OkN|]. rewrite Hz. cbn [bind].
  set (a1 := if fwd then e_loads s else new). set (b1 := if fwd then new else e_loads s).
  assert (legal a1 b1 d) as Hl1 by (subst a1 b1; destruct fwd; exact Hleg).
  destruct M1 as (R1 & N1 & E1).
  assert (ext_ltb (match edge (j_mov J) a1 b1 with Some v => Fin v | None => Inf end) (Fin d) = false) as ->.
  { destruct (edge (j_mov J) a1 b1) as [v|] eqn:Ev; [|reflexivity]. rewrite (legal_fun _ _ _ _ (E1 _ _ _ Ev) Hl1). cbn. apply Z.ltb_irrefl. }
  destruct (reachable_add_edge (j_mov J) a1 b1 d R1) as (M' & -> & R' & E' & N' & _). cbn [bind].
  assert (forall x y, has_edge (j_mov J) x y -> has_edge M' x y) as Hmono. { intros x y [v Hxy]. unfold has_edge. rewrite E'. destruct (eq_dec x a1); [destruct (eq_dec y b1); eauto|eauto]. }
  assert (has_edge M' a1 b1) as Hnew. { exists d. rewrite E'. destruct (eq_dec a1 a1); [|congruence]. destruct (eq_dec b1 b1); congruence. }
  assert (arrow fwd M' (e_loads s) new) as Har by (subst a1 b1; destruct fwd; exact Hnew).
  assert (MI M') as MI'. { hnf; splits; [exact R'|apply N'; auto|]. intros x y w Hxy. rewrite E' in Hxy. destruct (eq_dec x a1) as [->|]; [|apply E1, Hxy]. destruct (eq_dec y b1) as [->|]; [|apply E1, Hxy]. inversion Hxy; subst w. exact Hl1. }
  pose proof (HI_mono _ _ _ _ Hmono Hs) as Hs'. pose proof (HI_mono _ _ _ _ Hmono Ho) as Ho'.
  assert (if fwd then reach (has_edge M') S0 new else exists e, In e finals /\ reach (has_edge M') new e) as Hrn.
  { pose proof (hi_rc _ _ _ Hs' (e_loads s) (or_intror Hv)) as K. destruct fwd; [eapply reach_snoc; [exact K|exact Hnew]|]. destruct K as (e & He & K). exists e. split; [exact He|]. eapply reach_cons; [exact Hnew|exact K]. }
  destruct (dget new (h_edge (j_self J))) as [ex|] eqn:Eex.
  - assert (e_loads ex = new) as Eld by (apply (hi_ev _ _ _ Hs) in Eex; exact Eex). assert (In new (qs (j_self J))) as Hq by (apply (hi_ks _ _ _ Hs); eapply dget_Some_key; eauto).
    destruct (entry_lt {| e_loads := new; e_dist := e_dist s + d; e_grad := Fin z |} ex).
    + rewrite Eld. assert (mem new (map e_loads (h_queue (j_self J))) = true) as -> by (apply mem_In, Hq).
      assert (forall x, In x (map e_loads (insort_e {| e_loads := new; e_dist := (e_dist s + d)%Z; e_grad := Fin z |} (qremove new (h_queue (j_self J))))) <-> In x (qs (j_self J))) as Hqs.
      { intros x. pose proof (Permutation_map e_loads (insort_e_perm {| e_loads := new; e_dist := (e_dist s + d)%Z; e_grad := Fin z |} (qremove new (h_queue (j_self J))))) as P. cbn [map e_loads] in P. rewrite qremove_map in P.
        pose proof (lremove_perm new (qs (j_self J)) Hq) as P2. split; intros Hx.
        - apply (Permutation_in _ (Permutation_sym P2)). apply (Permutation_in _ P), Hx.
        - apply (Permutation_in _ (Permutation_sym P)). apply (Permutation_in _ P2), Hx. }
      eexists. split; [reflexivity|]. splits.
      * split; [reflexivity|]. cbn [j_mov j_self j_other]. splits; auto. destruct Hs' as [A1 A2 A3 A4 A5 A6 A7 A8]. constructor; unfold qs; cbn [h_queue h_edge h_visited].
        -- eapply Permutation_NoDup; [apply Permutation_sym, Permutation_map, insort_e_perm|]. cbn [map e_loads]. rewrite qremove_map. apply (Permutation_NoDup (lremove_perm new (qs (j_self J)) Hq)), A1.
        -- apply NoDup_dset, A2.
        -- intros x. rewrite In_dkeys_dset, Hqs. rewrite A3. split; [intros [->|]; auto|auto].
        -- intros x e. rewrite dget_dset. destruct (eq_dec x new) as [->|]; [intros Q; inversion Q; reflexivity|apply A4].
        -- intros x Hx. apply A5, Hqs, Hx.
        -- intros x Hx. apply A6. rewrite Hqs in Hx. exact Hx.
        -- intros x Hx. apply A7. rewrite Hqs in Hx. exact Hx.
        -- intros x Hx. rewrite Hqs. apply A8, Hx.
      * hnf; splits; auto. intros x Hx. apply Hqs, Hx.
      * split; [exact Har|]. left. apply Hqs, Hq.
    + eexists. split; [reflexivity|]. splits.
      * hnf; splits; auto.
      * hnf; splits; auto.
      * split; [exact Har|]. left. exact Hq.
  - destruct (mem new (h_visited (j_self J)) || mem new (h_visited (j_other J))) eqn:Em; cbn [j_other].
    + rewrite Em. eexists. split; [reflexivity|]. splits.
      * hnf; splits; auto.
      * hnf; splits; auto.
      * split; [exact Har|]. right. apply orb_true_iff in Em. rewrite !mem_In in Em. exact Em.
    + rewrite Em. apply orb_false_iff in Em. destruct Em as [Em1 ->]. apply mem_notIn in Em1.
      assert (forall x, In x (map e_loads (insort_e {| e_loads := new; e_dist := (e_dist s + d)%Z; e_grad := Fin z |} (h_queue (j_self J)))) <-> x = new \/ In x (qs (j_self J))) as Hqs.
      { intros x. pose proof (Permutation_map e_loads (insort_e_perm {| e_loads := new; e_dist := (e_dist s + d)%Z; e_grad := Fin z |} (h_queue (j_self J)))) as P. cbn [map e_loads] in P. split; intros Hx.
        - apply (Permutation_in _ P) in Hx. destruct Hx as [<-|]; auto.
        - apply (Permutation_in _ (Permutation_sym P)). cbn. destruct Hx as [->|]; auto. }
      assert (~ In new (qs (j_self J))) as Hnq. { intros C. apply (hi_ks _ _ _ Hs) in C. apply dget_None in Eex. contradiction. }
      eexists. split; [reflexivity|]. splits.
      * split; [reflexivity|]. cbn [j_mov j_self j_other]. splits; auto. destruct Hs' as [A1 A2 A3 A4 A5 A6 A7 A8]. constructor; unfold qs; cbn [h_queue h_edge h_visited].
        -- eapply Permutation_NoDup; [apply Permutation_sym, Permutation_map, insort_e_perm|]. cbn [map e_loads]. constructor; auto.
        -- apply NoDup_dset, A2.
        -- intros x. rewrite In_dkeys_dset, Hqs, A3. tauto.
        -- intros x e. rewrite dget_dset. destruct (eq_dec x new) as [->|]; [intros Q; inversion Q; reflexivity|apply A4].
        -- intros x Hx. apply Hqs in Hx. destruct Hx as [->|Hx]; [exact Em1|apply A5, Hx].
        -- intros x Hx. rewrite Hqs in Hx. destruct Hx as [[->|Hx]|Hx]; auto.
        -- intros x Hx. rewrite Hqs in Hx. destruct Hx as [[->|Hx]|Hx]; [exact Hrn|apply A7; auto|apply A7; auto].
        -- intros x Hx. rewrite Hqs. destruct (A8 x Hx); auto.
      * hnf; splits; auto. intros x Hx. apply Hqs. auto.
      * split; [exact Har|]. left. apply Hqs. auto. Qed.

Definition closed (fwd : bool) (M : Base.graph state unit Z) (h : half L N) (ov : list state) : Prop :=
  forall x o, In x (h_visited h) -> In o (jam_options srt fwd g all x) -> covered fwd M h ov x o.
Lemma covered_ext fwd M h ov M' h' ov' x o : (forall a b, has_edge M a b -> has_edge M' a b) -> (forall y, In y (qs h) \/ In y (h_visited h) -> In y (qs h') \/ In y (h_visited h')) -> incl ov ov' ->
  covered fwd M h ov x o -> covered fwd M' h' ov' x o.
Proof. intros H1 H2 H3 [C1 C2]. split; [destruct fwd; apply H1, C1|]. destruct C2 as [C|[C|C]]; [destruct (H2 _ (or_introl C)); auto|destruct (H2 _ (or_intror C)); auto|right; right; apply H3, C]. Qed.

Lemma jam_fold_spec fuel fwd rof (s : entry L N) : forall os J, Inv1 fwd J -> In (e_loads s) (h_visited (j_self J)) -> incl os (jam_options srt fwd g all (e_loads s)) ->
  exists J', foldM (jam_option ordS fuel fwd rof S0 finals dms s) os J = Ok J' /\ Inv1 fwd J' /\ ext_of J J' /\ forall o, In o os -> covered fwd (j_mov J') (j_self J') (h_visited (j_other J')) (e_loads s) o.
Proof. induction os as [|o os IH]; intros J HI Hv Hi.
  - exists J. splits; [reflexivity|exact HI|hnf; splits; auto|intros o []].
  - destruct (jam_option_spec fuel fwd rof s J o HI Hv (Hi o (or_introl eq_refl))) as (J1 & E1 & I1 & X1 & C1). cbn [foldM]. rewrite E1. cbn [bind]. pose proof X1 as (Y1 & Y2 & Y3 & Y4).
    destruct (IH J1 I1) as (J' & E' & I' & X' & C'); [rewrite Y2; exact Hv|intros x Hx; apply Hi; right; exact Hx|]. destruct X' as (Z1 & Z2 & Z3 & Z4).
    exists J'. splits; [exact E'|exact I'| |].
    + hnf; splits; [congruence|congruence|auto|auto].
    + intros o' [<-|Ho']; [|apply C', Ho']. eapply covered_ext; [exact Z4| | |exact C1].
      * intros y [Hy|Hy]; [left; apply Z3, Hy|right; rewrite Z2; exact Hy].
      * rewrite Z1. apply incl_refl. Qed.

Definition seen_by (h : half L N) (x : state) : Prop := In x (qs h) \/ In x (h_visited h).
Lemma jam_find_spec fuel fwd rof J : Inv1 fwd J -> closed fwd (j_mov J) (j_self J) (h_visited (j_other J)) -> closed (negb fwd) (j_mov J) (j_other J) (h_visited (j_self J)) ->
  exists J', jam_find srt ordS fuel fwd rof g all S0 finals dms J = Ok J' /\ Inv1 fwd J' /\ closed fwd (j_mov J') (j_self J') (h_visited (j_other J')) /\ closed (negb fwd) (j_mov J') (j_other J') (h_visited (j_self J')) /\
    j_other J' = j_other J /\
    match h_queue (j_self J) with [] => J' = J | s :: _ => ~ In (e_loads s) (h_visited (j_self J)) /\ h_visited (j_self J') = sadd (e_loads s) (h_visited (j_self J)) end /\
    (forall x, seen_by (j_self J) x -> seen_by (j_self J') x).
Proof. intros HI0 C1 C2. unfold jam_find. destruct (h_queue (j_self J)) as [|s q] eqn:Eq; [exists J; splits; auto|]. pose proof HI0 as (St & M1 & Hs & Ho).
  assert (In (e_loads s) (qs (j_self J))) as Hin by (unfold qs; rewrite Eq; left; reflexivity).
  assert (dmem (e_loads s) (h_edge (j_self J)) = true) as -> by (apply dmem_key, (hi_ks _ _ _ Hs), Hin).
  set (J1 := {| j_mov := j_mov J; j_self := {| h_queue := q; h_edge := ddel (e_loads s) (h_edge (j_self J)); h_visited := sadd (e_loads s) (h_visited (j_self J)) |}; j_other := j_other J; j_max := j_max J; j_stop := j_stop J |}).
  assert (forall x, In x (qs (j_self J)) \/ In x (h_visited (j_self J)) <-> In x (qs (j_self J1)) \/ In x (h_visited (j_self J1))) as Hsame.
  { intros x. subst J1. unfold qs. cbn. rewrite Eq, In_sadd. cbn. split; [intros [[->|?]|?]; auto|intros [?|[->|?]]; auto]. }
  assert (Inv1 fwd J1) as I1.
  { split; [exact St|]. splits; [exact M1| |exact Ho]. destruct Hs as [A1 A2 A3 A4 A5 A6 A7 A8]. constructor.
    - unfold qs in *. rewrite Eq in A1. cbn in A1. apply NoDup_cons_iff in A1. apply A1.
    - apply NoDup_ddel, A2.
    - intros x. unfold J1, qs. cbn [j_self h_edge h_queue]. rewrite In_dkeys_ddel by exact A2. rewrite A3. unfold qs in *. rewrite Eq in *. cbn in A1 |- *. apply NoDup_cons_iff in A1. split; [intros [[->|?] ?]; [congruence|assumption]|]. intros Hx. split; [auto|]. intros ->. tauto.
    - intros x e. unfold J1. cbn [j_self h_edge]. rewrite dget_ddel by exact A2. destruct (eq_dec x (e_loads s)); [discriminate|apply A4].
    - intros x Hx. unfold J1 in *. unfold qs in *. cbn [j_self h_queue h_visited] in *. rewrite Eq in A1, A5. cbn [map] in A1, A5. apply NoDup_cons_iff in A1. rewrite In_sadd. intros [->|C]; [tauto|]. apply (A5 x); [right; exact Hx|exact C].
    - intros x Hx. apply Hsame in Hx. apply A6, Hx.
    - intros x Hx. apply Hsame in Hx. apply A7, Hx.
    - intros x Hx. apply Hsame, A8, Hx. }
  destruct (jam_fold_spec fuel fwd rof s (jam_options srt fwd g all (e_loads s)) J1 I1) as (J' & E' & I' & (X1 & X2 & X3 & X4) & C'); [apply In_sadd; auto|apply incl_refl|].
  exists J'. splits; auto.
  - intros x o Hx Hop. rewrite X2 in Hx. cbn in Hx. apply In_sadd in Hx. destruct Hx as [->|Hx]; [apply C', Hop|]. eapply covered_ext; [| | |apply (C1 x o Hx Hop)].
    + exact X4.
    + intros y Hy. apply Hsame in Hy. destruct Hy as [Hy|Hy]; [left; apply X3, Hy|right; rewrite X2; exact Hy].
    + rewrite X1. apply incl_refl.
  - rewrite X1. intros x o Hx Hop. eapply covered_ext; [exact X4| | |apply (C2 x o Hx Hop)].
    + auto.
    + rewrite X2. intros y Hy. apply In_sadd. auto.
  - apply (hi_dj _ _ _ Hs), Hin.
  - intros x Hx. apply Hsame in Hx. destruct Hx as [Hx|Hx]; [left; apply X3, Hx|right; rewrite X2; exact Hx]. Qed.

(** all placements of the loads *)
Fixpoint placements (ids : list L) : list state := match ids with [] => [[]] | i :: t => flat_map (fun n => map (cons (i, n)) (placements t)) (nodes g) end.
Lemma In_placements : forall ids s, dkeys s = ids -> (forall l a, In (l, a) s -> In a (nodes g)) -> In s (placements ids).
Proof. induction ids as [|i ids IH]; intros s E H; destruct s as [|[k v] s]; cbn in E; try discriminate; [left; reflexivity|]. inversion E; subst. cbn. apply in_flat_map. exists v. split; [apply (H i v); left; reflexivity|].
  apply in_map. apply IH; [reflexivity|]. intros l a Hl. apply (H l a). right. exact Hl. Qed.

Definition Inv2 J : Prop := Inv1 true J /\ closed true (j_mov J) (j_self J) (h_visited (j_other J)) /\ closed false (j_mov J) (j_other J) (h_visited (j_self J)).
Definition work J : nat := unseen (placements (dkeys all)) (h_visited (j_self J)) + unseen (placements (dkeys all)) (h_visited (j_other J)).
Definition jam_round (fuel : nat) (rof : bool) J : res (jam L N) :=
  J <- jam_find srt ordS fuel true rof g all S0 finals dms J ;; if j_stop J then Ok J else
  J <- jam_find srt ordS fuel false rof g all S0 finals dms (swap_jam J) ;; Ok (swap_jam J).
Lemma jam_round_spec fuel rof J : Inv2 J -> exists J', jam_round fuel rof J = Ok J' /\ Inv2 J' /\ work J' <= work J /\ (h_queue (j_self J) <> [] \/ h_queue (j_other J) <> [] -> work J' < work J) /\
  (forall x, seen_by (j_self J) x -> seen_by (j_self J') x) /\ (forall x, seen_by (j_other J) x -> seen_by (j_other J') x).
Proof. intros (I1 & C1 & C2). unfold jam_round. destruct (jam_find_spec fuel true rof J I1 C1 C2) as (J1 & -> & I1' & C1' & C2' & O1 & D1 & G1). cbn [bind]. pose proof I1' as (St & M1 & H1 & H2). rewrite St.
  assert (Inv1 false (swap_jam J1)) as I2 by (hnf; cbn; auto).
  destruct (jam_find_spec fuel false rof (swap_jam J1) I2) as (J2 & -> & I2' & C3 & C4 & O2 & D2 & G2); [exact C2'|exact C1'|]. cbn [bind].
  exists (swap_jam J2). splits; [reflexivity| | | |cbn; rewrite O2; exact G1|cbn in *; rewrite O1 in G2; exact G2].
  - destruct I2' as (A1 & A2 & A3 & A4). hnf; splits; [hnf; cbn; auto|exact C4|exact C3].
  - unfold work. cbn. rewrite O2. cbn. assert (unseen (placements (dkeys all)) (h_visited (j_self J1)) <= unseen (placements (dkeys all)) (h_visited (j_self J))) as B1.
    { destruct (h_queue (j_self J)); [rewrite D1; lia|]. destruct D1 as [_ ->]. apply unseen_sadd_le. }
    assert (unseen (placements (dkeys all)) (h_visited (j_self J2)) <= unseen (placements (dkeys all)) (h_visited (j_other J))) as B2.
    { rewrite <- O1. cbn in D2. destruct (h_queue (j_other J1)); [rewrite D2; cbn; lia|]. destruct D2 as [_ ->]. apply unseen_sadd_le. }
    lia.
  - unfold work. cbn. rewrite O2. cbn. assert (unseen (placements (dkeys all)) (h_visited (j_self J1)) <= unseen (placements (dkeys all)) (h_visited (j_self J)) /\ (h_queue (j_self J) <> [] -> unseen (placements (dkeys all)) (h_visited (j_self J1)) < unseen (placements (dkeys all)) (h_visited (j_self J)))) as [B1 B1'].
    { destruct (h_queue (j_self J)) as [|e q] eqn:Eq; [rewrite D1; split; [lia|congruence]|]. destruct D1 as [D1 ->]. split; [apply unseen_sadd_le|intros _]. apply unseen_sadd_lt; [|exact D1].
      destruct I1 as (_ & _ & Hh & _). destruct (hi_ok _ _ _ Hh (e_loads e)) as (K1 & K2 & _); [left; unfold qs; rewrite Eq; left; reflexivity|]. apply In_placements; [exact K1|]. intros l a Hl. apply (K2 l a Hl). }
    assert (unseen (placements (dkeys all)) (h_visited (j_self J2)) <= unseen (placements (dkeys all)) (h_visited (j_other J)) /\ (h_queue (j_other J) <> [] -> unseen (placements (dkeys all)) (h_visited (j_self J2)) < unseen (placements (dkeys all)) (h_visited (j_other J)))) as [B2 B2'].
    { rewrite <- O1. cbn in D2. destruct (h_queue (j_other J1)) as [|e q] eqn:Eq; [rewrite D2; cbn; split; [lia|congruence]|]. destruct D2 as [D2 ->]. split; [apply unseen_sadd_le|intros _]. apply unseen_sadd_lt; [|exact D2].
      destruct (hi_ok _ _ _ H2 (e_loads e)) as (K1 & K2 & _); [left; unfold qs; rewrite Eq; left; reflexivity|]. apply In_placements; [exact K1|]. intros l a Hl. apply (K2 l a Hl). }
    intros [Hq|Hq]; [specialize (B1' Hq)|specialize (B2' Hq)]; lia. Qed.

(** the option return_on_first (and the time allowed for _match) has no influence *)
Lemma jam_option_dead fuel fuel' fwd rof rof' (s : entry L N) J o : jam_option ordS fuel fwd rof S0 finals dms s J o = jam_option ordS fuel' fwd rof' S0 finals dms s J o.
Proof. unfold jam_option. destruct (j_stop J); [reflexivity|]. destruct o as [l [d b]]. destruct (gradient dms _); [|reflexivity|reflexivity]. cbn [bind].
  destruct (ext_ltb _ _); [reflexivity|]. destruct (add_edge _ _ _ _ _); [|reflexivity|reflexivity]. cbn [bind j_other]. destruct (dget _ (h_edge (j_self J))); [reflexivity|].
  match goal with |- context [mem ?n (h_visited (j_self J)) || mem ?n (h_visited (j_other J))] => destruct (mem n (h_visited (j_self J))), (mem n (h_visited (j_other J))) end; reflexivity. Qed.
Lemma jam_find_dead fuel fuel' fwd rof rof' J : jam_find srt ordS fuel fwd rof g all S0 finals dms J = jam_find srt ordS fuel' fwd rof' g all S0 finals dms J.
Proof. unfold jam_find. destruct (h_queue (j_self J)); [reflexivity|]. destruct (dmem _ _); [|reflexivity]. apply foldM_ext. intros. apply jam_option_dead. Qed.
Lemma jam_round_dead fuel fuel' rof rof' J : jam_round fuel rof J = jam_round fuel' rof' J.
Proof. unfold jam_round. rewrite (jam_find_dead fuel fuel' true rof rof'). destruct (jam_find srt ordS fuel' true rof' g all S0 finals dms J); [|reflexivity|reflexivity]. cbn [bind]. destruct (j_stop x); [reflexivity|].
  rewrite (jam_find_dead fuel fuel' false rof rof'). reflexivity. Qed.
Lemma jam_step_dead fuel fuel' rof rof' st : jam_step srt ordS now fuel rof g all S0 finals dms st = jam_step srt ordS now fuel' rof' g all S0 finals dms st.
Proof. destruct st as [[J tm] i]. unfold jam_step. fold (jam_round fuel rof J). fold (jam_round fuel' rof' J). rewrite (jam_round_dead fuel fuel' rof rof'). reflexivity. Qed.

Lemma jam_search_spec (Q : jam L N -> Prop) rof J tm : (forall J J', Inv2 J -> Q J -> jam_round 0 false J = Ok J' -> Q J') -> Q J ->
  Inv2 J -> h_queue (j_self J) <> [] -> exists M tm' i, returns (fun n => loop n (jam_step srt ordS now n rof g all S0 finals dms) (J, tm, 0)) (Ok (M, tm', i)) /\
  MI M /\ t_limit tm' = t_limit tm /\ (t_limit tm = Inf -> t_expired tm = false -> t_expired tm' = false /\ exists J', Inv2 J' /\ j_mov J' = M /\ h_queue (j_self J') = [] /\ h_queue (j_other J') = [] /\ Q J').
Proof. intros HQ HQ0 H0 Hne.
  destruct (loop_returns_nat (jam_step srt ordS now 0 false g all S0 finals dms) (fun st => Inv2 (fst (fst st)) /\ Q (fst (fst st)) /\ (h_queue (j_self (fst (fst st))) <> [] \/ h_queue (j_other (fst (fst st))) <> []) /\ (t_limit (snd (fst st)) = t_limit tm) /\ (t_limit tm = Inf -> t_expired tm = false -> t_expired (snd (fst st)) = false))
    (fun st => work (fst (fst st))) (fun r => exists M tm' i, r = Ok (M, tm', i) /\ MI M /\ t_limit tm' = t_limit tm /\ (t_limit tm = Inf -> t_expired tm = false -> t_expired tm' = false /\ exists J', Inv2 J' /\ j_mov J' = M /\ h_queue (j_self J') = [] /\ h_queue (j_other J') = [] /\ Q J')))
    with (s := (J, tm, 0)) as (r & Hr & M & tm' & i & -> & Hrest).
  - intros [[J1 tm1] i] (I2 & HQ1 & Hq & Tl & Te). cbn [fst snd] in *. unfold jam_step. fold (jam_round 0 false J1).
    assert (exists b tm2, expired tm1 (now i) = (b, tm2) /\ t_limit tm2 = t_limit tm1 /\ (t_limit tm1 = Inf -> t_expired tm1 = false -> b = false /\ t_expired tm2 = false)) as (b & tm2 & -> & T1 & T2).
    { unfold expired. destruct tm1 as [li st c ex]. cbn. destruct ex; [exists true; eexists; splits; [reflexivity|reflexivity|discriminate]|]. destruct c as [|c].
      - exists false. eexists. splits; [reflexivity|reflexivity|]. cbn. intros -> _. auto.
      - exists false. eexists. splits; [reflexivity|reflexivity|]. auto. }
    destruct b.
    + split; [discriminate|]. exists (j_mov J1), tm2, (S i). splits; [reflexivity|apply I2|congruence|]. intros Hi He. destruct T2; [congruence|auto|discriminate].
    + destruct (jam_round_spec 0 false J1 I2) as (J2 & ER & I2' & W1 & W2 & _). pose proof (HQ J1 J2 I2 HQ1 ER) as HQ2. rewrite ER. pose proof I2' as ((St & M2 & _) & _). rewrite St. cbn [orb].
      destruct (is_nil (h_queue (j_self J2)) && is_nil (h_queue (j_other J2))) eqn:En.
      * split; [discriminate|]. exists (j_mov J2), tm2, (S i). splits; [reflexivity|exact M2|congruence|]. intros Hi He. split; [apply T2; [congruence|auto]|]. exists J2. apply andb_true_iff in En. destruct En as [E1 E2].
        splits; auto; [destruct (h_queue (j_self J2)); [reflexivity|discriminate]|destruct (h_queue (j_other J2)); [reflexivity|discriminate]].
      * cbn [fst snd]. splits; [exact I2'|exact HQ2| |congruence| |apply W2, Hq].
        -- apply andb_false_iff in En. destruct En as [En|En]; [left|right]; intros C; rewrite C in En; discriminate.
        -- intros Hi He. apply T2; [congruence|auto].
  - splits; auto.
  - exists M, tm', i. split; [|exact Hrest]. eapply returns_ext; [|exact Hr]. intros n. apply loop_ext. intros st. apply jam_step_dead. Qed.
End Jam.
