(** distance_map over numbers of any kind: proofs (DmFacts with a rounded addition). *)
From Coq Require Import Sorted.
From Verif Require Import Prelude PreludeFacts Base BaseFacts BaseFacts2 BaseFacts3 Spec SpecFacts Loop SearchFacts BaseAlgFacts SpFacts Fw FwFacts DmFacts GSp GSpec GSpFacts GDm.

Section GDm.
Context {A W : Type} {EA : EqDec A} (ar : arith W) (good : W -> Prop) (rk : W -> nat).
Hypothesis L : lawful ar good.
Hypothesis L2 : lawful2 ar good rk.
Implicit Types (x y n : A) (q : list A) (M : dict A W).
Definition gle (a b : W) : Prop := good a /\ good b /\ a_ltb ar b a = false.
Infix "<~" := gle (at level 70).
Lemma gle_refl a : good a -> a <~ a.
Proof. intros H. unfold gle. splits; auto. destruct (a_ltb ar a a) eqn:E; [|reflexivity]. rewrite (l_asym _ _ L a a H H E) in E. discriminate. Qed.
Lemma gle_trans a b c : a <~ b -> b <~ c -> a <~ c.
Proof. intros (H1 & H2 & H3) (_ & H4 & H5). unfold gle. splits; auto. apply (l_trans _ _ L a b c); auto. Qed.
Lemma gle_lt a b : good a -> good b -> a_ltb ar a b = true -> a <~ b.
Proof. intros H1 H2 H. unfold gle. splits; auto. apply (l_asym _ _ L a b); auto. Qed.
Lemma gle_mono a b w : a <~ b -> good w -> a_add ar a w <~ a_add ar b w.
Proof. intros (H1 & H2 & H3) Hw. unfold gle. splits; try (apply (l_add _ _ L); assumption). apply (l_mono _ _ L); auto. Qed.
Lemma gle_infl a w : good a -> good w -> a <~ a_add ar a w.
Proof. intros H1 H2. unfold gle. splits; auto; [apply (l_add _ _ L); assumption|]. apply (l_infl _ _ L); auto. Qed.

Variable rv : bool.
Lemma gdm_relax_spec d1 l : good d1 -> (forall x d, In (x, d) l -> good d) ->
  forall q M q' M', (forall x v, dget x M = Some v -> good v) -> fold_left (gdm_relax ar rv d1) l (q, M) = (q', M') ->
  exists new, q' = q ++ new /\ (forall x, In x new -> ~ In x (dkeys M)) /\
    (forall x, In x (dkeys M') <-> In x (dkeys M) \/ In x new) /\
    (forall x v, dget x M = Some v -> exists v', dget x M' = Some v' /\ v' <~ v /\ (v' = v \/ exists d, In (x, d) l /\ v' = a_add ar d1 d)) /\
    (forall x v', dget x M = None -> dget x M' = Some v' -> exists d, In (x, d) l /\ v' = a_add ar d1 d) /\
    (forall x d, In (x, d) l -> exists v', dget x M' = Some v' /\ v' <~ a_add ar d1 d).
Proof. intros G1. induction l as [|[n2 d] l IH]; intros Gl q M q' M' GM E; cbn [fold_left] in E.
  - inv E. exists []. rewrite app_nil_r. splits; auto.
    + intros x. split; [auto|intros [H|[]]; exact H].
    + intros x v Hv. exists v. splits; eauto using gle_refl.
    + intros x v' H1 H2. congruence.
    + intros x d [].
  - unfold gdm_relax at 2 in E.
    assert (good d) as Gd by (eapply Gl; cbn; eauto). pose proof (l_add _ _ L d1 d G1 Gd) as Gn.
    assert ((if rv then a_add ar d d1 else a_add ar d1 d) = a_add ar d1 d) as En by (destruct rv; [apply (l_comm _ _ _ L2)|]; auto). rewrite En in E. clear En.
    set (v0 := if a_ltb ar (match dget n2 M with Some v => v | None => a_inf ar end) (a_add ar d1 d) then match dget n2 M with Some v => v | None => a_inf ar end else a_add ar d1 d) in *.
    assert (match dget n2 M with Some v => v0 <~ v /\ v0 <~ a_add ar d1 d /\ (v0 = v \/ v0 = a_add ar d1 d) | None => v0 = a_add ar d1 d end) as HV.
    { unfold v0. destruct (dget n2 M) as [v|] eqn:Ev.
      - pose proof (GM _ _ Ev) as Gv. destruct (a_ltb ar v (a_add ar d1 d)) eqn:El; splits; auto using gle_refl, gle_lt. unfold gle. auto.
      - rewrite (l_top _ _ _ L2) by exact Gn. reflexivity. }
    clearbody v0.
    assert (good v0) as G0 by (destruct (dget n2 M); [destruct HV as ((? & _) & _); assumption|rewrite HV; exact Gn]).
    assert (v0 <~ a_add ar d1 d) as H0 by (destruct (dget n2 M); [tauto|rewrite HV; apply gle_refl; exact Gn]).
    destruct (IH (fun x d' h => Gl x d' (or_intror h)) (if dmem n2 M then q else q ++ [n2]) (dset n2 v0 M) q' M') as (new & -> & N1 & N2 & N3 & N4 & N5); [|exact E|].
    { intros x v. rewrite dget_dset. destruct (eq_dec x n2); [congruence|apply GM]. }
    clear E IH.
    assert (exists v', dget n2 M' = Some v' /\ v' <~ a_add ar d1 d) as Hn2.
    { destruct (N3 n2 v0) as (v' & Hv' & Hle & _); [rewrite dget_dset; destruct (eq_dec n2 n2); congruence|]. exists v'. split; [exact Hv'|].
      eapply gle_trans; eauto. }
    exists ((if dmem n2 M then [] else [n2]) ++ new). splits.
    + destruct (dmem n2 M); cbn; [reflexivity|]. rewrite <- app_assoc. reflexivity.
    + intros x Hx C. apply in_app_iff in Hx. destruct Hx as [Hx|Hx].
      * destruct (dmem n2 M) eqn:Em; [destruct Hx|]. destruct Hx as [<-|[]]. apply dmem_nokey in Em. tauto.
      * apply (N1 x Hx). apply In_dkeys_dset. auto.
    + intros x. rewrite N2, In_dkeys_dset, in_app_iff. destruct (dmem n2 M) eqn:Em.
      * apply dmem_key in Em. split; [intros [[->|?]|?]; auto|cbn; tauto].
      * cbn. split; [intros [[->|?]|?]; auto|intros [?|[[<-|[]]|?]]; auto].
    + intros x v Hv. destruct (N3 x (if eq_dec x n2 then v0 else v)) as (v' & Hv' & Hle & Hor).
      { rewrite dget_dset. destruct (eq_dec x n2); [reflexivity|exact Hv]. }
      exists v'. split; [exact Hv'|]. destruct (eq_dec x n2) as [->|Hne].
      * rewrite Hv in HV. destruct HV as (H1 & _ & H3). split; [eapply gle_trans; eauto|]. destruct Hor as [->|(d' & ? & ?)]; [|right; exists d'; cbn; auto].
        destruct H3 as [->| ->]; [auto|right; exists d; cbn; auto].
      * split; [exact Hle|]. destruct Hor as [?|(d' & ? & ?)]; [auto|right; exists d'; cbn; auto].
    + intros x v' Hx Hv'. destruct (eq_dec x n2) as [->|Hne].
      * destruct (N3 n2 v0) as (v'' & Hv'' & _ & Hor); [rewrite dget_dset; destruct (eq_dec n2 n2); congruence|].
        rewrite Hv' in Hv''. inv Hv''. rewrite Hx in HV. subst v0. destruct Hor as [->|(d' & ? & ?)]; [exists d; cbn; auto|exists d'; cbn; auto].
      * destruct (N4 x v') as (d' & ? & ?); [rewrite dget_dset; destruct (eq_dec x n2); congruence|exact Hv'|]. exists d'; cbn; auto.
    + intros x d' [Eq|Hin]; [inv Eq; exact Hn2|apply N5, Hin]. Qed.

Section Run.
Variables (nbr : A -> list (A * W)) (E : A -> A -> option W) (N src : list A) (targets : option (list A)).
Hypothesis Hnbr : forall n, In n N -> forall y d, In (y, d) (nbr n) <-> E n y = Some d.
Hypothesis HN : forall x y d, E x y = Some d -> In y N.
Hypothesis HG : forall x y d, E x y = Some d -> good d.
Hypothesis Hsrc : forall x, In x src -> In x N.
Lemma lpath_gd a p b d : lpath ar E a p b d -> good d.
Proof. intros H. induction H; [apply (l_zero _ _ L)|]. apply (l_add _ _ L); eauto. Qed.

Definition guniform (w : W) : Prop := good w /\ forall x y d, E x y = Some d -> d = w.
Record gdmi (q : list A) (M : dict A W) (found : list A) : Prop := {
  gi_q : forall x, In x q -> In x (dkeys M);
  gi_N : forall x, In x (dkeys M) -> In x N;
  gi_src : forall x, In x src -> exists v, dget x M = Some v /\ v <~ a_zero ar;
  gi_real : forall x v, dget x M = Some v -> exists s p, In s src /\ lpath ar E s p x v;
  gi_closed : forall x y d, In x (dkeys M) -> ~ In x q -> E x y = Some d -> In y (dkeys M);
  gi_found : forall x, In x found -> In x (dkeys M);
  gi_sorted : forall w, guniform w -> StronglySorted (fun x y => forall u v, dget x M = Some u -> dget y M = Some v -> u <~ v) q;
  gi_spread : forall w, guniform w -> forall x y u v, In x q -> In y q -> dget x M = Some u -> dget y M = Some v -> v <~ a_add ar u w;
  gi_done : forall w, guniform w -> forall x y u v, In x (dkeys M) -> ~ In x q -> In y q -> dget x M = Some u -> dget y M = Some v -> u <~ v;
  gi_rel : forall w, guniform w -> forall x y u d, ~ In x q -> dget x M = Some u -> E x y = Some d -> exists v, dget y M = Some v /\ v <~ a_add ar u w }.

Definition gdm_post (M : dict A W) : Prop :=
  (forall x v, dget x M = Some v -> exists s p, In s src /\ lpath ar E s p x v) /\
  (forall s x, In s src -> reach (fun a b => exists d, E a b = Some d) s x -> match targets with None => True | Some t => In x t \/ In x src end -> In x (dkeys M)) /\
  (forall w, guniform w -> forall x v s p d, dget x M = Some v -> In s src -> lpath ar E s p x d -> v <~ d).

Lemma gdm_exact q M found w : guniform w -> gdmi q M found -> forall x v s p d, dget x M = Some v -> In s src -> lpath ar E s p x d -> v <~ d.
Proof. intros U D x v s p d Hx Hs Hp. destruct U as [U1 U2] eqn:EU. clear EU. pose proof (conj U1 U2 : guniform w) as U'.
  assert (Hgood : forall y u, dget y M = Some u -> good u).
  { intros y u Hu. destruct (gi_real _ _ _ D y u Hu) as (s' & p' & _ & Hp'). eapply lpath_gd; eauto. }
  assert (HC : forall p b e, lpath ar E s p b e -> (exists vb, dget b M = Some vb /\ vb <~ e) \/ exists y vy, In y q /\ dget y M = Some vy /\ a_add ar vy w <~ e).
  { clear p d Hp. intros p b e H. induction H as [|p b c w' e H IH Hw]; [left; apply (gi_src _ _ _ D s Hs)|].
    pose proof (lpath_gd _ _ _ _ H) as Ge. rewrite (U2 _ _ _ Hw). destruct IH as [(vb & Hvb & Hle)|(y & vy & Hy & Hvy & Hle)].
    - destruct (In_dec' b q) as [h|h].
      + right. exists b, vb. splits; auto. apply gle_mono; auto.
      + left. destruct (gi_rel _ _ _ D w U' b c vb w' h Hvb Hw) as (vc & Hvc & Hle'). exists vc. split; [exact Hvc|].
        eapply gle_trans; [exact Hle'|]. apply gle_mono; auto.
    - right. exists y, vy. splits; auto. eapply gle_trans; [exact Hle|]. apply gle_infl; auto. }
  destruct (HC _ _ _ Hp) as [(v' & Hv' & Hle)|(y & vy & Hy & Hvy & Hle)].
  - rewrite Hx in Hv'. inv Hv'. exact Hle.
  - destruct (In_dec' x q) as [h|h].
    + eapply gle_trans; [|exact Hle]. apply (gi_spread _ _ _ D w U' y x); auto.
    + eapply gle_trans; [|exact Hle]. eapply gle_trans; [|apply gle_infl; eauto]. apply (gi_done _ _ _ D w U' x y); auto. eapply dget_Some_key; eauto. Qed.

Lemma gdm_loop_spec q0 M0 : gdmi q0 M0 [] -> exists M, returns (fun k => loop k (gdm_step ar rv nbr targets) (q0, M0, [])) (Ok M) /\ gdm_post M.
Proof. intros D0.
  destruct (loop_returns (gdm_step ar rv nbr targets) (fun s => let '(q, M, f) := s in gdmi q M f)
    (fun s' s => lt2 ((fun s : list A * dict A W * list A => (unseen N (dkeys (snd (fst s))), length (fst (fst s)))) s')
                     ((fun s : list A * dict A W * list A => (unseen N (dkeys (snd (fst s))), length (fst (fst s)))) s))
    (fun r => exists M, r = Ok M /\ gdm_post M)) with (s := (q0, M0, @nil A)) as (r & Hr & M & -> & HM).
  - apply (wf_of lt2 (fun s : list A * dict A W * list A => (unseen N (dkeys (snd (fst s))), length (fst (fst s))))), lt2_wf.
  - intros [[q M] found] D. unfold gdm_step. destruct q as [|n1 q].
    { split; [discriminate|]. exists M. split; [reflexivity|]. hnf. splits; [apply D| |].
      - intros s x Hs Hx _. apply (reach_closed_in (fun a b => exists d, E a b = Some d) s (dkeys M) x); auto.
        + destruct (gi_src _ _ _ D s Hs) as (v & Hv & _). eapply dget_Some_key; eauto.
        + intros a b Ha (d & Hd). eapply (gi_closed _ _ _ D); eauto.
      - intros w U. apply (gdm_exact [] M found w U D). }
    destruct (match targets with None => false | Some t => same_set found t end) eqn:Et.
    { split; [discriminate|]. exists M. split; [reflexivity|]. hnf. splits; [apply D| |].
      - intros s x Hs Hx Hxt. destruct targets as [t|]; [|discriminate]. destruct Hxt as [Hxt|Hxt].
        + unfold same_set in Et. apply andb_true_iff in Et. destruct Et as [_ Et]. rewrite forallb_forall in Et. apply (gi_found _ _ _ D), mem_In, Et, Hxt.
        + destruct (gi_src _ _ _ D x Hxt) as (v & Hv & _). eapply dget_Some_key; eauto.
      - intros w U. apply (gdm_exact _ M found w U D). }
    assert (In n1 (dkeys M)) as Hn1 by (apply (gi_q _ _ _ D); cbn; auto). destruct (dget_key _ _ Hn1) as (d1 & Hd1). rewrite Hd1.
    destruct (fold_left (gdm_relax ar rv d1) (nbr n1) (q, M)) as [q' M'] eqn:Ef.
    assert (In n1 N) as Hn1N by (apply (gi_N _ _ _ D), Hn1).
    assert (forall y d, In (y, d) (nbr n1) <-> E n1 y = Some d) as Hn by (apply Hnbr, Hn1N).
    assert (GM : forall x v, dget x M = Some v -> good v).
    { intros y u Hu. destruct (gi_real _ _ _ D y u Hu) as (s' & p' & _ & Hp'). eapply lpath_gd; eauto. }
    destruct (gdm_relax_spec d1 (nbr n1) (GM _ _ Hd1) (fun x d h => HG _ _ _ (proj1 (Hn x d) h)) _ _ _ _ GM Ef) as (new & -> & N1 & N2 & N3 & N4 & N5).
    assert (HU : forall w, guniform w -> (forall x v, dget x M = Some v -> exists v', dget x M' = Some v' /\ v' <~ v /\ v <~ v') /\ (forall x v, In x new -> dget x M' = Some v -> v = a_add ar d1 w)).
    { intros w U. split.
      - intros x v Hv. destruct (N3 x v Hv) as (v' & Hv' & Hle & [->|(d & Hd & ->)]); [exists v; eauto|]. exists (a_add ar d1 d). splits; auto. apply Hn in Hd. rewrite (proj2 U _ _ _ Hd) in *.
        destruct (In_dec' x (n1 :: q)) as [h|h].
        + eapply (gi_spread _ _ _ D w U n1 x); eauto. cbn; auto.
        + pose proof (gi_done _ _ _ D w U x n1 v d1 (dget_Some_key _ _ _ Hv) h (or_introl eq_refl) Hv Hd1). eapply gle_trans; [eassumption|]. apply gle_infl; [eauto|apply U].
      - intros x v Hx Hv. destruct (N4 x v) as (d & Hd & ->); [apply dget_None, N1, Hx|exact Hv|]. apply Hn in Hd. rewrite (proj2 U _ _ _ Hd). reflexivity. }
    assert (Hold : forall w, guniform w -> forall x v', In x (dkeys M) -> dget x M' = Some v' -> exists v, dget x M = Some v /\ v' <~ v /\ v <~ v').
    { intros w U x v' Hx Hv. destruct (dget_key _ _ Hx) as (u & Hu). destruct (HU w U) as [HU1 _]. destruct (HU1 _ _ Hu) as (u' & Hu' & Hle). rewrite Hv in Hu'. inv Hu'. eauto. }
    split.
    + constructor.
      * intros x Hx. apply N2. apply in_app_iff in Hx. destruct Hx as [Hx|Hx]; [left; apply (gi_q _ _ _ D); cbn; auto|auto].
      * intros x Hx. apply N2 in Hx. destruct Hx as [Hx|Hx]; [apply (gi_N _ _ _ D), Hx|].
        destruct (dget_key x M') as (v & Hv); [apply N2; auto|]. destruct (N4 x v) as (d & Hd & _); [apply dget_None, N1, Hx|exact Hv|]. apply Hn in Hd. eapply HN; eauto.
      * intros x Hx. destruct (gi_src _ _ _ D x Hx) as (v & Hv & Hle). destruct (N3 x v Hv) as (v' & Hv' & Hle' & _). exists v'. split; [exact Hv'|eapply gle_trans; eauto].
      * intros x v Hv. destruct (gi_real _ _ _ D n1 d1 Hd1) as (s1 & p1 & Hs1 & Hp1).
        assert (forall d, In (x, d) (nbr n1) -> exists s p, In s src /\ lpath ar E s p x (a_add ar d1 d)) as Hnew.
        { intros d Hd. apply Hn in Hd. exists s1, (p1 ++ [x]). split; [exact Hs1|]. eapply lpath_snoc; eauto. }
        destruct (dget x M) as [u|] eqn:Eu.
        -- destruct (N3 x u Eu) as (v' & Hv' & _ & [->|(d & Hd & ->)]); rewrite Hv in Hv'; inv Hv'; [apply (gi_real _ _ _ D), Eu|auto].
        -- destruct (N4 x v Eu Hv) as (d & Hd & ->). auto.
      * intros x y d Hx Hxq He. rewrite in_app_iff in Hxq. apply N2 in Hx. destruct Hx as [Hx|Hx]; [|tauto]. destruct (eq_dec x n1) as [->|Hne].
        -- apply Hn in He. destruct (N5 _ _ He) as (v' & Hv' & _). eapply dget_Some_key; eauto.
        -- apply N2. left. apply (gi_closed _ _ _ D x y d Hx); [|exact He]. intros [C|C]; [congruence|tauto].
      * intros x Hx. apply N2. left. destruct targets as [t|]; [|apply (gi_found _ _ _ D), Hx]. destruct (mem n1 t); [|apply (gi_found _ _ _ D), Hx].
        apply In_sadd in Hx. destruct Hx as [->|Hx]; [exact Hn1|apply (gi_found _ _ _ D), Hx].
      * intros w U. destruct (HU w U) as [HU1 HU2]. pose proof (gi_sorted _ _ _ D w U) as Hs. inversion Hs as [|? ? Hs' _]; subst. apply SSorted_app. splits.
        -- eapply SSorted_mono; [|exact Hs']. cbn. intros x y Hx Hy Hxy u v Hu Hv.
           destruct (Hold w U x u) as (u0 & Hu0 & L1 & _); [apply (gi_q _ _ _ D); cbn; auto|exact Hu|]. destruct (Hold w U y v) as (v0 & Hv0 & _ & R1); [apply (gi_q _ _ _ D); cbn; auto|exact Hv|].
           eapply gle_trans; [exact L1|]. eapply gle_trans; [|exact R1]. auto.
        -- apply SSorted_const. intros x y Hx Hy u v Hu Hv. rewrite (HU2 _ _ Hx Hu), (HU2 _ _ Hy Hv). apply gle_refl, (l_add _ _ L); [eauto|apply U].
        -- intros x y Hx Hy u v Hu Hv. rewrite (HU2 _ _ Hy Hv). destruct (Hold w U x u) as (u0 & Hu0 & L1 & _); [apply (gi_q _ _ _ D); cbn; auto|exact Hu|].
           eapply gle_trans; [exact L1|]. apply (gi_spread _ _ _ D w U n1 x); cbn; auto.
      * intros w U x y u v Hx Hy Hu Hv. destruct (HU w U) as [HU1 HU2]. pose proof (gi_sorted _ _ _ D w U) as Hs. inversion Hs as [|? ? _ Hf]; subst. rewrite Forall_forall in Hf.
        assert (forall z c, In z (q ++ new) -> dget z M' = Some c -> d1 <~ c /\ c <~ a_add ar d1 w) as Hb.
        { intros z c Hz Hc. apply in_app_iff in Hz. destruct Hz as [Hz|Hz].
          - destruct (Hold w U z c) as (c0 & Hc0 & L1 & R1); [apply (gi_q _ _ _ D); cbn; auto|exact Hc|]. split.
            + eapply gle_trans; [|exact R1]. apply (Hf z Hz); auto.
            + eapply gle_trans; [exact L1|]. eapply (gi_spread _ _ _ D w U n1 z); cbn; eauto.
          - rewrite (HU2 _ _ Hz Hc). split; [apply gle_infl; [eauto|apply U]|apply gle_refl, (l_add _ _ L); [eauto|apply U]]. }
        pose proof (Hb _ _ Hx Hu) as [B1 _]. pose proof (Hb _ _ Hy Hv) as [_ B2]. eapply gle_trans; [exact B2|]. apply gle_mono; [exact B1|apply U].
      * intros w U x y u v Hx Hxq Hy Hu Hv. destruct (HU w U) as [HU1 HU2]. pose proof (gi_sorted _ _ _ D w U) as Hs. inversion Hs as [|? ? _ Hf]; subst. rewrite Forall_forall in Hf.
        apply N2 in Hx. rewrite in_app_iff in Hxq. destruct Hx as [Hx|Hx]; [|tauto]. destruct (Hold w U x u Hx Hu) as (u0 & Hu0 & L1 & _).
        eapply gle_trans; [exact L1|]. apply gle_trans with d1.
        -- destruct (eq_dec x n1) as [->|Hne]; [rewrite Hd1 in Hu0; inv Hu0; apply gle_refl; eauto|apply (gi_done _ _ _ D w U x n1); cbn; auto; intros [C|C]; [congruence|tauto]].
        -- apply in_app_iff in Hy. destruct Hy as [Hy|Hy]; [|rewrite (HU2 _ _ Hy Hv); apply gle_infl; [eauto|apply U]].
           destruct (Hold w U y v) as (v0 & Hv0 & _ & R1); [apply (gi_q _ _ _ D); cbn; auto|exact Hv|]. eapply gle_trans; [|exact R1].
           apply (Hf y Hy); auto.
      * intros w U x y u d Hxq Hu He. destruct (HU w U) as [HU1 HU2]. rewrite in_app_iff in Hxq.
        assert (In x (dkeys M)) as Hx.
        { pose proof (dget_Some_key _ _ _ Hu) as Hx. apply N2 in Hx. tauto. }
        destruct (Hold w U x u Hx Hu) as (u0 & Hu0 & _ & R1). destruct (eq_dec x n1) as [->|Hne].
        -- rewrite Hd1 in Hu0. inv Hu0. pose proof (proj2 U _ _ _ He). subst d. apply Hn in He. destruct (N5 _ _ He) as (v & Hv & Hle). exists v. split; [exact Hv|].
           eapply gle_trans; [exact Hle|]. apply gle_mono; [exact R1|apply U].
        -- destruct (gi_rel _ _ _ D w U x y u0 d) as (v & Hv & Hle); auto; [intros [C|C]; [congruence|tauto]|].
           destruct (HU1 _ _ Hv) as (v' & Hv' & L1 & _). exists v'. split; [exact Hv'|]. eapply gle_trans; [exact L1|]. eapply gle_trans; [exact Hle|]. apply gle_mono; [exact R1|apply U].
    + unfold lt2. cbn [fst snd]. destruct new as [|z new].
      * right. rewrite app_nil_r. split; [|cbn; lia]. apply Nat.le_antisymm; apply unseen_le; intros z _ Hz; [apply N2; auto|]. apply N2 in Hz. destruct Hz as [Hz|[]]. exact Hz.
      * left. apply (unseen_lt _ _ _ z).
        -- intros u _ Hu. apply N2. auto.
        -- destruct (dget_key z M') as (v & Hv); [apply N2; cbn; auto|]. destruct (N4 z v) as (d & Hd & _); [apply dget_None, N1; cbn; auto|exact Hv|]. apply Hn in Hd. eapply HN; eauto.
        -- apply N1. cbn; auto.
        -- apply N2. cbn; auto.
  - exact D0.
  - exists M. auto. Qed.

Lemma gdmi_init q0 : (forall x, In x q0 <-> In x src) -> gdmi q0 (map (fun n => (n, a_zero ar)) q0) [].
Proof. intros Hq. pose proof (l_zero _ _ L) as Z0.
  assert (forall x v, dget x (map (fun n => (n, a_zero ar)) q0) = Some v -> v = a_zero ar /\ In x q0) as H0.
  { intros x v Hv. apply dget_In in Hv. apply in_map_iff in Hv. destruct Hv as (n & Eq & Hn). inv Eq. auto. }
  assert (dkeys (map (fun n => (n, a_zero ar)) q0) = q0) as Hk by (apply (dkeys_map (fun _ => a_zero ar))).
  constructor; rewrite ?Hk; auto.
  - intros x Hx. apply Hsrc, Hq, Hx.
  - intros x Hx. exists (a_zero ar). split; [apply (dget_map (fun _ => a_zero ar)), Hq, Hx|apply gle_refl, Z0].
  - intros x v Hv. destruct (H0 _ _ Hv) as [-> Hx]. exists x, [x]. split; [apply Hq, Hx|constructor].
  - tauto.
  - intros x [].
  - intros w U. apply SSorted_const. intros x y _ _ u v Hu Hv. apply H0 in Hu, Hv. destruct Hu as [-> _], Hv as [-> _]. apply gle_refl, Z0.
  - intros w U x y u v _ _ Hu Hv. apply H0 in Hu, Hv. destruct Hu as [-> _], Hv as [-> _]. apply gle_infl; [exact Z0|apply U].
  - intros w U x y u v Hx Hn. tauto.
  - intros w U x y u d Hn Hu. apply H0 in Hu. tauto. Qed.
End Run.
End GDm.
