(** distance_map and shortest_tree_all_pairs: proofs. *)
From Coq Require Import Sorted.
From Verif Require Import Prelude PreludeFacts Base BaseFacts BaseFacts2 BaseFacts3 Spec SpecFacts Loop SearchFacts BaseAlgFacts SpFacts Fw FwFacts.
Local Open Scope Z_scope.

Section Dm.
Context {A : Type} {EA : EqDec A}.
Implicit Types (x y n : A) (q : list A) (M : dict A Z).

Lemma dm_relax_spec d1 l : forall q M q' M', fold_left (dm_relax d1) l (q, M) = (q', M') ->
  exists new, q' = q ++ new /\ (forall x, In x new -> ~ In x (dkeys M)) /\
    (forall x, In x (dkeys M') <-> In x (dkeys M) \/ In x new) /\
    (forall x v, dget x M = Some v -> exists v', dget x M' = Some v' /\ v' <= v /\ (v' = v \/ exists d, In (x, d) l /\ v' = d1 + d)) /\
    (forall x v', dget x M = None -> dget x M' = Some v' -> exists d, In (x, d) l /\ v' = d1 + d) /\
    (forall x d, In (x, d) l -> exists v', dget x M' = Some v' /\ v' <= d1 + d).
Proof. induction l as [|[n2 d] l IH]; intros q M q' M' E; cbn [fold_left] in E.
  - inv E. exists []. rewrite app_nil_r. splits; auto.
    + intros x. split; [auto|intros [H|[]]; exact H].
    + intros x v Hv. exists v. splits; auto. lia.
    + intros x v' H1 H2. congruence.
    + intros x d [].
  - unfold dm_relax at 2 in E.
    set (v0 := match dget n2 M with Some v => Z.min (d1 + d) v | None => d1 + d end) in *.
    destruct (IH _ _ _ _ E) as (new & -> & N1 & N2 & N3 & N4 & N5). clear E IH.
    assert (exists v', dget n2 M' = Some v' /\ v' <= d1 + d) as Hn2.
    { destruct (N3 n2 v0) as (v' & Hv' & Hle & _); [rewrite dget_dset; destruct (eq_dec n2 n2); congruence|]. exists v'. split; [exact Hv'|].
      unfold v0 in Hle. destruct (dget n2 M); lia. }
    exists ((if dmem n2 M then [] else [n2]) ++ new). splits.
    + destruct (dmem n2 M); cbn; [reflexivity|]. rewrite <- app_assoc. reflexivity.
    + intros x Hx C. apply in_app_iff in Hx. destruct Hx as [Hx|Hx].
      * destruct (dmem n2 M) eqn:Em; [destruct Hx|]. destruct Hx as [<-|[]]. apply dmem_nokey in Em. tauto.
      * apply (N1 x Hx). apply In_dkeys_dset. auto.
    + intros x. rewrite N2, In_dkeys_dset, in_app_iff. destruct (dmem n2 M) eqn:Em.
      * apply dmem_key in Em. split; [intros [[->|?]|?]; auto|cbn; tauto].
      * cbn. split; [intros [[->|?]|?]; auto|intros [?|[[<-|[]]|?]]; auto].
    + intros x v Hv. destruct (N3 x (if eq_dec x n2 then v0 else v)) as (v' & Hv' & Hle & Hor).
      { rewrite dget_dset. destruct (eq_dec x n2); [reflexivity|exact Hv]. }
      exists v'. split; [exact Hv'|]. destruct (eq_dec x n2) as [->|Hne].
      * unfold v0 in *. rewrite Hv in *. split; [lia|]. destruct Hor as [->|(d' & ? & ?)]; [|right; exists d'; cbn; auto].
        destruct (Z.min_spec (d1 + d) v) as [[_ ->]|[_ ->]]; [right; exists d; cbn; auto|auto].
      * split; [exact Hle|]. destruct Hor as [?|(d' & ? & ?)]; [auto|right; exists d'; cbn; auto].
    + intros x v' Hx Hv'. destruct (eq_dec x n2) as [->|Hne].
      * destruct (N3 n2 v0) as (v'' & Hv'' & _ & Hor); [rewrite dget_dset; destruct (eq_dec n2 n2); congruence|].
        rewrite Hv' in Hv''. inv Hv''. unfold v0 in Hor. rewrite Hx in Hor. destruct Hor as [->|(d' & ? & ?)]; [exists d; cbn; auto|exists d'; cbn; auto].
      * destruct (N4 x v') as (d' & ? & ?); [rewrite dget_dset; destruct (eq_dec x n2); congruence|exact Hv'|]. exists d'; cbn; auto.
    + intros x d' [Eq|Hin]; [inv Eq; exact Hn2|apply N5, Hin]. Qed.

Section Run.
Variables (nbr : A -> list (A * Z)) (E : A -> A -> option Z) (N src : list A) (targets : option (list A)).
Hypothesis Hnbr : forall n, In n N -> forall y d, In (y, d) (nbr n) <-> E n y = Some d.
Hypothesis HN : forall x y d, E x y = Some d -> In y N.
Hypothesis Hsrc : forall x, In x src -> In x N.

Definition uniform (w : Z) : Prop := 0 <= w /\ forall x y d, E x y = Some d -> d = w.
Record dmi (q : list A) (M : dict A Z) (found : list A) : Prop := {
  di_q : forall x, In x q -> In x (dkeys M);
  di_N : forall x, In x (dkeys M) -> In x N;
  di_src : forall x, In x src -> exists v, dget x M = Some v /\ v <= 0;
  di_real : forall x v, dget x M = Some v -> exists s p, In s src /\ wpath E s p x v;
  di_closed : forall x y d, In x (dkeys M) -> ~ In x q -> E x y = Some d -> In y (dkeys M);
  di_found : forall x, In x found -> In x (dkeys M);
  di_sorted : forall w, uniform w -> StronglySorted (fun x y => forall u v, dget x M = Some u -> dget y M = Some v -> u <= v) q;
  di_spread : forall w, uniform w -> forall x y u v, In x q -> In y q -> dget x M = Some u -> dget y M = Some v -> v <= u + w;
  di_done : forall w, uniform w -> forall x y u v, In x (dkeys M) -> ~ In x q -> In y q -> dget x M = Some u -> dget y M = Some v -> u <= v;
  di_rel : forall w, uniform w -> forall x y u d, ~ In x q -> dget x M = Some u -> E x y = Some d -> exists v, dget y M = Some v /\ v <= u + w }.

Definition dm_post (M : dict A Z) : Prop :=
  (forall x v, dget x M = Some v -> exists s p, In s src /\ wpath E s p x v) /\
  (forall x, In x (dkeys M) -> exists s, In s src /\ reach (erel E) s x) /\
  (forall s x, In s src -> reach (erel E) s x -> match targets with None => True | Some t => In x t \/ In x src end -> In x (dkeys M)) /\
  (forall w, uniform w -> forall x v s p d, dget x M = Some v -> In s src -> wpath E s p x d -> v <= d).

Lemma dm_exact q M found w : uniform w -> dmi q M found -> forall x v s p d, dget x M = Some v -> In s src -> wpath E s p x d -> v <= d.
Proof. intros U D x v s p d Hx Hs Hp.
  assert (forall a b t e, wpath E a t b e -> 0 <= e) as Hnn by (intros a b t e; apply wpath_nonneg; intros a' b' w' He; destruct U as [U1 U2]; rewrite (U2 _ _ _ He); exact U1).
  pose (V := filter (fun z => negb (mem z q)) (dkeys M)).
  assert (forall z, In z V <-> In z (dkeys M) /\ ~ In z q) as HV.
  { intros z. unfold V. rewrite filter_In, negb_true_iff, mem_notIn. reflexivity. }
  assert (Hchain : forall l a b e, wpath E a l b e -> (forall z, In z (removelast l) -> In z V) -> forall va, dget a M = Some va -> exists vb, dget b M = Some vb /\ vb <= va + e).
  { intros l a b e H. induction H as [a|a c l b w' e He Hl IH]; intros Hz va Hva; [exists va; split; [exact Hva|lia]|].
    destruct (wpath_head _ _ _ _ _ Hl) as (t & ->). assert (In a V) as HaV by (apply Hz; cbn; auto). apply HV in HaV.
    destruct (di_rel _ _ _ D w U a c va w' (proj2 HaV) Hva He) as (vc & Hvc & Hle).
    destruct (IH (fun z Hz' => Hz z (or_intror Hz')) vc Hvc) as (vb & Hvb & Hle'). exists vb. split; [exact Hvb|].
    rewrite (proj2 U _ _ _ He). lia. }
  destruct (di_src _ _ _ D s Hs) as (vs & Hvs & Hvs0).
  assert (Hcase : (forall z, In z p -> In z V) \/ exists z, In z p /\ ~ In z V).
  { clear. induction p as [|h p IH]; [left; intros z []|]. destruct (In_dec' h V) as [h1|h1]; [|right; exists h; cbn; auto].
    destruct IH as [IH|(z & ? & ?)]; [left; intros z [<-|Hz]; auto|right; exists z; cbn; auto]. }
  destruct Hcase as [Hall|(z & Hz & HzV)].
  - destruct (Hchain _ _ _ _ Hp) with (va := vs) as (vb & Hvb & Hle); auto.
    { intros z Hz. apply Hall. clear - Hz. induction p as [|h p IH]; [destruct Hz|]. cbn in *. destruct p; [destruct Hz|]. destruct Hz as [<-|Hz]; auto. }
    rewrite Hx in Hvb. inv Hvb. lia.
  - destruct (split_first V p z Hz HzV) as (l1 & y & l2 & -> & Hy & Hl1).
    apply wpath_split in Hp. destruct Hp as (e1 & e2 & P1 & P2 & ->).
    destruct (Hchain _ _ _ _ P1) with (va := vs) as (vy & Hvy & Hle); auto.
    { intros u Hu. rewrite removelast_last in Hu. auto. }
    assert (In y q) as Hyq.
    { destruct (In_dec' y q) as [h|h]; [exact h|]. exfalso. apply Hy, HV. split; [eapply dget_Some_key; eauto|exact h]. }
    assert (x = y /\ e2 = 0 \/ w <= e2) as [[-> ->]|He2].
    { inversion P2 as [|? ? ? ? w' e' He Hp']; subst; [left; auto|]. right. rewrite (proj2 U _ _ _ He). specialize (Hnn _ _ _ _ Hp'). lia. }
    + rewrite Hx in Hvy. inv Hvy. lia.
    + destruct (In_dec' x q) as [Hxq|Hxq].
      * pose proof (di_spread _ _ _ D w U y x vy v Hyq Hxq Hvy Hx). lia.
      * pose proof (di_done _ _ _ D w U x y v vy (dget_Some_key _ _ _ Hx) Hxq Hyq Hx Hvy). destruct U. lia. Qed.

Lemma dm_real_reach M : (forall x v, dget x M = Some v -> exists s p, In s src /\ wpath E s p x v) ->
  forall x, In x (dkeys M) -> exists s, In s src /\ reach (erel E) s x.
Proof. intros H x Hx. destruct (dget_key _ _ Hx) as (v & Hv). destruct (H _ _ Hv) as (s & p & Hs & Hp). exists s. split; [exact Hs|].
  exists p. eapply wpath_path; eauto. Qed.

Lemma dm_loop_spec q0 M0 : dmi q0 M0 [] -> exists M, returns (fun k => loop k (dm_step nbr targets) (q0, M0, [])) (Ok M) /\ dm_post M.
Proof. intros D0.
  destruct (loop_returns (dm_step nbr targets) (fun s => let '(q, M, f) := s in dmi q M f)
    (fun s' s => lt2 ((fun s : list A * dict A Z * list A => (unseen N (dkeys (snd (fst s))), length (fst (fst s)))) s')
                     ((fun s : list A * dict A Z * list A => (unseen N (dkeys (snd (fst s))), length (fst (fst s)))) s))
    (fun r => exists M, r = Ok M /\ dm_post M)) with (s := (q0, M0, @nil A)) as (r & Hr & M & -> & HM).
  - apply (wf_of lt2 (fun s : list A * dict A Z * list A => (unseen N (dkeys (snd (fst s))), length (fst (fst s))))), lt2_wf.
  - intros [[q M] found] D. unfold dm_step. destruct q as [|n1 q].
    { split; [discriminate|]. exists M. split; [reflexivity|]. hnf. splits; [apply D|apply dm_real_reach, D| |].
      - intros s x Hs Hx _. apply (reach_closed_in (erel E) s (dkeys M) x); auto.
        + destruct (di_src _ _ _ D s Hs) as (v & Hv & _). eapply dget_Some_key; eauto.
        + intros a b Ha (d & Hd). eapply (di_closed _ _ _ D); eauto. 
      - intros w U. apply (dm_exact [] M found w U D). }
    destruct (match targets with None => false | Some t => same_set found t end) eqn:Et.
    { split; [discriminate|]. exists M. split; [reflexivity|]. hnf. splits; [apply D|apply dm_real_reach, D| |].
      - intros s x Hs Hx Hxt. destruct targets as [t|]; [|discriminate]. destruct Hxt as [Hxt|Hxt].
        + unfold same_set in Et. apply andb_true_iff in Et. destruct Et as [_ Et]. rewrite forallb_forall in Et. apply (di_found _ _ _ D), mem_In, Et, Hxt.
        + destruct (di_src _ _ _ D x Hxt) as (v & Hv & _). eapply dget_Some_key; eauto.
      - intros w U. apply (dm_exact _ M found w U D). }
    assert (In n1 (dkeys M)) as Hn1 by (apply (di_q _ _ _ D); cbn; auto). destruct (dget_key _ _ Hn1) as (d1 & Hd1). rewrite Hd1.
    destruct (fold_left (dm_relax d1) (nbr n1) (q, M)) as [q' M'] eqn:Ef.
    destruct (dm_relax_spec _ _ _ _ _ _ Ef) as (new & -> & N1 & N2 & N3 & N4 & N5).
    assert (In n1 N) as Hn1N by (apply (di_N _ _ _ D), Hn1).
    assert (forall y d, In (y, d) (nbr n1) <-> E n1 y = Some d) as Hn by (apply Hnbr, Hn1N).
    assert (HU : forall w, uniform w -> (forall x v, dget x M = Some v -> dget x M' = Some v) /\ (forall x v, In x new -> dget x M' = Some v -> v = d1 + w)).
    { intros w U. split.
      - intros x v Hv. destruct (N3 x v Hv) as (v' & Hv' & Hle & [->|(d & Hd & ->)]); [exact Hv'|]. rewrite Hv'. f_equal. apply Hn in Hd. rewrite (proj2 U _ _ _ Hd) in *.
        assert (v <= d1 + w); [|lia]. destruct (In_dec' x (n1 :: q)) as [h|h].
        + eapply (di_spread _ _ _ D w U n1 x); eauto. cbn; auto.
        + pose proof (di_done _ _ _ D w U x n1 v d1 (dget_Some_key _ _ _ Hv) h (or_introl eq_refl) Hv Hd1). destruct U. lia.
      - intros x v Hx Hv. destruct (N4 x v) as (d & Hd & ->); [apply dget_None, N1, Hx|exact Hv|]. apply Hn in Hd. rewrite (proj2 U _ _ _ Hd). reflexivity. }
    assert (Hold : forall w, uniform w -> forall x v, In x (dkeys M) -> dget x M' = Some v -> dget x M = Some v).
    { intros w U x v Hx Hv. destruct (dget_key _ _ Hx) as (u & Hu). destruct (HU w U) as [HU1 _]. rewrite (HU1 _ _ Hu) in Hv. congruence. }
    split.
    + constructor.
      * intros x Hx. apply N2. apply in_app_iff in Hx. destruct Hx as [Hx|Hx]; [left; apply (di_q _ _ _ D); cbn; auto|auto].
      * intros x Hx. apply N2 in Hx. destruct Hx as [Hx|Hx]; [apply (di_N _ _ _ D), Hx|].
        destruct (dget_key x M') as (v & Hv); [apply N2; auto|]. destruct (N4 x v) as (d & Hd & _); [apply dget_None, N1, Hx|exact Hv|]. apply Hn in Hd. eapply HN; eauto.
      * intros x Hx. destruct (di_src _ _ _ D x Hx) as (v & Hv & Hle). destruct (N3 x v Hv) as (v' & Hv' & Hle' & _). exists v'. split; [exact Hv'|lia].
      * intros x v Hv. destruct (di_real _ _ _ D n1 d1 Hd1) as (s1 & p1 & Hs1 & Hp1).
        assert (forall d, In (x, d) (nbr n1) -> exists s p, In s src /\ wpath E s p x (d1 + d)) as Hnew.
        { intros d Hd. apply Hn in Hd. exists s1, (p1 ++ [x]). split; [exact Hs1|]. eapply wpath_snoc; eauto. }
        destruct (dget x M) as [u|] eqn:Eu.
        -- destruct (N3 x u Eu) as (v' & Hv' & _ & [->|(d & Hd & ->)]); rewrite Hv in Hv'; inv Hv'; [apply (di_real _ _ _ D), Eu|auto].
        -- destruct (N4 x v Eu Hv) as (d & Hd & ->). auto.
      * intros x y d Hx Hxq He. rewrite in_app_iff in Hxq. apply N2 in Hx. destruct Hx as [Hx|Hx]; [|tauto]. destruct (eq_dec x n1) as [->|Hne].
        -- apply Hn in He. destruct (N5 _ _ He) as (v' & Hv' & _). eapply dget_Some_key; eauto.
        -- apply N2. left. apply (di_closed _ _ _ D x y d Hx); [|exact He]. intros [C|C]; [congruence|tauto].
      * intros x Hx. apply N2. left. destruct targets as [t|]; [|apply (di_found _ _ _ D), Hx]. destruct (mem n1 t); [|apply (di_found _ _ _ D), Hx].
        apply In_sadd in Hx. destruct Hx as [->|Hx]; [exact Hn1|apply (di_found _ _ _ D), Hx].
      * intros w U. destruct (HU w U) as [HU1 HU2]. pose proof (di_sorted _ _ _ D w U) as Hs. inversion Hs as [|? ? Hs' _]; subst. apply SSorted_app. splits.
        -- eapply SSorted_mono; [|exact Hs']. cbn. intros x y Hx Hy Hxy u v Hu Hv.
           apply Hxy; eapply Hold; eauto; apply (di_q _ _ _ D); cbn; auto.
        -- apply SSorted_const. intros x y Hx Hy u v Hu Hv. rewrite (HU2 _ _ Hx Hu), (HU2 _ _ Hy Hv). lia.
        -- intros x y Hx Hy u v Hu Hv. rewrite (HU2 _ _ Hy Hv). apply (di_spread _ _ _ D w U n1 x); cbn; auto. eapply Hold; eauto. apply (di_q _ _ _ D); cbn; auto.
      * intros w U x y u v Hx Hy Hu Hv. destruct (HU w U) as [HU1 HU2]. pose proof (di_sorted _ _ _ D w U) as Hs. inversion Hs as [|? ? _ Hf]; subst. rewrite Forall_forall in Hf.
        assert (forall z c, In z (q ++ new) -> dget z M' = Some c -> d1 <= c <= d1 + w) as Hb.
        { intros z c Hz Hc. apply in_app_iff in Hz. destruct Hz as [Hz|Hz].
          - assert (dget z M = Some c) as Hc' by (eapply Hold; eauto; apply (di_q _ _ _ D); cbn; auto). split; [apply (Hf z Hz); auto|].
            eapply (di_spread _ _ _ D w U n1 z); cbn; eauto.
          - rewrite (HU2 _ _ Hz Hc). destruct U. lia. }
        pose proof (Hb _ _ Hx Hu). pose proof (Hb _ _ Hy Hv). lia.
      * intros w U x y u v Hx Hxq Hy Hu Hv. destruct (HU w U) as [HU1 HU2]. pose proof (di_sorted _ _ _ D w U) as Hs. inversion Hs as [|? ? _ Hf]; subst. rewrite Forall_forall in Hf.
        apply N2 in Hx. rewrite in_app_iff in Hxq. destruct Hx as [Hx|Hx]; [|tauto]. pose proof (Hold w U x u Hx Hu) as Hu'.
        assert (u <= d1 /\ d1 <= v); [|lia]. split.
        -- destruct (eq_dec x n1) as [->|Hne]; [rewrite Hd1 in Hu'; inv Hu'; lia|]. apply (di_done _ _ _ D w U x n1); cbn; auto. intros [C|C]; [congruence|tauto].
        -- apply in_app_iff in Hy. destruct Hy as [Hy|Hy]; [|rewrite (HU2 _ _ Hy Hv); destruct U; lia].
           apply (Hf y Hy); auto. eapply Hold; eauto. apply (di_q _ _ _ D); cbn; auto.
      * intros w U x y u d Hxq Hu He. destruct (HU w U) as [HU1 HU2]. rewrite in_app_iff in Hxq.
        assert (In x (dkeys M)) as Hx.
        { pose proof (dget_Some_key _ _ _ Hu) as Hx. apply N2 in Hx. tauto. }
        pose proof (Hold w U x u Hx Hu) as Hu'. destruct (eq_dec x n1) as [->|Hne].
        -- rewrite Hd1 in Hu'. inv Hu'. pose proof (proj2 U _ _ _ He). subst d. apply Hn in He. apply (N5 _ _ He).
        -- destruct (di_rel _ _ _ D w U x y u d) as (v & Hv & Hle); auto; [intros [C|C]; [congruence|tauto]|]. exists v. auto.
    + unfold lt2. cbn [fst snd]. destruct new as [|z new].
      * right. rewrite app_nil_r. split; [|cbn; lia]. apply Nat.le_antisymm; apply unseen_le; intros z _ Hz; [apply N2; auto|]. apply N2 in Hz. destruct Hz as [Hz|[]]. exact Hz.
      * left. apply (unseen_lt _ _ _ z).
        -- intros u _ Hu. apply N2. auto.
        -- destruct (dget_key z M') as (v & Hv); [apply N2; cbn; auto|]. destruct (N4 z v) as (d & Hd & _); [apply dget_None, N1; cbn; auto|exact Hv|]. apply Hn in Hd. eapply HN; eauto.
        -- apply N1. cbn; auto.
        -- apply N2. cbn; auto.
  - exact D0.
  - exists M. auto. Qed.

Lemma dmi_init q0 : (forall x, In x q0 <-> In x src) -> dmi q0 (map (fun n => (n, 0)) q0) [].
Proof. intros Hq.
  assert (forall x v, dget x (map (fun n => (n, 0)) q0) = Some v -> v = 0 /\ In x q0) as H0.
  { intros x v Hv. apply dget_In in Hv. apply in_map_iff in Hv. destruct Hv as (n & Eq & Hn). inv Eq. auto. }
  assert (dkeys (map (fun n => (n, 0)) q0) = q0) as Hk by (apply (dkeys_map (fun _ => 0))).
  constructor; rewrite ?Hk; auto.
  - intros x Hx. apply Hsrc, Hq, Hx.
  - intros x Hx. exists 0. split; [apply (dget_map (fun _ => 0)), Hq, Hx|lia].
  - intros x v Hv. destruct (H0 _ _ Hv) as [-> Hx]. exists x, [x]. split; [apply Hq, Hx|constructor].
  - tauto.
  - intros x [].
  - intros w U. apply SSorted_const. intros x y _ _ u v Hu Hv. apply H0 in Hu, Hv. lia.
  - intros w U x y u v _ _ Hu Hv. apply H0 in Hu, Hv. destruct U. lia.
  - intros w U x y u v Hx Hn. tauto.
  - intros w U x y u d Hn Hu. apply H0 in Hu. tauto. Qed.
End Run.
End Dm.

Section DmFinal.
Context {A O : Type} {EA : EqDec A}.
Notation graph := (graph A O Z).
Implicit Types (g : graph) (x y : A).
Lemma distance_map_forward g ord sl ends : wf g -> (forall l, Permutation (ord l) l) ->
  (forall x, In x sl -> In x (nodes g)) -> (forall t x, ends = Some t -> In x t -> In x (nodes g)) ->
  exists M, returns (fun n => distance_map ord n g (Some sl) ends false) (Ok M) /\ dm_post (edge g) sl ends M.
Proof. intros W Ho Hs He. unfold distance_map.
  assert (existsb (fun n => negb (contains g n)) sl = false) as Hb.
  { apply Bool.not_true_iff_false. intros C. apply existsb_exists in C. destruct C as (x & Hx & C). apply negb_true_iff in C.
    assert (contains g x = true) by (apply contains_In, Hs, Hx). congruence. }
  assert (existsb (fun n => negb (contains g n)) (match ends with Some l => l | None => [] end) = false) as Hb'.
  { apply Bool.not_true_iff_false. intros C. apply existsb_exists in C. destruct C as (x & Hx & C). apply negb_true_iff in C.
    destruct ends as [t|]; [|destruct Hx]. assert (contains g x = true) by (apply contains_In, (He t x eq_refl Hx)). congruence. }
  assert (forall x, In x (ord (set_of sl)) <-> In x sl) as Hq.
  { intros x. split; intros H; [apply (Permutation_in _ (Ho _)) in H; apply In_set_of; exact H|]. apply (Permutation_in _ (Permutation_sym (Ho _))), In_set_of, H. }
  destruct (dm_loop_spec (fun n => map (fun e => (snd (fst e), snd e)) (edges_from g n)) (edge g) (nodes g) sl ends) with (q0 := ord (set_of sl)) (M0 := map (fun n : A => (n, 0)) (ord (set_of sl))) as (M & HM & Hp).
  - intros n _ y d. rewrite in_map_iff. split.
    + intros ([[a b] v] & Eq & Hin). cbn in Eq. inv Eq. apply In_edges_from in Hin; [|exact W]. destruct Hin as (b' & v' & Eq & H'). inv Eq. exact H'.
    + intros H. exists (n, y, d). split; [reflexivity|]. apply In_edges_from; eauto.
  - intros x y d H. apply (edge_nodes g x y d W H).
  - apply dmi_init; [exact Hs|exact Hq].
  - exists M. split; [|exact Hp]. destruct ends as [t|]; cbv beta iota; rewrite Hb, Hb'; exact HM. Qed.
Lemma distance_map_reverse g ord el starts : wf g -> (forall l, Permutation (ord l) l) ->
  (forall x, In x el -> In x (nodes g)) -> (forall t x, starts = Some t -> In x t -> In x (nodes g)) ->
  exists M, returns (fun n => distance_map ord n g starts (Some el) true) (Ok M) /\ dm_post (fun x y => edge g y x) el starts M.
Proof. intros W Ho Hs He. unfold distance_map.
  assert (existsb (fun n => negb (contains g n)) el = false) as Hb.
  { apply Bool.not_true_iff_false. intros C. apply existsb_exists in C. destruct C as (x & Hx & C). apply negb_true_iff in C.
    assert (contains g x = true) by (apply contains_In, Hs, Hx). congruence. }
  assert (existsb (fun n => negb (contains g n)) (match starts with Some l => l | None => [] end) = false) as Hb'.
  { apply Bool.not_true_iff_false. intros C. apply existsb_exists in C. destruct C as (x & Hx & C). apply negb_true_iff in C.
    destruct starts as [t|]; [|destruct Hx]. assert (contains g x = true) by (apply contains_In, (He t x eq_refl Hx)). congruence. }
  assert (forall x, In x (ord (set_of el)) <-> In x el) as Hq.
  { intros x. split; intros H; [apply (Permutation_in _ (Ho _)) in H; apply In_set_of; exact H|]. apply (Permutation_in _ (Permutation_sym (Ho _))), In_set_of, H. }
  destruct (dm_loop_spec (fun n => map (fun e => (fst (fst e), snd e)) (edges_to g n)) (fun x y => edge g y x) (nodes g) el starts) with (q0 := ord (set_of el)) (M0 := map (fun n : A => (n, 0)) (ord (set_of el))) as (M & HM & Hp).
  - intros n _ y d. rewrite in_map_iff. split.
    + intros ([[a b] v] & Eq & Hin). cbn in Eq. inv Eq. apply In_edges_to in Hin; [|exact W]. destruct Hin as (b' & v' & Eq & H'). inv Eq. exact H'.
    + intros H. exists (y, n, d). split; [reflexivity|]. apply In_edges_to; eauto.
  - intros x y d H. apply (edge_nodes g y x d W H).
  - apply dmi_init; [exact Hs|exact Hq].
  - exists M. split; [|exact Hp]. destruct starts as [t|]; cbv beta iota; rewrite Hb, Hb'; exact HM. Qed.
End DmFinal.
