(** Proofs about ap_solver *)
From Coq Require Import Sorted.
From Verif Require Import Prelude PreludeFacts Base BaseFacts BaseFacts2 BaseFacts3 Spec SpecFacts Loop SearchFacts BaseAlgFacts MaxFlowFacts AssignSpec Assign.
Local Open Scope Z_scope.

Section Auction.
Context {A O : Type} {EA : EqDec A}.
Notation graph := (graph A O Z).
Context (srt : list (Z * A) -> list (Z * A)) (Hsrt : forall l, Permutation (srt l) l /\ StronglySorted (fun x y => fst y <= fst x) (srt l)).
(** the graph with dummy tasks, the agents, the tasks *)
Context (g : graph) (R : reachable g) (AG TS : list A) (ND : NoDup AG) (vn : Z)
  (Hag : forall x y, has_edge g x y -> In x AG /\ ~ In y AG) (Hts : forall x y, has_edge g x y -> In y TS) (Hvn : forall x y v, edge g x y = Some v -> vn < v).
Implicit Types (asg : graph) (q un : list A).

Lemma current_some asg t e d : wf asg -> ap_current asg t = Some (e, d) -> edge asg t e = Some d.
Proof. intros W H. unfold ap_current in H. destruct (edges_from asg t) as [|[[s e'] d'] l] eqn:E; [discriminate|]. injection H as -> ->.
  assert (In (s, e, d) (edges_from asg t)) as Hi by (rewrite E; left; reflexivity). apply (In_edges_from asg t _ W) in Hi. destruct Hi as (b & v & Q & He). congruence. Qed.
Lemma current_none asg t : wf asg -> ap_current asg t = None -> forall e, edge asg t e = None.
Proof. intros W H e. unfold ap_current in H. destruct (edges_from asg t) as [|[[s e'] d'] l] eqn:E; [|discriminate]. destruct (edge asg t e) as [d|] eqn:Ee; [|reflexivity].
  assert (In (t, e, d) (edges_from asg t)) as Hi by (apply (In_edges_from asg t _ W); eauto). rewrite E in Hi. destruct Hi. Qed.

(** task t has a partner that is worth at least v *)
Definition held asg t v : Prop := exists a' v', edge asg t a' = Some v' /\ v <= v'.
Definition Inv (st : list A * graph * list A) : Prop :=
  let '(q, asg, un) := st in
  reachable asg /\ NoDup q /\ incl q AG /\
  (forall t a v, edge asg t a = Some v -> edge g a t = Some v /\ ~ In a q) /\
  (forall t a a', has_edge asg t a -> has_edge asg t a' -> a = a') /\
  (forall t t' a, has_edge asg t a -> has_edge asg t' a -> t = t') /\
  (forall x, In x (nodes asg) -> In x AG \/ exists a, has_edge asg x a) /\
  (forall t, In t TS -> ~ In t (nodes asg) -> In t un) /\
  (forall a, In a AG -> ~ In a q -> forall t v, edge g a t = Some v -> (exists t' v', edge asg t' a = Some v' /\ v <= v') \/ held asg t v).
Definition open_edge asg (e : A * A * Z) : bool := match ap_current asg (snd (fst e)) with Some (_, d) => d <? snd e | None => true end.
Definition work (st : list A * graph * list A) : nat := (length (filter (open_edge (snd (fst st))) (edges g)) + length (fst (fst st)))%nat.

Lemma open_spec asg t a v : wf asg -> (forall a a', has_edge asg t a -> has_edge asg t a' -> a = a') -> open_edge asg (a, t, v) = false <-> held asg t v.
Proof. intros W Hu. unfold open_edge, held. cbn [fst snd]. destruct (ap_current asg t) as [[e d]|] eqn:E.
  - apply (current_some asg t e d W) in E. split.
    + intros H. apply Z.ltb_ge in H. eauto.
    + intros (a' & v' & H1 & H2). assert (a' = e) as -> by (apply Hu; eexists; eauto). apply Z.ltb_ge. rewrite E in H1. injection H1 as ->. exact H2.
  - split; [discriminate|]. intros (a' & v' & H1 & _). rewrite (current_none asg t W E) in H1. discriminate. Qed.
Lemma filter_le {X} (f f' : X -> bool) l : (forall x, In x l -> f' x = true -> f x = true) -> (length (filter f' l) <= length (filter f l))%nat.
Proof. induction l as [|x l IH]; intros H; [cbn; lia|]. cbn. assert (forall y, In y l -> f' y = true -> f y = true) as H' by (intros; apply H; [right|]; assumption). specialize (IH H'). specialize (H x (or_introl eq_refl)). destruct (f' x); [rewrite (H eq_refl); cbn; lia|]. destruct (f x); cbn; lia. Qed.
Lemma filter_lt {X} (f f' : X -> bool) l x : (forall x, In x l -> f' x = true -> f x = true) -> In x l -> f x = true -> f' x = false -> (length (filter f' l) < length (filter f l))%nat.
Proof. induction l as [|y l IH]; intros H Hin Hf Hf'; [destruct Hin|]. assert (forall y, In y l -> f' y = true -> f y = true) as H' by (intros; apply H; [right|]; assumption). cbn. destruct Hin as [->|Hin].
  - rewrite Hf, Hf'. cbn. pose proof (filter_le f f' l H'). lia.
  - specialize (IH H' Hin Hf Hf'). specialize (H y (or_introl eq_refl)). destruct (f' y); [rewrite (H eq_refl); cbn; lia|]. destruct (f y); cbn; lia. Qed.

(** agent n takes task t *)
Lemma accept_spec n q asg un v t pre post : Inv (n :: q, asg, un) ->
  srt (map (fun e => (snd e, snd (fst e))) (edges_from g n)) = pre ++ (v, t) :: post -> (forall v0 t0, In (v0, t0) pre -> held asg t0 v0) ->
  (match ap_current asg t with Some (_, d) => d | None => vn end <? v) = true ->
  exists st', ap_offer vn n ((v, t) :: post) (q, asg, un) = Ok st' /\ Inv st' /\ (work st' < work (n :: q, asg, un))%nat.
Proof. intros (Ra & Hq1 & Hq2 & He & Hu & Hu2 & Hn & Hun & Hst) Hr Hpre Hlt. pose proof (reachable_wf _ Ra) as W. pose proof (reachable_wf _ R) as Wg. apply NoDup_cons_iff in Hq1. destruct Hq1 as [Hnq Hq1].
  set (rk := map (fun e => (snd e, snd (fst e))) (edges_from g n)) in *. destruct (Hsrt rk) as [Hp Hsort].
  assert (forall v0 t0, In (v0, t0) (srt rk) <-> edge g n t0 = Some v0) as Hrk.
  { intros v0 t0. split; intros H.
    - apply (Permutation_in _ Hp) in H. unfold rk in H. apply in_map_iff in H. destruct H as ([[x y] w] & E & H). cbn in E. injection E as -> ->. apply (In_edges_from g n _ Wg) in H. destruct H as (b & v' & E & H). congruence.
    - apply (Permutation_in _ (Permutation_sym Hp)). unfold rk. apply in_map_iff. exists (n, t0, v0). split; [reflexivity|]. apply (In_edges_from g n _ Wg). eauto. }
  assert (edge g n t = Some v) as Hnt by (apply Hrk; rewrite Hr; apply in_app_iff; right; left; reflexivity).
  assert (has_edge g n t) as Hnt' by (exists v; exact Hnt). destruct (Hag n t Hnt') as [Hn_ag Ht_ag]. pose proof (Hts n t Hnt') as Ht_ts. pose proof (Hvn n t v Hnt) as Hv.
  assert (forall x, edge asg x n = None) as Hn_free. { intros x. destruct (edge asg x n) as [w|] eqn:E; [|reflexivity]. exfalso. destruct (He x n w E) as [_ C]. apply C. left. reflexivity. }
  (* the assignment afterwards *)
  assert (exists asg' q' un', ap_offer vn n ((v, t) :: post) (q, asg, un) = Ok (q', asg', un') /\ reachable asg' /\
     (forall x y, edge asg' x y = if eq_dec x t then (if eq_dec y n then Some v else None) else edge asg x y) /\
     (forall x, In x (nodes asg') <-> In x (nodes asg) \/ x = t \/ x = n) /\
     (forall x, In x q' <-> In x q \/ has_edge asg t x) /\ NoDup q' /\ (length q' <= S (length q))%nat /\ (forall x, In x un -> x <> t -> In x un')) as (asg' & q' & un' & E & Ra' & Ee & En & Eq & Dq & Lq & Eu).
  { cbn [ap_offer]. rewrite Hlt. destruct (ap_current asg t) as [[e d]|] eqn:Ec.
    - apply (current_some asg t e d W) in Ec. assert (contains asg t = true) as -> by (apply contains_In; apply (has_edge_nodes asg t e W); exists d; exact Ec).
      destruct (reachable_del_edge asg t e Ra) as (asg1 & -> & R1 & E1 & N1 & _). cbn [bind]. destruct (reachable_add_edge asg1 t n v R1) as (asg2 & -> & R2 & E2 & N2 & _). cbn [bind].
      exists asg2, (q ++ [e]), un. destruct (He t e d Ec) as [Hge Heq]. splits; auto.
      + intros x y. rewrite E2, E1. destruct (eq_dec x t) as [->|]; [|reflexivity]. destruct (eq_dec y n); [reflexivity|]. destruct (eq_dec y e); [reflexivity|]. destruct (edge asg t y) as [w|] eqn:Ey; [|reflexivity]. exfalso. assert (y = e); [|congruence]. apply (Hu t); [exists w; exact Ey|exists d; exact Ec].
      + intros x. rewrite N2, N1. tauto.
      + intros x. rewrite in_app_iff. cbn. split; [intros [?|[<-|[]]]; [auto|right; exists d; exact Ec]|intros [?|Hx]; [auto|right; left; apply (Hu t); [exists d; exact Ec|exact Hx]]].
      + apply (Permutation_NoDup (Permutation_app_comm [e] q)). constructor; [intros C; apply Heq; right; exact C|exact Hq1].
      + rewrite app_length. cbn. lia.
    - pose proof (current_none asg t W Ec) as Hnone. assert (~ In t (nodes asg)) as Hnt2. { intros C. destruct (Hn t C) as [C'|(a & w & C')]; [contradiction|]. rewrite Hnone in C'. discriminate. }
      assert (contains asg t = false) as -> by (apply contains_notIn, Hnt2). assert (mem t un = true) as -> by (apply mem_In, Hun; assumption).
      destruct (reachable_add_edge asg t n v Ra) as (asg2 & -> & R2 & E2 & N2 & _). cbn [bind]. exists asg2, q, (sremove t un). splits; auto.
      + intros x y. rewrite E2. destruct (eq_dec x t) as [->|]; [|reflexivity]. rewrite Hnone. reflexivity.
      + intros x. split; [auto|intros [?|[w Hx]]; [assumption|]]. rewrite Hnone in Hx. discriminate.
      + intros x Hx Hne. unfold sremove. apply filter_In. split; [exact Hx|]. apply negb_true_iff. unfold eqb. destruct (eq_dec t x); congruence. }
  exists (q', asg', un'). split; [exact E|]. pose proof (reachable_wf _ Ra') as W'.
  assert (edge asg' t n = Some v) as Hnew. { rewrite Ee. destruct (eq_dec t t); [|congruence]. destruct (eq_dec n n); congruence. }
  assert (forall t0 v0, held asg t0 v0 -> held asg' t0 v0) as Hheld.
  { intros t0 v0 (a' & v' & H1 & H2). destruct (eq_dec t0 t) as [->|Hne]; [|exists a', v'; split; [rewrite Ee; destruct (eq_dec t0 t); congruence|exact H2]].
    exists n, v. split; [exact Hnew|]. destruct (ap_current asg t) as [[e d]|] eqn:Ec; [|rewrite (current_none asg t W Ec) in H1; discriminate]. apply (current_some asg t e d W) in Ec. assert (a' = e) as -> by (apply (Hu t); eexists; eauto). rewrite Ec in H1. injection H1 as ->. apply Z.ltb_lt in Hlt. lia. }
  assert (forall t0 a a', has_edge asg' t0 a -> has_edge asg' t0 a' -> a = a') as Hu'.
  { intros t0 a a' [w1 H1] [w2 H2]. rewrite Ee in H1, H2. destruct (eq_dec t0 t); [destruct (eq_dec a n), (eq_dec a' n); congruence|]. apply (Hu t0); eexists; eauto. }
  split.
  - unfold Inv. splits; auto.
    + intros x Hx. apply Eq in Hx. destruct Hx as [Hx|[w Hx]]; [apply Hq2; right; exact Hx|]. destruct (He t x w Hx) as [K _]. apply (Hag x t). exists w. exact K.
    + intros t0 a v0 H. rewrite Ee in H. destruct (eq_dec t0 t) as [->|Hne].
      * destruct (eq_dec a n) as [->|]; [|discriminate]. injection H as <-. split; [exact Hnt|]. rewrite Eq. intros [C|[w C]]; [contradiction|]. rewrite Hn_free in C. discriminate.
      * destruct (He t0 a v0 H) as [K1 K2]. split; [exact K1|]. rewrite Eq. intros [C|C]; [apply K2; right; exact C|]. apply Hne. apply (Hu2 t0 t a); [exists v0; exact H|exact C].
    + intros t1 t2 a [w1 H1] [w2 H2]. rewrite Ee in H1, H2. destruct (eq_dec t1 t) as [->|N1], (eq_dec t2 t) as [->|N2]; [reflexivity| | |apply (Hu2 t1 t2 a); eexists; eauto].
      * destruct (eq_dec a n) as [->|]; [|discriminate]. rewrite Hn_free in H2. discriminate.
      * destruct (eq_dec a n) as [->|]; [|discriminate]. rewrite Hn_free in H1. discriminate.
    + intros x Hx. apply En in Hx. destruct Hx as [Hx|[->| ->]]; [|right; exists n, v; exact Hnew|left; exact Hn_ag]. destruct (Hn x Hx) as [?|(a & w & Ha)]; [auto|right]. destruct (eq_dec x t) as [->|Hne]; [exists n, v; exact Hnew|]. exists a, w. rewrite Ee. destruct (eq_dec x t); congruence.
    + intros t0 H1 H2. apply Eu; [apply Hun; [exact H1|]|]; [intros C; apply H2, En; auto|intros ->; apply H2, En; auto].
    + intros a Ha Hnq' t0 v0 Hv0. destruct (eq_dec a n) as [->|Hne].
      * assert (In (v0, t0) (pre ++ (v, t) :: post)) as Hin by (rewrite <- Hr; apply Hrk, Hv0). apply in_app_iff in Hin. destruct Hin as [Hin|Hin]; [right; apply Hheld, Hpre, Hin|].
        left. exists t, v. split; [exact Hnew|]. destruct Hin as [Hin|Hin]; [injection Hin as <- _; lia|]. rewrite Hr in Hsort. clear - Hsort Hin. induction pre as [|x pre IH]; cbn in Hsort.
        -- apply StronglySorted_inv in Hsort. destruct Hsort as [_ F]. rewrite Forall_forall in F. apply (F _ Hin).
        -- apply StronglySorted_inv in Hsort. apply IH, Hsort.
      * destruct (Hst a Ha) with (t := t0) (v := v0) as [(t' & v' & H1 & H2)|H]; auto.
        { intros [C|C]; [congruence|]. apply Hnq', Eq. auto. }
        left. exists t', v'. split; [|exact H2]. rewrite Ee. destruct (eq_dec t' t) as [->|]; [|exact H1]. exfalso. apply Hnq', Eq. right. exists v'. exact H1.
  - unfold work. cbn [fst snd]. assert (length (filter (open_edge asg') (edges g)) < length (filter (open_edge asg) (edges g)))%nat; [|cbn [length]; lia].
    apply (filter_lt _ _ _ (n, t, v)).
    + intros [[a t0] v0] _ H. destruct (open_edge asg (a, t0, v0)) eqn:Eo; [reflexivity|]. apply (open_spec asg t0 a v0 W (Hu t0)) in Eo. apply Hheld in Eo. apply (open_spec asg' t0 a v0 W' (Hu' t0)) in Eo. congruence.
    + apply (In_edges g n t v Wg), Hnt.
    + unfold open_edge. cbn [fst snd]. destruct (ap_current asg t) as [[e d]|]; [exact Hlt|reflexivity].
    + apply (open_spec asg' t n v W' (Hu' t)). exists n, v. split; [exact Hnew|lia]. Qed.

Lemma offer_spec n q asg un : Inv (n :: q, asg, un) -> forall post pre,
  srt (map (fun e => (snd e, snd (fst e))) (edges_from g n)) = pre ++ post -> (forall v0 t0, In (v0, t0) pre -> held asg t0 v0) ->
  exists st', ap_offer vn n post (q, asg, un) = Ok st' /\ Inv st' /\ (work st' < work (n :: q, asg, un))%nat.
Proof. intros HI. induction post as [|[v t] post IH]; intros pre Hr Hpre.
  - exists (q, asg, un). split; [reflexivity|]. rewrite app_nil_r in Hr. destruct HI as (Ra & Hq1 & Hq2 & He & Hu & Hu2 & Hn & Hun & Hst). apply NoDup_cons_iff in Hq1. destruct Hq1 as [Hnq Hq1]. split; [unfold Inv; splits; auto|unfold work; cbn; lia].
    + intros x Hx. apply Hq2. right. exact Hx.
    + intros t a v H. destruct (He t a v H) as [K1 K2]. split; [exact K1|]. intros C. apply K2. right. exact C.
    + intros a Ha Hna t v Hv. destruct (eq_dec a n) as [->|Hne]; [|apply Hst; auto; intros [?|?]; congruence]. right. apply Hpre. rewrite <- Hr. destruct (Hsrt (map (fun e => (snd e, snd (fst e))) (edges_from g n))) as [Hp _].
      apply (Permutation_in _ (Permutation_sym Hp)). apply in_map_iff. exists (n, t, v). split; [reflexivity|]. apply (In_edges_from g n _ (reachable_wf _ R)). eauto.
  - destruct (match ap_current asg t with Some (_, d) => d | None => vn end <? v) eqn:El; [apply (accept_spec n q asg un v t pre post); auto|].
    cbn [ap_offer]. rewrite El. apply (IH (pre ++ [(v, t)])); [rewrite <- app_assoc; exact Hr|]. intros v0 t0 Hin. apply in_app_iff in Hin. destruct Hin as [Hin|[Hin|[]]]; [apply Hpre, Hin|]. injection Hin as <- <-.
    destruct HI as (Ra & _ & _ & He & _). pose proof (reachable_wf _ Ra) as W. apply Z.ltb_ge in El. destruct (ap_current asg t) as [[e d]|] eqn:Ec; [exists e, d; split; [apply (current_some asg t e d W Ec)|exact El]|].
    exfalso. assert (edge g n t = Some v) as Hnt; [|specialize (Hvn n t v Hnt); lia]. destruct (Hsrt (map (fun e => (snd e, snd (fst e))) (edges_from g n))) as [Hp _].
    assert (In (v, t) (map (fun e => (snd e, snd (fst e))) (edges_from g n))) as Hin by (apply (Permutation_in _ Hp); rewrite Hr; apply in_app_iff; right; left; reflexivity).
    apply in_map_iff in Hin. destruct Hin as ([[x y] w] & E & Hin). cbn in E. injection E as -> ->. apply (In_edges_from g n _ (reachable_wf _ R)) in Hin. destruct Hin as (b & v' & E & Hin). congruence. Qed.

Lemma auction_spec un : (forall t, In t TS -> In t un) -> exists asg, returns (fun n => loop n (ap_step srt g vn) (AG, empty_graph, un)) (Ok asg) /\ Inv ([], asg, un) .
Proof. intros Hun. destruct (loop_returns_nat (ap_step srt g vn) Inv work (fun r => exists asg un', r = Ok asg /\ Inv ([], asg, un'))) with (s := (AG, @empty_graph A O Z, un)) as (r & Hr & asg & un' & -> & HI).
  - intros [[q asg] un0] HI. unfold ap_step. destruct q as [|n q]; [split; [discriminate|eauto]|]. destruct (offer_spec n q asg un0 HI _ [] eq_refl) as (st' & -> & H1 & H2); [intros v0 t0 []|auto].
  - unfold Inv. splits; auto; try (intros; discriminate).
    + apply reachable_empty.
    + intros x Hx. exact Hx.
    + intros t a a' [w H]. discriminate.
    + intros t t' a [w H]. discriminate.
    + intros x [].
    + intros a Ha C. contradiction.
  - exists asg. split; [exact Hr|]. destruct HI as (H1 & H2 & H3 & H4 & H5 & H6 & H7 & H8 & H9). unfold Inv. splits; auto. Qed.
End Auction.
