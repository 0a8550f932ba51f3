(** Proofs about depth first search and depth_scan. *)
From Verif Require Import Prelude PreludeFacts Base BaseFacts BaseFacts2 BaseFacts3 Spec SpecFacts Loop SearchFacts BaseAlgFacts Dfs.

Section F.
Context {A O V : Type} {EA : EqDec A}.
Notation graph := (graph A O V).
Implicit Types (g : graph) (a b x y : A).

Lemma dfs_next_spec vis l : match dfs_next vis l with
  | Some n => In n l /\ ~ In n vis | None => forall x, In x l -> In x vis end.
Proof. induction l as [|n l IH]; cbn; [tauto|]. destruct (mem_spec n vis) as [h|h].
  - destruct (dfs_next vis l); [tauto|]. intros x [<-|Hx]; auto.
  - auto. Qed.
Lemma lremove_snoc x (l : list A) : ~ In x l -> lremove x (l ++ [x]) = l.
Proof. induction l as [|y l IH]; cbn; intros H.
  - destruct (eq_dec x x); [reflexivity|congruence].
  - destruct (eq_dec x y) as [->|Hn]; [tauto|]. f_equal. apply IH. tauto. Qed.
Lemma rev_nil_inv (l : list A) : rev l = [] -> l = [].
Proof. intros H. rewrite <- (rev_involutive l), H. reflexivity. Qed.
Lemma rev_cons_snoc (l : list A) n t : rev l = n :: t -> l = rev t ++ [n].
Proof. intros H. rewrite <- (rev_involutive l), H. reflexivity. Qed.

(** [on_path R s p]: p is empty, or a path starting in s *)
Definition on_path (R : A -> A -> Prop) s (p : list A) : Prop := p = [] \/ exists l, path R s p l.
Lemma on_path_removelast (R : A -> A -> Prop) s p n : on_path R s (p ++ [n]) -> on_path R s p.
Proof. intros [H|[l H]]; [destruct p; discriminate|]. destruct p as [|a p]; [left; reflexivity|right].
  apply path_snoc_inv in H; [|congruence]. destruct H as (_ & x & Hx & _). eauto. Qed.
Lemma on_path_snoc (R : A -> A -> Prop) s p n m : on_path R s (p ++ [n]) -> R n m -> on_path R s ((p ++ [n]) ++ [m]).
Proof. intros [H|[l H]] HR; [destruct p; discriminate|]. right. exists m. apply path_snoc with (b := n); [|exact HR].
  assert (l = n) as <-; [|exact H]. pose proof (path_last R s _ l l H) as E. rewrite last_last in E. auto. Qed.

(** The common invariant.  [ok] marks the nodes the search is allowed to expand. *)
Record dinv (R : A -> A -> Prop) (ok : A -> bool) (U : list A) s (q p vis : list A) : Prop := {
  d_q : q = [] \/ exists n, q = [n] /\ ~ In n vis /\ In n U /\ ok n = true /\ on_path R s (p ++ [n]);
  d_p : on_path R s p;
  d_nd : NoDup p;
  d_pv : incl p vis;
  d_vU : incl vis U;
  d_vn : NoDup vis;
  d_fin : forall x y, In x vis -> ~ In x p -> ok x = true -> R x y -> In y vis;
  d_start : In s vis \/ q = [s];
  d_reach : forall x, In x vis \/ In x q -> reach (fun x y => ok x = true /\ R x y) s x;
  d_okp : forall x, In x p -> ok x = true }.
Definition dmu (U : list A) (st : list A * list A * list A) : nat :=
  3 * unseen U (snd st) + 2 * length (snd (fst st)) + (if is_nil (fst (fst st)) then 1 else 0).

Lemma scan_next_spec crit vis l : match scan_next crit vis l with (o, vis') =>
  incl vis vis' /\ (NoDup vis -> NoDup vis') /\ (forall x, In x vis' -> In x vis \/ (In x l /\ crit x = false)) /\
  match o with Some n => In n l /\ ~ In n vis' /\ crit n = true | None => forall x, In x l -> In x vis' end end.
Proof. revert vis. induction l as [|n l IH]; intros vis; cbn; [splits; auto; intros ?; tauto|].
  destruct (mem_spec n vis) as [h|h].
  - specialize (IH vis). destruct (scan_next crit vis l) as [o vis']. destruct IH as (H1 & H2 & H3 & H4). splits; auto.
    + intros x Hx. destruct (H3 x Hx); tauto.
    + destruct o; [tauto|]. intros x [<-|Hx]; auto.
  - destruct (crit n) eqn:Ec; cbn.
    + splits; auto. intros x Hx; exact Hx.
    + specialize (IH (sadd n vis)). destruct (scan_next crit (sadd n vis) l) as [o vis']. destruct IH as (H1 & H2 & H3 & H4). splits.
      * intros x Hx. apply H1, In_sadd; auto.
      * intros Hn. apply H2, NoDup_sadd, Hn.
      * intros x Hx. destruct (H3 x Hx) as [Hx'|?]; [|tauto]. apply In_sadd in Hx'. destruct Hx' as [->|?]; tauto.
      * destruct o; [tauto|]. intros x [<-|Hx]; [apply H1, In_sadd; auto|auto]. Qed.

(** one generic expansion step: node n (last of the path) looks for its next successor *)
Section Step.
Variables (R : A -> A -> Prop) (ok : A -> bool) (U : list A) (s : A).
Hypothesis HU : forall x y, R x y -> In y U.

Lemma dinv_pop p vis n : dinv R ok U s [n] p vis ->
  dinv R ok U s [] (p ++ [n]) (sadd n vis) /\ ~ In n vis /\ ~ In n p /\ In n U.
Proof. intros D. destruct (d_q _ _ _ _ _ _ _ D) as [C|(n' & E & Hv & HnU & Hok & Hp)]; [discriminate|]. inv E.
  assert (~ In n' p) as Hnp by (intros C; apply Hv, (d_pv _ _ _ _ _ _ _ D), C).
  splits; auto. constructor; auto.
  - apply NoDup_app_single; [apply D|exact Hnp].
  - intros x Hx. apply In_sadd. apply in_app_iff in Hx. destruct Hx as [Hx|[<-|[]]]; [right; apply D, Hx|auto].
  - intros x Hx. apply In_sadd in Hx. destruct Hx as [->|Hx]; [exact HnU|apply D, Hx].
  - apply NoDup_sadd, D.
  - intros x y Hx Hn He HR. apply In_sadd in Hx. rewrite in_app_iff in Hn. cbn in Hn. destruct Hx as [->|Hx]; [tauto|].
    apply In_sadd. right. eapply (d_fin _ _ _ _ _ _ _ D); eauto.
  - left. apply In_sadd. destruct (d_start _ _ _ _ _ _ _ D) as [?|E]; [auto|inv E; auto].
  - intros x [Hx|[]]. apply (d_reach _ _ _ _ _ _ _ D). apply In_sadd in Hx. cbn. destruct Hx as [->|?]; auto.
  - intros x Hx. apply in_app_iff in Hx. destruct Hx as [Hx|[<-|[]]]; [eapply (d_okp _ _ _ _ _ _ _ D); eauto|auto]. Qed.

(** found a successor m of the last path node; vis' may contain extra rejected successors *)
Lemma dinv_down p vis n m vis' : dinv R ok U s [] (p ++ [n]) vis ->
  incl vis vis' -> NoDup vis' -> (forall x, In x vis' -> In x vis \/ (R n x /\ ok x = false)) ->
  R n m -> ~ In m vis' -> ok m = true -> dinv R ok U s [m] (p ++ [n]) vis'.
Proof. intros D H1 H2 H3 H4 H5 H6.
  assert (reach (fun x y => ok x = true /\ R x y) s n) as Hrn by (apply (d_reach _ _ _ _ _ _ _ D); left; apply D; apply in_or_app; cbn; auto).
  assert (ok n = true) as Hokn by (apply (d_okp _ _ _ _ _ _ _ D); apply in_or_app; cbn; auto).
  constructor; try apply D.
  - right. exists m. splits; auto; [eapply HU; eauto|]. apply on_path_snoc; [apply D|exact H4].
  - intros x Hx. apply H1, D, Hx.
  - intros x Hx. destruct (H3 x Hx) as [?|[? _]]; [apply D; assumption|eapply HU; eauto].
  - exact H2.
  - intros x y Hx Hn Ho HR. destruct (H3 x Hx) as [Hx'|[_ C]]; [|congruence]. apply H1. eapply (d_fin _ _ _ _ _ _ _ D); eauto.
  - left. destruct (d_start _ _ _ _ _ _ _ D) as [?|C]; [auto|discriminate].
  - intros x [Hx|[<-|[]]].
    + destruct (H3 x Hx) as [Hx'|[Hx' _]]; [apply (d_reach _ _ _ _ _ _ _ D); auto|]. eapply reach_snoc; [exact Hrn|]. auto.
    + eapply reach_snoc; [exact Hrn|]. auto. Qed.

Lemma dinv_up p vis n vis' : dinv R ok U s [] (p ++ [n]) vis ->
  incl vis vis' -> NoDup vis' -> (forall x, In x vis' -> In x vis \/ (R n x /\ ok x = false)) ->
  (forall m, R n m -> In m vis') -> dinv R ok U s [] p vis'.
Proof. intros D H1 H2 H3 H4.
  assert (reach (fun x y => ok x = true /\ R x y) s n) as Hrn by (apply (d_reach _ _ _ _ _ _ _ D); left; apply D; apply in_or_app; cbn; auto).
  assert (ok n = true) as Hokn by (apply (d_okp _ _ _ _ _ _ _ D); apply in_or_app; cbn; auto).
  constructor; auto.
  - eapply on_path_removelast, D.
  - pose proof (d_nd _ _ _ _ _ _ _ D) as Hn. apply NoDup_app_iff in Hn. tauto.
  - intros x Hx. apply H1, D, in_or_app. auto.
  - intros x Hx. destruct (H3 x Hx) as [?|[? _]]; [apply D; assumption|eapply HU; eauto].
  - intros x y Hx Hn Ho HR. destruct (eq_dec x n) as [->|Hne]; [auto|]. destruct (H3 x Hx) as [Hx'|[_ C]]; [|congruence].
    apply H1. apply (d_fin _ _ _ _ _ _ _ D x); auto. rewrite in_app_iff. cbn. intros [?|[?|[]]]; congruence.
  - left. destruct (d_start _ _ _ _ _ _ _ D) as [?|C]; [auto|discriminate].
  - intros x [Hx|[]]. destruct (H3 x Hx) as [Hx'|[Hx' _]]; [apply (d_reach _ _ _ _ _ _ _ D); auto|]. eapply reach_snoc; [exact Hrn|]. auto.
  - intros x Hx. apply (d_okp _ _ _ _ _ _ _ D), in_or_app. auto. Qed.

Lemma dinv_init : In s U -> ok s = true -> dinv R ok U s [s] [] [].
Proof. intros Hs Ho. constructor; cbn; auto.
  - right. exists s. splits; auto. right. exists s. constructor.
  - left. reflexivity.
  - constructor.
  - intros ? [].
  - intros ? [].
  - constructor.
  - intros x [[]|[<-|[]]]. apply reach_refl. Qed.
Lemma dinv_end vis : dinv R ok U s [] [] vis -> ok s = true -> forall x, In x vis <-> reach (fun x y => ok x = true /\ R x y) s x.
Proof. intros D Ho x. split; [intros Hx; apply (d_reach _ _ _ _ _ _ _ D); auto|].
  apply reach_closed_in; [destruct (d_start _ _ _ _ _ _ _ D) as [?|C]; [auto|discriminate]|].
  intros u w Hu [Ho' HR]. apply (d_fin _ _ _ _ _ _ _ D u); auto. Qed.
End Step.

Lemma dfs_spec g a b : wf g -> In a (nodes g) -> In b (nodes g) ->
  exists r, returns (fun n => depth_first_search n g a b) (Ok r) /\
    match r with Some p => simple_path (has_edge g) a p b | None => ~ reach (has_edge g) a b end.
Proof. intros W Ha Hb. set (R := has_edge g). unfold depth_first_search.
  assert (contains g a = true) as -> by (apply contains_In, Ha). assert (contains g b = true) as -> by (apply contains_In, Hb). cbn [negb].
  assert (forall x y, R x y -> In y (nodes g)) as HU by (intros x y H; apply (has_edge_nodes g x y W H)).
  set (ok := fun _ : A => true).
  pose (I := fun st : list A * list A * list A => let '(q, p, vis) := st in dinv R ok (nodes g) a q p vis /\ ~ In b vis).
  destruct (loop_returns_nat (dfs_step g b) I (dmu (nodes g))
    (fun r => exists t, r = Ok t /\ match t with Some p => simple_path R a p b | None => ~ reach R a b end))
    with (s := ([a], @nil A, @nil A)) as (r & Hr & t & -> & HN).
  - intros [[q p] vis] [D Hnb]. unfold dfs_step. destruct q as [|n1 q].
    + destruct (rev p) as [|n t] eqn:Er.
      * apply rev_nil_inv in Er. subst p. split; [discriminate|]. exists None. split; [reflexivity|]. intros Hr. apply Hnb.
        apply (dinv_end R ok (nodes g) a vis D eq_refl). eapply reach_mono; [|exact Hr]. intros; split; [reflexivity|assumption].
      * apply rev_cons_snoc in Er. subst p. pose proof (dfs_next_spec vis (nodes_from g n)) as Hx.
        destruct (dfs_next vis (nodes_from g n)) as [m|].
        -- destruct Hx as [Hm Hnm]. apply In_from in Hm; [|exact W]. split; [split; [|exact Hnb]|].
           ++ apply (dinv_down R ok (nodes g) a HU _ vis); auto; [intros ? ?; auto|apply D].
           ++ unfold dmu; cbn. lia.
        -- rewrite removelast_last. split; [split; [|exact Hnb]|].
           ++ apply (dinv_up R ok (nodes g) a HU _ vis n); auto; [intros ? ?; auto|apply D|]. intros m Hm. apply Hx, In_from; assumption.
           ++ unfold dmu; cbn. rewrite app_length. cbn. lia.
    + assert (q = []) as -> by (destruct (d_q _ _ _ _ _ _ _ D) as [C|(m & E & _)]; [discriminate|inv E; reflexivity]).
      destruct (dinv_pop R ok (nodes g) a p vis n1 D) as (D' & Hn1 & Hnp & HnU).
      destruct (eq_dec n1 b) as [->|Hne].
      * split; [discriminate|]. exists (Some (p ++ [b])). split; [reflexivity|]. split; [|apply D'].
        destruct (d_p _ _ _ _ _ _ _ D') as [C|[l Hl]]; [destruct p; discriminate|].
        assert (l = b) as <-; [|exact Hl]. pose proof (path_last R a _ l l Hl) as E. rewrite last_last in E. auto.
      * pose proof (unseen_sadd_lt (nodes g) vis n1 HnU Hn1) as Hlt.
        assert (~ In b (sadd n1 vis)) as Hnb' by (rewrite In_sadd; intros [?|?]; congruence).
        pose proof (dfs_next_spec (sadd n1 vis) (nodes_from g n1)) as Hx.
        destruct (dfs_next (sadd n1 vis) (nodes_from g n1)) as [m|].
        -- destruct Hx as [Hm Hnm]. apply In_from in Hm; [|exact W]. split; [split; [|exact Hnb']|].
           ++ apply (dinv_down R ok (nodes g) a HU _ (sadd n1 vis)); auto; [intros ? ?; auto|apply D'].
           ++ unfold dmu; cbn [fst snd is_nil]. rewrite app_length. cbn [length]. lia.
        -- rewrite lremove_snoc by exact Hnp. split; [split; [|exact Hnb']|].
           ++ apply (dinv_up R ok (nodes g) a HU _ (sadd n1 vis) n1); auto; [intros ? ?; auto|apply D'|]. intros m Hm. apply Hx, In_from; assumption.
           ++ unfold dmu; cbn [fst snd is_nil]. lia.
  - split; [apply dinv_init; auto|intros []].
  - exists t. auto. Qed.

Lemma depth_scan_spec g a crit : wf g -> In a (nodes g) -> crit a = true ->
  exists r, returns (fun n => depth_scan n g a crit) (Ok r) /\ NoDup r /\
    forall x, In x r <-> reach (fun x y => crit x = true /\ has_edge g x y) a x.
Proof. intros W Ha Hc. set (R := has_edge g). unfold depth_scan.
  assert (contains g a = true) as -> by (apply contains_In, Ha). rewrite Hc. cbn [negb].
  assert (forall x y, R x y -> In y (nodes g)) as HU by (intros x y H; apply (has_edge_nodes g x y W H)).
  pose (I := fun st : list A * list A * list A => let '(q, p, vis) := st in dinv R crit (nodes g) a q p vis).
  destruct (loop_returns_nat (scan_step g crit) I (dmu (nodes g))
    (fun r => exists t, r = Ok t /\ NoDup t /\ forall x, In x t <-> reach (fun x y => crit x = true /\ R x y) a x))
    with (s := ([a], @nil A, @nil A)) as (r & Hr & t & -> & HN).
  - intros [[q p] vis] D. unfold scan_step. destruct q as [|n1 q].
    + destruct (rev p) as [|n t] eqn:Er.
      * apply rev_nil_inv in Er. subst p. split; [discriminate|]. exists vis. splits; [reflexivity|apply D|].
        apply (dinv_end R crit (nodes g) a vis D Hc).
      * apply rev_cons_snoc in Er. subst p. pose proof (scan_next_spec crit vis (nodes_from g n)) as Hx.
        destruct (scan_next crit vis (nodes_from g n)) as [[m|] vis'].
        -- destruct Hx as (X1 & X2 & X3 & Hm & Hnm & Hcm). apply In_from in Hm; [|exact W]. split.
           ++ apply (dinv_down R crit (nodes g) a HU _ vis); auto; [apply X2, D|]. intros x Hx. destruct (X3 x Hx) as [?|[Hx' ?]]; [auto|]. apply In_from in Hx'; auto.
           ++ unfold dmu; cbn. pose proof (unseen_le (nodes g) vis vis' (fun x _ => X1 x)). lia.
        -- rewrite removelast_last. destruct Hx as (X1 & X2 & X3 & X4). split.
           ++ apply (dinv_up R crit (nodes g) a HU _ vis n); auto; [apply X2, D| |].
              ** intros x Hx. destruct (X3 x Hx) as [?|[Hx' ?]]; [auto|]. apply In_from in Hx'; auto.
              ** intros m Hm. apply X4, In_from; assumption.
           ++ unfold dmu; cbn. rewrite app_length. cbn. pose proof (unseen_le (nodes g) vis vis' (fun x _ => X1 x)). lia.
    + assert (q = []) as -> by (destruct (d_q _ _ _ _ _ _ _ D) as [C|(m & E & _)]; [discriminate|inv E; reflexivity]).
      destruct (dinv_pop R crit (nodes g) a p vis n1 D) as (D' & Hn1 & Hnp & HnU).
      pose proof (unseen_sadd_lt (nodes g) vis n1 HnU Hn1) as Hlt.
      pose proof (scan_next_spec crit (sadd n1 vis) (nodes_from g n1)) as Hx.
      destruct (scan_next crit (sadd n1 vis) (nodes_from g n1)) as [[m|] vis'].
      * destruct Hx as (X1 & X2 & X3 & Hm & Hnm & Hcm). apply In_from in Hm; [|exact W]. split.
        -- apply (dinv_down R crit (nodes g) a HU _ (sadd n1 vis)); auto; [apply X2, D'|].
           intros x Hx. destruct (X3 x Hx) as [?|[Hx' ?]]; [auto|]. apply In_from in Hx'; auto.
        -- unfold dmu; cbn [fst snd is_nil]. rewrite app_length. cbn [length]. pose proof (unseen_le (nodes g) (sadd n1 vis) vis' (fun x _ => X1 x)). lia.
      * rewrite lremove_snoc by exact Hnp. destruct Hx as (X1 & X2 & X3 & X4). split.
        -- apply (dinv_up R crit (nodes g) a HU _ (sadd n1 vis) n1); auto; [apply X2, D'| |].
           ++ intros x Hx. destruct (X3 x Hx) as [?|[Hx' ?]]; [auto|]. apply In_from in Hx'; auto.
           ++ intros m Hm. apply X4, In_from; assumption.
        -- unfold dmu; cbn [fst snd is_nil]. pose proof (unseen_le (nodes g) (sadd n1 vis) vis' (fun x _ => X1 x)). lia.
  - apply dinv_init; auto.
  - exists t. destruct HN. auto. Qed.
End F.
