(** Proofs about critical_path_minimize_for_slack. *)
From Verif Require Import Prelude PreludeFacts Base BaseFacts BaseFacts2 BaseFacts3 Spec SpecFacts Loop SearchFacts BaseAlgFacts Topo TopoFacts Dag DagFacts Cpm CpmFacts.
Local Open Scope Z_scope.

Lemma in_sort_desc {X} (key : X -> Z) (l : list X) : forall x, In x (sort_desc key l) <-> In x l.
Proof. intros x. unfold sort_desc.
  assert (forall l s, In x (fold_left (fun s x => insert_desc key x s) l s) <-> In x l \/ In x s) as H.
  { clear l. induction l as [|y l IH]; intros s; cbn; [tauto|]. rewrite IH.
    assert (In x (insert_desc key y s) <-> x = y \/ In x s) as ->; [|intuition auto].
    induction s as [|z s IHs]; cbn; [intuition auto|]. destruct (key y <=? key z); cbn; [rewrite IHs|]; intuition auto. }
  rewrite H. cbn. tauto. Qed.

Section S.
Context {A V : Type} {EA : EqDec A}.
Notation graph := (graph A Z V).
Implicit Types (g ng : graph) (x y a b : A) (srt : list A -> list A).

(** same tasks, durations and dependencies *)
Definition same_plan g1 g2 : Prop :=
  (forall x, In x (nodes g1) <-> In x (nodes g2)) /\ (forall x, node g1 x = node g2 x) /\ (forall x y, has_edge g1 x y <-> has_edge g2 x y).
Lemma same_plan_sym g1 g2 : same_plan g1 g2 -> same_plan g2 g1.
Proof. intros (H1 & H2 & H3). hnf; splits; [intros x; symmetry; apply H1|intros x; symmetry; apply H2|intros x y; symmetry; apply H3]. Qed.
Lemma same_total g1 g2 p : same_plan g1 g2 -> total_duration g1 p = total_duration g2 p.
Proof. intros (_ & H & _). induction p as [|x p IH]; cbn; [reflexivity|]. unfold duration. rewrite H, IH. reflexivity. Qed.
Lemma same_path' g1 g2 a p b : same_plan g1 g2 -> path (has_edge g1) a p b -> path (has_edge g2) a p b.
Proof. intros (_ & _ & H). apply path_mono. intros x y _ _. apply H. Qed.
Lemma same_to g1 g2 x t : same_plan g1 g2 -> heaviest_to g1 x t -> heaviest_to g2 x t.
Proof. intros H [(a & p & Hp & Hw) Hm]. split.
  - exists a, p. split; [eapply same_path'; eauto|]. rewrite <- (same_total g1 g2 p H). exact Hw.
  - intros c q Hq. rewrite <- (same_total g1 g2 q H). apply (Hm c q). apply (same_path' g2 g1); [apply same_plan_sym, H|exact Hq]. Qed.
Lemma same_from g1 g2 x t : same_plan g1 g2 -> heaviest_from g1 x t -> heaviest_from g2 x t.
Proof. intros H [(a & p & Hp & Hw) Hm]. split.
  - exists a, p. split; [eapply same_path'; eauto|]. rewrite <- (same_total g1 g2 p H). exact Hw.
  - intros c q Hq. rewrite <- (same_total g1 g2 q H). apply (Hm c q). apply (same_path' g2 g1); [apply same_plan_sym, H|exact Hq]. Qed.

Lemma dvals_zsum (f : A -> Z) (d : dict A task) : NoDup (dkeys d) -> (forall x t, dget x d = Some t -> t_slack t = f x) -> total_slack d = zsum (map f (dkeys d)).
Proof. unfold total_slack, dvals, dkeys. intros Hnd H. rewrite !map_map. f_equal. apply map_ext_in. intros [x t] Hx. cbn. apply H. apply In_dget; auto. Qed.

Lemma schedule_unique g1 g2 c1 d1 c2 d2 : NoDup (nodes g1) -> NoDup (nodes g2) -> same_plan g1 g2 -> schedule_ok g1 c1 d1 -> schedule_ok g2 c2 d2 ->
  c1 = c2 /\ total_slack d1 = total_slack d2.
Proof. intros N1 N2 HS (P1 & E1 & L1 & T1 & _) (P2 & E2 & L2 & T2 & _). pose proof (same_plan_sym _ _ HS) as HS'.
  assert (c1 = c2) as <-.
  { destruct E1 as [[E1 ->]|(a1 & p1 & b1 & Hp1 & Hb1 & W1)], E2 as [[E2 ->]|(a2 & p2 & b2 & Hp2 & Hb2 & W2)].
    - reflexivity.
    - apply HS in Hb2. rewrite E1 in Hb2. destruct Hb2.
    - apply HS in Hb1. rewrite E2 in Hb1. destruct Hb1.
    - pose proof (L2 a1 p1 b1 (proj1 (proj1 HS b1) Hb1) (same_path' _ _ _ _ _ HS Hp1)) as H1.
      pose proof (L1 a2 p2 b2 (proj2 (proj1 HS b2) Hb2) (same_path' _ _ _ _ _ HS' Hp2)) as H2.
      rewrite <- (same_total _ _ _ HS) in H1. rewrite (same_total _ _ _ HS) in H2. lia. }
  split; [reflexivity|].
  pose (f := fun x => match dget x d1 with Some t => t_slack t | None => 0 end).
  assert (NoDup (dkeys d1)) as D1 by (eapply Permutation_NoDup; [symmetry; exact P1|exact N1]).
  assert (NoDup (dkeys d2)) as D2 by (eapply Permutation_NoDup; [symmetry; exact P2|exact N2]).
  rewrite (dvals_zsum f d1 D1) by (intros x t Et; unfold f; rewrite Et; reflexivity).
  rewrite (dvals_zsum f d2 D2).
  - apply zsum_perm, Permutation_map. rewrite P1, P2. apply NoDup_Permutation; [exact N1|exact N2|apply HS].
  - intros x t Et. unfold f. destruct (dget_key x d1) as (u & Eu).
    { apply (Permutation_in x (Permutation_sym P1)), HS, (Permutation_in x P2). eapply dget_Some_key; eauto. }
    rewrite Eu. destruct (T1 _ _ Eu) as [((X1 & X2 & _ & X3 & _) & X4 & X5) _]. destruct (T2 _ _ Et) as [((Y1 & Y2 & _ & Y3 & _) & Y4 & Y5) _].
    pose proof (heaviest_to_fun _ _ _ _ (same_to _ _ _ _ HS X3) Y3) as Ha. pose proof (heaviest_from_fun _ _ _ _ (same_from _ _ _ _ HS X5) Y5) as Hb.
    assert (duration g1 x = duration g2 x) as Hd by (unfold duration; rewrite (proj1 (proj2 HS)); reflexivity).
    unfold t_slack. lia. Qed.

Lemma critical_path_total srt g : wf g -> (forall l, Permutation (srt l) l) -> plan g ->
  exists r, returns (fun n => critical_path srt n g) r /\
    match r with Ok (cpl, d) => acyclic (has_edge g) /\ schedule_ok g cpl d | Err e => e = AttributeError /\ ~ acyclic (has_edge g) | OutOfFuel => False end.
Proof. intros W Hs HP. destruct (topological_sort_spec srt g W Hs) as (order & err & Hr & _ & _ & _ & Hc).
  destruct Hc as [(-> & Hac & _)|(-> & x & _ & _ & Hx)].
  - destruct (critical_path_spec srt g W Hs HP Hac) as (cpl & d & HR & HO). exists (Ok (cpl, d)). auto.
  - exists (Err AttributeError). split; [eapply critical_path_cyclic; eauto|]. split; [reflexivity|]. intros C. apply (C x Hx). Qed.
End S.

Section M.
Context {A : Type} {EA : EqDec A}.
Notation graph := (graph A Z Z).
Implicit Types (g ng : graph) (x y a b : A) (srt : list A -> list A).

(** the intermediate graphs *)
Definition kept g cpl slack ng : Prop :=
  wf ng /\ (forall x, In x (nodes ng) <-> In x (nodes g)) /\ (forall x, node ng x = node g x) /\
  (forall a b v, edge g a b = Some v -> edge ng a b = Some v) /\ acyclic (has_edge ng) /\ exists d, schedule_ok ng cpl d /\ total_slack d = slack.
Lemma kept_plan g cpl slack ng : plan g -> kept g cpl slack ng -> plan ng.
Proof. intros HP (_ & HN & HO & _) x Hx. apply contains_In, HN, contains_In in Hx. rewrite HO. apply HP, Hx. Qed.
Lemma kept_same g cpl slack ng ng' srt : plan g -> (forall l, Permutation (srt l) l) -> kept g cpl slack ng -> wf ng' -> same_plan ng ng' ->
  (forall a b v, edge g a b = Some v -> edge ng' a b = Some v) -> kept g cpl slack ng'.
Proof. intros HP Hs HK W' HS HE. pose proof HK as (W & HN & HO & _ & Hac & d & Hd & Hsl).
  assert (acyclic (has_edge ng')) as Hac'.
  { intros x (c & Hc & Hr). apply (Hac x). exists c. split; [apply HS, Hc|]. eapply reach_mono; [|exact Hr]. intros u v. apply HS. }
  assert (plan ng') as HP'.
  { intros x Hx. apply contains_In, HS, HN, contains_In in Hx. rewrite <- (proj1 (proj2 HS)), HO. apply HP, Hx. }
  destruct (critical_path_spec srt ng' W' Hs HP' Hac') as (c' & d' & _ & Hd').
  destruct (schedule_unique ng ng' cpl d c' d') as [<- Hsl']; auto; try apply W; try apply W'.
  hnf; splits; auto.
  - intros x. rewrite <- HN. symmetry. apply HS.
  - intros x. rewrite <- HO. symmetry. apply HS.
  - exists d'. split; [exact Hd'|lia]. Qed.

Lemma try_spec srt g phases cpl n1 ng slack0 stop n2 slack : (forall l, Permutation (srt l) l) -> wf g -> plan g ->
  (forall x, In x (nodes g) -> In x (dkeys phases)) -> In n1 (nodes g) -> In n2 (nodes g) ->
  kept g cpl slack ng -> slack <= slack0 ->
  exists r, returns (fun n => ms_try srt n phases cpl n1 (ng, slack, stop) n2) r /\
    match r with Ok (ng', slack', _) => kept g cpl slack' ng' /\ slack' <= slack0 | Err e => e = AttributeError | OutOfFuel => False end.
Proof. intros Hs W HP Hph H1 H2 HK Hle. unfold ms_try.
  assert (exists r, returns (fun _ => Ok (ng, slack, stop)) r /\
    match r with Ok (ng', slack', _) => kept g cpl slack' ng' /\ slack' <= slack0 | Err e => e = AttributeError | OutOfFuel => False end) as Hskip.
  { exists (Ok (ng, slack, stop)). split; [apply returns_const; discriminate|auto]. }
  destruct stop; [exact Hskip|]. destruct (eqb n2 n1); [exact Hskip|].
  destruct (dget_key n2 phases (Hph _ H2)) as (p2 & ->). destruct (dget_key n1 phases (Hph _ H1)) as (p1 & ->).
  destruct (negb (p1 <=? p2)); [exact Hskip|]. destruct (edge ng n2 n1); [exact Hskip|]. cbn [negb].
  destruct (edge ng n1 n2) eqn:E12; [exact Hskip|]. cbn [negb]. clear Hskip.
  pose proof HK as (Wn & HN & HO & HE & Hac & d & Hd & Hsl).
  rewrite add_edge_eq by exact Wn. cbn [bind]. unfold add_edge_result. set (ng1 := add_edge1_result ng n1 n2 1).
  assert (wf ng1) as W1 by (apply wf_add_edge1_result, Wn).
  assert (nodes ng1 = nodes ng) as N1.
  { unfold ng1. rewrite nodes_add_edge1_result, (sadd_in n1), (sadd_in n2); auto; apply HN; auto. }
  assert (forall x y, edge ng1 x y = if eq_dec x n1 then (if eq_dec y n2 then Some 1 else edge ng x y) else edge ng x y) as E1 by (intros; apply edge_add_edge1_result).
  assert (forall x, node ng1 x = node ng x) as O1 by (intros; apply node_add_edge1_result).
  assert (plan ng1) as HP1.
  { intros x Hx. apply contains_In in Hx. rewrite N1, HN in Hx. apply contains_In in Hx. rewrite O1, HO. apply HP, Hx. }
  destruct (critical_path_total srt ng1 W1 Hs HP1) as (r & Hr & Hc). destruct r as [[c2 d2]|e|]; [| |destruct Hc].
  2:{ exists (Err e). split; [|apply Hc]. refine (returns_bind_err _ (fun n r2 => _) e Hr). }
  destruct Hc as [Hac1 Hd2].
  assert (forall a b v, edge g a b = Some v -> edge ng1 a b = Some v) as HE1.
  { intros a b v Hv. apply HE in Hv. rewrite E1. destruct (eq_dec a n1) as [->|]; [|exact Hv]. destruct (eq_dec b n2) as [->|]; [congruence|exact Hv]. }
  assert (exists ng2, del_edge ng1 n1 n2 = Ok ng2 /\ kept g cpl slack ng2) as (ng2 & Edel & K2).
  { rewrite del_edge_eq by exact W1. eexists. split; [reflexivity|].
    apply (kept_same g cpl slack ng _ srt HP Hs HK); [apply wf_del_edge_result, W1| |].
    - hnf; splits.
      + intros x. rewrite nodes_del_edge_result, N1. reflexivity.
      + intros x. rewrite node_del_edge_result, O1. reflexivity.
      + intros x y. unfold has_edge. rewrite edge_del_edge_result, E1 by exact W1.
        destruct (eq_dec x n1) as [->|]; [|reflexivity]. destruct (eq_dec y n2) as [->|]; [rewrite E12|]; reflexivity.
    - intros a b v Hv. pose proof (HE a b v Hv) as Hv'. rewrite edge_del_edge_result, E1 by exact W1.
      destruct (eq_dec a n1) as [->|]; [|exact Hv']. destruct (eq_dec b n2) as [->|]; [congruence|exact Hv']. }
  assert (kept g c2 (total_slack d2) ng1) as K1.
  { hnf; splits; auto; [intros x; rewrite N1; apply HN|intros x; rewrite O1; apply HO|exists d2; auto]. }
  pose (res1 := if negb (c2 =? cpl) then Ok (ng2, slack, false) else if (total_slack d2 <? slack) && (cpl =? c2) then Ok (ng1, total_slack d2, total_slack d2 =? 0) else Ok (ng2, slack, false)).
  exists res1. split.
  - refine (returns_bind _ (fun n r2 => _) (c2, d2) _ Hr _). cbn [fst snd]. rewrite Edel. cbn [bind].
    apply (returns_ext (fun _ => res1)); [intros n; unfold res1; destruct (negb (c2 =? cpl)); [reflexivity|]; destruct ((total_slack d2 <? slack) && (cpl =? c2)); reflexivity|].
    apply returns_const. unfold res1. destruct (negb (c2 =? cpl)); [discriminate|]. destruct ((total_slack d2 <? slack) && (cpl =? c2)); discriminate.
  - unfold res1. destruct (c2 =? cpl) eqn:Ec; cbn [negb]; [|auto]. apply Z.eqb_eq in Ec. subst c2.
    destruct ((total_slack d2 <? slack) && (cpl =? cpl)) eqn:Eb; [|auto]. apply andb_true_iff in Eb. destruct Eb as [Eb _]. apply Z.ltb_lt in Eb. split; [exact K1|lia]. Qed.

Lemma purge_spec srt g cpl slack ng e : (forall l, Permutation (srt l) l) -> wf g -> plan g -> kept g cpl slack ng -> has_edge ng (fst (fst e)) (snd (fst e)) ->
  exists ng', returns (fun n => ms_purge srt n g cpl slack ng e) (Ok ng') /\ kept g cpl slack ng' /\
    forall x y, (x, y) <> fst e -> has_edge ng x y -> has_edge ng' x y.
Proof. intros Hs W HP HK He. destruct e as [[n1 n2] w]. cbn [fst snd] in *. unfold ms_purge. destruct (edge g n1 n2) eqn:Eg.
  { exists ng. split; [apply returns_const; discriminate|auto]. }
  pose proof HK as (Wn & HN & HO & HE & Hac & d & Hd & Hsl).
  rewrite del_edge_eq by exact Wn. cbn [bind]. set (ng1 := del_edge_result ng n1 n2).
  assert (wf ng1) as W1 by (apply wf_del_edge_result, Wn).
  assert (nodes ng1 = nodes ng) as N1 by apply nodes_del_edge_result.
  assert (forall x, node ng1 x = node ng x) as O1 by (intros; apply node_del_edge_result).
  assert (forall x y, edge ng1 x y = if eq_dec x n1 then (if eq_dec y n2 then None else edge ng x y) else edge ng x y) as E1 by (intros; apply edge_del_edge_result, Wn).
  assert (acyclic (has_edge ng1)) as Hac1.
  { intros x (c & Hc & Hr). assert (forall u v, has_edge ng1 u v -> has_edge ng u v) as Hsub.
    { intros u v (z & Hz). rewrite E1 in Hz. destruct (eq_dec u n1); [destruct (eq_dec v n2); [discriminate|]|]; exists z; exact Hz. }
    apply (Hac x). exists c. split; [apply Hsub, Hc|]. eapply reach_mono; [exact Hsub|exact Hr]. }
  assert (plan ng1) as HP1.
  { intros x Hx. apply contains_In in Hx. rewrite N1, HN in Hx. apply contains_In in Hx. rewrite O1, HO. apply HP, Hx. }
  destruct (critical_path_spec srt ng1 W1 Hs HP1 Hac1) as (c2 & d2 & Hr & Hd2).
  assert (forall a b v, edge g a b = Some v -> edge ng1 a b = Some v) as HE1.
  { intros a b v Hv. pose proof (HE a b v Hv) as Hv'. rewrite E1. destruct (eq_dec a n1) as [->|]; [|exact Hv']. destruct (eq_dec b n2) as [->|]; [congruence|exact Hv']. }
  destruct ((c2 =? cpl) && (total_slack d2 =? slack)) eqn:Eb.
  - exists ng1. splits.
    + refine (returns_bind _ (fun n r2 => _) (c2, d2) _ Hr _). cbn [fst snd]. rewrite Eb. apply returns_const. discriminate.
    + apply andb_true_iff in Eb. destruct Eb as [Ec Es]. apply Z.eqb_eq in Ec, Es. subst.
      hnf; splits; auto; [intros x; rewrite N1; apply HN|intros x; rewrite O1; apply HO|exists d2; auto].
    + intros x y Hne (v & Hv). exists v. rewrite E1. destruct (eq_dec x n1) as [->|]; [|exact Hv]. destruct (eq_dec y n2) as [->|]; [congruence|exact Hv].
  - set (ng2 := add_edge1_result ng1 n1 n2 1).
    assert (forall x y, edge ng2 x y = if eq_dec x n1 then (if eq_dec y n2 then Some 1 else edge ng x y) else edge ng x y) as E2.
    { intros x y. unfold ng2. rewrite edge_add_edge1_result, E1. destruct (eq_dec x n1); [destruct (eq_dec y n2)|]; reflexivity. }
    exists ng2. splits.
    + refine (returns_bind _ (fun n r2 => _) (c2, d2) _ Hr _). cbn [fst snd]. rewrite Eb. rewrite add_edge_eq by exact W1. apply returns_const. discriminate.
    + apply (kept_same g cpl slack ng _ srt HP Hs HK); [apply wf_add_edge1_result, W1| |].
      * hnf; splits.
        -- intros x. unfold ng2. rewrite nodes_add_edge1_result, N1. destruct (has_edge_nodes ng n1 n2 Wn He) as [I1 I2]. rewrite (sadd_in n1), (sadd_in n2); auto; tauto.
        -- intros x. unfold ng2. rewrite node_add_edge1_result, O1. reflexivity.
        -- intros x y. unfold has_edge at 2. rewrite E2. destruct (eq_dec x n1) as [->|]; [|reflexivity]. destruct (eq_dec y n2) as [->|]; [|reflexivity].
           split; [intros _; exists 1; reflexivity|intros _; exact He].
      * intros a b v Hv. pose proof (HE a b v Hv) as Hv'. rewrite E2. destruct (eq_dec a n1) as [->|]; [|exact Hv']. destruct (eq_dec b n2) as [->|]; [congruence|exact Hv'].
    + intros x y Hne (v & Hv). exists v. rewrite E2. destruct (eq_dec x n1) as [->|]; [|exact Hv]. destruct (eq_dec y n2) as [->|]; [congruence|exact Hv]. Qed.

Theorem minimize_spec srt ord g : wf g -> (forall l, Permutation (srt l) l) -> (forall i l, Permutation (ord i l) l) -> plan g -> acyclic (has_edge g) -> nodes g <> [] ->
  exists cpl d r, returns (fun n => critical_path srt n g) (Ok (cpl, d)) /\ schedule_ok g cpl d /\
    returns (fun n => critical_path_minimize_for_slack srt ord n g) r /\
    match r with Ok ng => exists slack, kept g cpl slack ng /\ slack <= total_slack d | Err e => e = AttributeError | OutOfFuel => False end.
Proof. intros W Hs Ho HP Hac Hne. destruct (critical_path_spec srt g W Hs HP Hac) as (cpl & d & Hr & Hd). exists cpl, d.
  destruct (phase_lines_spec g ord W Ho) as [[Hall _]|(_ & r0 & Hr0 & Hpost)].
  { exfalso. destruct (nodes g) as [|x0 l] eqn:En; [congruence|]. rewrite <- En in *.
    destruct (pred_cycle (has_edge g) (nodes g) x0) as (z & _ & Hz); [rewrite En; cbn; auto| |apply (Hac z Hz)].
    intros x Hx. destruct (Hall x Hx) as (y & Hy). exists y. split; [apply (has_edge_nodes g y x W Hy)|exact Hy]. }
  destruct Hpost as [(_ & u & v & _ & _ & Hb)|(phases & -> & Hk & _)]; [destruct (acyclic_not_behind _ v Hac Hb)|].
  destruct (copy_spec g W) as (ng0 & Ec & Wc & _ & N0 & E0 & _).
  assert (kept g cpl (total_slack d) ng0) as K0.
  { apply (kept_same g cpl (total_slack d) g ng0 srt HP Hs); [|exact Wc| |].
    - hnf; splits; auto; [intros; reflexivity|exists d; auto].
    - hnf; splits; [intros x; unfold nodes; rewrite N0; reflexivity|intros x; unfold node; rewrite N0; reflexivity|intros x y; unfold has_edge, edge; rewrite E0; reflexivity].
    - intros a b v. unfold edge. rewrite E0. auto. }
  pose (sl := sort_desc (fun p : A * task => t_slack (snd p)) (filter (fun p => 0 <? t_slack (snd p)) d)).
  pose (ids := map fst sl). pose (ids2 := map fst (sort_desc (fun p : A * task => t_dur (snd p)) sl)).
  assert (forall x, In x ids -> In x (nodes g)) as Hids.
  { intros x Hx. apply in_map_iff in Hx. destruct Hx as (p & <- & Hp). apply in_sort_desc, filter_In in Hp. apply (Permutation_in _ (proj1 Hd)). apply (in_map fst), Hp. }
  assert (forall x, In x ids2 -> In x (nodes g)) as Hids2.
  { intros x Hx. apply in_map_iff in Hx. destruct Hx as (p & <- & Hp). apply in_sort_desc in Hp. apply Hids. apply (in_map fst), Hp. }
  pose (P := fun s : graph * Z * bool => let '(ng, slack, _) := s in kept g cpl slack ng /\ slack <= total_slack d).
  assert (forall x, In x (nodes g) -> In x (dkeys phases)) as Hph by (intros x Hx; rewrite Hk; exact Hx).
  destruct (foldM_returns (fun n => ms_node srt n phases cpl ids) (fun _ => P) (fun e => e = AttributeError) ids2) with (s0 := (ng0, total_slack d, false)) as (r1 & Hr1 & HP1).
  { intros pre n1 post s El HPs. unfold ms_node. destruct s as [[ng slack] stop]. cbn [snd].
    destruct stop; [exists (Ok (ng, slack, true)); split; [apply returns_const; discriminate|exact HPs]|].
    apply (foldM_returns (fun n => ms_try srt n phases cpl n1) (fun _ => P) (fun e => e = AttributeError) ids); [|exact HPs].
    intros pre' n2 post' [[ng' slack'] stop'] El' [HK' Hle'].
    destruct (try_spec srt g phases cpl n1 ng' (total_slack d) stop' n2 slack') as (r & Hr' & HR'); auto.
    - apply Hids2. rewrite El. apply in_app_iff. cbn; auto.
    - apply Hids. rewrite El'. apply in_app_iff. cbn; auto.
    - exists r. split; [exact Hr'|]. destruct r as [[[ng2 slack2] stop2]|e|]; exact HR'. }
  { split; [exact K0|lia]. }
  assert (forall r2, returns (fun n => bind (foldM (ms_node srt n phases cpl ids) ids2 (ng0, total_slack d, false)) (fun s => let '(ng, slack, _) := s in foldM (ms_purge srt n g cpl slack) (edges ng) ng)) r2 ->
     returns (fun n => critical_path_minimize_for_slack srt ord n g) r2) as Hwrap.
  { intros r2 H2. unfold critical_path_minimize_for_slack. refine (returns_bind _ (fun n r => _) (cpl, d) r2 Hr _).
    refine (returns_bind _ (fun n ph => _) phases r2 Hr0 _). rewrite Ec. exact H2. }
  destruct r1 as [[[ng slack] stop]|e|]; [| |destruct HP1].
  2:{ exists (Err e). splits; auto. apply Hwrap. refine (returns_bind_err _ (fun n s => _) e Hr1). }
  destruct HP1 as [HK Hle].
  destruct (foldM_returns (fun n => ms_purge srt n g cpl slack) (fun pre ng' => kept g cpl slack ng' /\ forall a b v, In (a, b, v) (edges ng) -> ~ In (a, b) (map ekey pre) -> has_edge ng' a b)
    (fun _ => False) (edges ng)) with (s0 := ng) as (r2 & Hr2 & HP2).
  { intros pre [[n1 n2] w] post ng' El [HK' HE'].
    pose proof (NoDup_edges ng (proj1 HK)) as HND.
    assert (~ In (n1, n2) (map ekey pre)) as Hn.
    { rewrite El, map_app in HND. cbn in HND. apply NoDup_remove_2 in HND. intros C. apply HND. apply in_app_iff. auto. }
    destruct (purge_spec srt g cpl slack ng' (n1, n2, w) Hs W HP HK') as (ng2 & Hr2 & HK2 & Hpres).
    { cbn. apply (HE' n1 n2 w); [rewrite El; apply in_app_iff; cbn; auto|exact Hn]. }
    exists (Ok ng2). split; [exact Hr2|]. split; [exact HK2|]. intros a b v Hab Hni. rewrite map_app in Hni. cbn in Hni.
    assert ((a, b) <> (n1, n2)) as Hne2 by (intros C; apply Hni; rewrite C; apply in_app_iff; cbn; auto).
    apply Hpres; [exact Hne2|]. apply (HE' a b v Hab). intros C. apply Hni. apply in_app_iff. auto. }
  { split; [exact HK|]. intros a b v Hab _. exists v. apply (In_edges ng a b v (proj1 HK)), Hab. }
  exists r2. splits; [exact Hr|exact Hd| |].
  - apply Hwrap. refine (returns_bind _ (fun n s => _) (ng, slack, stop) r2 Hr1 _). exact Hr2.
  - destruct r2 as [ng'|e|]; [|destruct HP2|exact HP2]. exists slack. split; [apply HP2|exact Hle]. Qed.
End M.
