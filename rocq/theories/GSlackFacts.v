(** Proofs about critical_path_minimize_for_slack over any arithmetic that keeps the order. *)
From Verif Require Import Prelude PreludeFacts Base BaseFacts BaseFacts2 BaseFacts3 Spec SpecFacts Loop SearchFacts BaseAlgFacts Topo TopoFacts Dag DagFacts MaxFlowFacts CpmFacts GSp GSpec GCpm GCpmSpec GCpmFacts CpmFloat GSlack GSlackSpec.

Lemma in_gsort_desc {W X} (ar : arith W) (key : X -> W) (l : list X) : forall x, In x (gsort_desc ar key l) <-> In x l.
Proof. intros x. unfold gsort_desc.
  assert (forall l s, In x (fold_left (fun s x => ginsert_desc ar key x s) l s) <-> In x l \/ In x s) as H.
  { clear l. induction l as [|y l IH]; intros s; cbn; [tauto|]. rewrite IH.
    assert (In x (ginsert_desc ar key y s) <-> x = y \/ In x s) as ->; [|intuition auto].
    induction s as [|z s IHs]; cbn; [intuition auto|]. destruct (a_ltb ar (key z) (key y)); cbn; [|rewrite IHs]; intuition auto. }
  rewrite H. cbn. tauto. Qed.

Lemma reachable_copy {A O V} {EA : EqDec A} (g g' : graph A O V) : copy g = Ok g' -> reachable g'.
Proof. unfold copy. intros H.
  assert (forall l (g0 : graph A O V), reachable g0 -> reachable (fold_left (fun (g' : graph A O V) (p : A * option O) => add_node g' (fst p) (snd p)) l g0)) as K.
  { induction l as [|p l IH]; intros g0 R; cbn [fold_left]; [exact R|]. apply IH. apply (reachable_step g0 (OpAddNode (fst p) (snd p)) _ R). reflexivity. }
  specialize (K (g_nodes g) empty_graph (ex_intro _ [] eq_refl)). revert K H. generalize (fold_left (fun (g' : graph A O V) (p : A * option O) => add_node g' (fst p) (snd p)) (g_nodes g) empty_graph).
  induction (edges g) as [|[[a b] v] l IH]; intros g0 R H; cbn [foldM bind] in H; [inv H; exact R|].
  destruct (add_edge g0 a b v false) as [g1|e|] eqn:E; cbn [bind] in H; try discriminate. apply (IH g1); [|exact H]. apply (reachable_step g0 (OpAddEdge a b v false) _ R E). Qed.

Section S.
Context {A W V : Type} {EA : EqDec A} (ar : arith W) (sub : W -> W -> W) (sumf : list W -> W) (one : V) (good : W -> Prop) (LW : lawful ar good).
Notation graph := (graph A W V).
Notation le x y := (a_ltb ar y x = false).
Notation gcp := (gcritical_path_of ar sub IsGraph).
Implicit Types (g ng : graph) (x y a b : A) (srt : list A -> list A).

Lemma same_sym g1 g2 : same_tasks g1 g2 -> same_tasks g2 g1.
Proof. intros (H1 & H2 & H3). hnf; splits; [intros x; symmetry; apply H1|intros x; symmetry; apply H2|intros x y; symmetry; apply H3]. Qed.
Lemma same_refl g : same_tasks g g.
Proof. hnf; splits; intros; reflexivity. Qed.
Lemma same_trans g1 g2 g3 : same_tasks g1 g2 -> same_tasks g2 g3 -> same_tasks g1 g3.
Proof. intros (H1 & H2 & H3) (K1 & K2 & K3). hnf; splits; [intros x; rewrite H1; apply K1|intros x; rewrite H2; apply K2|intros x y; rewrite H3; apply K3]. Qed.
Lemma same_path g1 g2 a p b : same_tasks g1 g2 -> path (has_edge g1) a p b -> path (has_edge g2) a p b.
Proof. intros (_ & _ & H). apply path_mono. intros x y _ _. apply H. Qed.
Lemma same_sum g1 g2 p : same_tasks g1 g2 -> chain_sum ar g1 p = chain_sum ar g2 p.
Proof. intros (_ & H & _). unfold chain_sum, gduration. assert (forall s z, fold_left (fun s x => a_add ar s match node g1 x with Some d => d | None => z end) p s = fold_left (fun s x => a_add ar s match node g2 x with Some d => d | None => z end) p s) as K; [|apply K].
  induction p as [|x p IH]; intros s z; cbn [fold_left]; [reflexivity|]. rewrite H. apply IH. Qed.
Lemma same_nodes g1 g2 x : same_tasks g1 g2 -> (In x (nodes g1) <-> In x (nodes g2)).
Proof. intros (H & _). rewrite <- !contains_In, H. reflexivity. Qed.
Lemma same_acyclic g1 g2 : same_tasks g1 g2 -> acyclic (has_edge g1) -> acyclic (has_edge g2).
Proof. intros HS Hac x (c & Hc & Hr). apply (Hac x). exists c. split; [apply HS, Hc|]. eapply reach_mono; [|exact Hr]. intros u v. apply HS. Qed.
Lemma same_gplan (P : W -> Prop) g1 g2 : same_tasks g1 g2 -> gplan P g1 -> gplan P g2.
Proof. intros (H1 & H2 & _) HP x Hx. rewrite <- H2. apply HP. rewrite H1. exact Hx. Qed.

(** the length is the greatest chain sum *)
Definition longest g (c : W) : Prop :=
  (nodes g = [] /\ c = a_zero ar \/ exists a p b, path (has_edge g) a p b /\ In b (nodes g) /\ c = chain_sum ar g p) /\
  forall a p b, In b (nodes g) -> path (has_edge g) a p b -> le (chain_sum ar g p) c.
Lemma gcp_spec srt g : wf g -> (forall l, Permutation (srt l) l) -> gplan good g -> acyclic (has_edge g) ->
  exists c d, returns (fun n => gcp srt n g) (Ok (c, d)) /\ good c /\ longest g c /\ Permutation (dkeys d) (nodes g).
Proof. intros W0 Hs HP Hac. destruct (gcritical_path_eqs ar sub IsGraph srt g W0 Hs) as (cpl & d & order & Hr & Heq & Hnd & Hperm & Hpf); [|exact Hac|].
  { intros x Hx E. apply contains_In in Hx. destruct (HP x Hx) as (dd & E2 & _). congruence. }
  pose proof (early_all ar sub good LW g order cpl d W0 HP Heq Hperm Hpf) as HE. destruct Heq as (K1 & K2 & K3).
  assert (forall x, In x order <-> In x (nodes g)) as Ho by (intros y; split; apply Permutation_in; [|symmetry]; exact Hperm).
  assert (forall x, In x order -> good (efd ar d x) /\ a_ltb ar (efd ar d x) (a_zero ar) = false) as HF.
  { intros x Hx. apply Ho in Hx. destruct (HE x Hx) as (G1 & G2 & G3 & _). split; [exact G2|].
    destruct (dget_key x d) as (t & Et); [rewrite K1; apply Ho, Hx|]. destruct (K2 _ _ Et) as [(En & _ & Ef) _]. destruct (gplan_dur ar good g x HP Hx) as [En2 Gd].
    rewrite En in En2. injection En2 as Ed. unfold efd, esd in *. rewrite Et in *. rewrite Ef. rewrite Ed.
    apply (l_trans _ _ LW) with (gt_es t); auto; [apply LW|apply (l_add _ _ LW); auto|apply (l_infl _ _ LW); auto]. }
  destruct (cpl_spec ar good LW d order HF) as (Gc & Hc & Hmax). rewrite <- K3 in *.
  exists cpl, d. splits; auto; [|rewrite K1; exact Hperm]. split.
  - destruct Hc as [[E E2]|(x & Hx & E)].
    + left. split; [|exact E2]. subst order. rewrite E in Hperm. apply Permutation_nil in Hperm. exact Hperm.
    + right. apply Ho in Hx. destruct (HE x Hx) as (_ & _ & _ & _ & _ & (a & p & Hp & Ep) & _). exists a, p, x. splits; auto. rewrite E. exact Ep.
  - intros a p b Hb Hp. destruct (HE b Hb) as (_ & G2 & _ & _ & _ & _ & Hm). specialize (Hm _ _ Hp). apply (l_trans _ _ LW) with (efd ar d b); auto; [|apply Hmax, Ho, Hb].
    apply (csum_good _ _ _ _ _ (early_laws ar good LW) order); [intros z Hz; apply (gplan_dur ar good g z HP), Ho, Hz|].
    intros z Hz. apply Ho. apply (path_nodes (fun z => In z (nodes g)) (has_edge g) a p b); [|intros u v Huv; apply (has_edge_nodes g u v W0 Huv)|exact Hp|exact Hz].
    inversion Hp as [u|u v q w Huv Hq]; subst; [exact Hb|apply (has_edge_nodes g a v W0 Huv)]. Qed.
Lemma gcp_any srt g : wf g -> (forall l, Permutation (srt l) l) -> gplan good g ->
  exists r, returns (fun n => gcp srt n g) r /\
    match r with Ok (c, d) => acyclic (has_edge g) /\ good c /\ longest g c | Err e => e = AttributeError | OutOfFuel => False end.
Proof. intros W0 Hs HP. destruct (topological_sort_of_spec IsGraph srt g W0 Hs) as (order & err & Hr & _ & _ & _ & Hc).
  destruct Hc as [(_ & Hac & _)|(_ & x & _ & _ & Hx)].
  - destruct (gcp_spec srt g W0 Hs HP Hac) as (c & d & HR & G & L & _). exists (Ok (c, d)). auto.
  - exists (Err AttributeError). split; [eapply gcritical_path_cyclic; eauto|reflexivity]. Qed.
Lemma longest_same g1 g2 c1 c2 : same_tasks g1 g2 -> longest g1 c1 -> longest g2 c2 -> good c1 -> good c2 -> le c1 c2.
Proof. intros HS [[[E ->]|(a & p & b & Hp & Hb & ->)] _] [H2 M2] G1 G2.
  - destruct H2 as [[_ ->]|(a & p & b & Hp & Hb & ->)]; [|apply (same_nodes _ _ b HS) in Hb; rewrite E in Hb; destruct Hb].
    destruct (a_ltb ar (a_zero ar) (a_zero ar)) eqn:C; [|reflexivity]. rewrite (l_asym _ _ LW _ _ G1 G1 C) in C. discriminate.
  - rewrite (same_sum _ _ p HS). apply (M2 a p b); [apply (same_nodes _ _ b HS), Hb|eapply same_path; eauto]. Qed.

Context (EQB : forall x y : W, good x -> good y -> (a_eqb ar x y = true <-> a_ltb ar y x = false /\ a_ltb ar x y = false)).
Context (LT : forall x y z : W, a_ltb ar x y = true -> a_ltb ar y z = true -> a_ltb ar x z = true).
Context (srt : list A -> list A) (Hs : forall l, Permutation (srt l) l).
Notation measured := (measured ar sub sumf srt).
(** the intermediate graphs *)
Definition gkept g cpl slack ng : Prop :=
  reachable ng /\ (forall x, contains ng x = contains g x) /\ (forall x, node ng x = node g x) /\
  (forall a b v, edge g a b = Some v -> edge ng a b = Some v) /\ acyclic (has_edge ng) /\
  (exists c d, returns (fun n => gcp srt n ng) (Ok (c, d)) /\ good c /\ longest ng c /\ le c cpl /\ le cpl c) /\
  measured ng slack.
Lemma gkept_plan g cpl slack ng : gplan good g -> gkept g cpl slack ng -> gplan good ng.
Proof. intros HP (_ & HN & HO & _) x Hx. rewrite HO. apply HP. rewrite <- HN. exact Hx. Qed.
Lemma gkept_same g cpl slack ng ng' : good cpl -> gplan good g -> gkept g cpl slack ng -> reachable ng' -> same_tasks ng ng' ->
  (forall a b v, edge g a b = Some v -> edge ng' a b = Some v) -> gkept g cpl slack ng'.
Proof. intros Gc HP HK W' HS HE. pose proof HK as (W0 & HN & HO & _ & Hac & (c & d & Hr & G & L & L1 & L2) & (ng0 & c0 & d0 & W00 & S0 & R0 & T0)).
  pose proof (reachable_wf _ W') as Wf'. pose proof (same_acyclic _ _ HS Hac) as Hac'. pose proof (same_gplan good _ _ HS (gkept_plan _ _ _ _ HP HK)) as HP'.
  destruct (gcp_spec srt ng' Wf' Hs HP' Hac') as (c' & d' & Hr' & G' & L' & _).
  hnf; splits; auto.
  - intros x. rewrite <- HN. symmetry. apply HS.
  - intros x. rewrite <- HO. symmetry. apply HS.
  - exists c', d'. splits; auto.
    + apply (l_trans _ _ LW) with c; auto. apply (longest_same ng' ng); auto. apply same_sym, HS.
    + apply (l_trans _ _ LW) with c; auto. apply (longest_same ng ng'); auto.
  - exists ng0, c0, d0. splits; auto. eapply same_trans; eauto. Qed.

Definition below (s s0 : W) : Prop := s = s0 \/ a_ltb ar s s0 = true.
Lemma gtry_spec g phases cpl n1 ng slack0 stop n2 slack : good cpl -> gplan good g ->
  (forall x, In x (nodes g) -> In x (dkeys phases)) -> In n1 (nodes g) -> In n2 (nodes g) ->
  gkept g cpl slack ng -> below slack slack0 ->
  exists r, returns (fun n => gms_try ar sub sumf one srt n phases cpl n1 (ng, slack, stop) n2) r /\
    match r with Ok (ng', slack', _) => gkept g cpl slack' ng' /\ below slack' slack0 | Err e => e = AttributeError | OutOfFuel => False end.
Proof. intros Gc HP Hph H1 H2 HK Hle. unfold gms_try.
  assert (exists r, returns (fun _ => Ok (ng, slack, stop)) r /\
    match r with Ok (ng', slack', _) => gkept g cpl slack' ng' /\ below slack' slack0 | Err e => e = AttributeError | OutOfFuel => False end) as Hskip.
  { exists (Ok (ng, slack, stop)). split; [apply returns_const; discriminate|auto]. }
  destruct stop; [exact Hskip|]. destruct (eqb n2 n1); [exact Hskip|].
  destruct (dget_key n2 phases (Hph _ H2)) as (p2 & ->). destruct (dget_key n1 phases (Hph _ H1)) as (p1 & ->).
  destruct (negb (p1 <=? p2)%Z); [exact Hskip|]. destruct (edge ng n2 n1); [exact Hskip|]. cbn [negb].
  destruct (edge ng n1 n2) eqn:E12; [exact Hskip|]. cbn [negb]. clear Hskip.
  pose proof HK as (Rn & HN & HO & HE & Hac & _). pose proof (reachable_wf _ Rn) as Wn.
  assert (forall x, In x (nodes g) -> In x (nodes ng)) as HNi by (intros x Hx; apply contains_In; rewrite HN; apply contains_In, Hx).
  rewrite add_edge_eq by exact Wn. cbn [bind]. unfold add_edge_result. set (ng1 := add_edge1_result ng n1 n2 one).
  assert (reachable ng1) as R1 by (apply (reachable_step ng (OpAddEdge n1 n2 one false) _ Rn); apply (add_edge_eq ng n1 n2 one false Wn)).
  pose proof (reachable_wf _ R1) as W1.
  assert (nodes ng1 = nodes ng) as N1.
  { unfold ng1. rewrite nodes_add_edge1_result, (sadd_in n1), (sadd_in n2); auto. }
  assert (forall x, contains ng1 x = contains ng x) as C1.
  { intros x. apply Bool.eq_iff_eq_true. rewrite !contains_In, N1. reflexivity. }
  assert (forall x y, edge ng1 x y = if eq_dec x n1 then (if eq_dec y n2 then Some one else edge ng x y) else edge ng x y) as E1 by (intros; apply edge_add_edge1_result).
  assert (forall x, node ng1 x = node ng x) as O1 by (intros; apply node_add_edge1_result).
  assert (gplan good ng1) as HP1.
  { intros x Hx. rewrite C1, HN in Hx. rewrite O1, HO. apply HP, Hx. }
  destruct (gcp_any srt ng1 W1 Hs HP1) as (r & Hr & Hc). destruct r as [[c2 d2]|e|]; [| |destruct Hc].
  2:{ exists (Err e). split; [|exact Hc]. refine (returns_bind_err _ (fun n r2 => _) e Hr). }
  destruct Hc as (Hac1 & G2 & L2).
  assert (forall a b v, edge g a b = Some v -> edge ng1 a b = Some v) as HE1.
  { intros a b v Hv. apply HE in Hv. rewrite E1. destruct (eq_dec a n1) as [->|]; [|exact Hv]. destruct (eq_dec b n2) as [->|]; [congruence|exact Hv]. }
  assert (exists ng2, del_edge ng1 n1 n2 = Ok ng2 /\ gkept g cpl slack ng2) as (ng2 & Edel & K2).
  { rewrite del_edge_eq by exact W1. eexists. split; [reflexivity|].
    apply (gkept_same g cpl slack ng _ Gc HP HK); [apply (reachable_step ng1 (OpDelEdge n1 n2) _ R1); apply (del_edge_eq ng1 n1 n2 W1)| |].
    - hnf; splits.
      + intros x. apply Bool.eq_iff_eq_true. rewrite !contains_In, nodes_del_edge_result, N1. reflexivity.
      + intros x. rewrite node_del_edge_result, O1. reflexivity.
      + intros x y. unfold has_edge. rewrite edge_del_edge_result, E1 by exact W1.
        destruct (eq_dec x n1) as [->|]; [|reflexivity]. destruct (eq_dec y n2) as [->|]; [rewrite E12|]; reflexivity.
    - intros a b v Hv. pose proof (HE a b v Hv) as Hv'. rewrite edge_del_edge_result, E1 by exact W1.
      destruct (eq_dec a n1) as [->|]; [|exact Hv']. destruct (eq_dec b n2) as [->|]; [congruence|exact Hv']. }
  set (s2 := gtotal_slack sub sumf d2) in *.
  pose (res1 := if negb (a_eqb ar c2 cpl) then Ok (ng2, slack, false) else if a_ltb ar s2 slack && a_eqb ar cpl c2 then Ok (ng1, s2, a_eqb ar s2 (a_zero ar)) else Ok (ng2, slack, false)).
  exists res1. split.
  - refine (returns_bind _ (fun n r2 => _) (c2, d2) _ Hr _). cbn [fst snd]. rewrite Edel. cbn [bind]. fold s2.
    apply (returns_ext (fun _ => res1)); [intros n; unfold res1; destruct (negb (a_eqb ar c2 cpl)); [reflexivity|]; destruct (a_ltb ar s2 slack && a_eqb ar cpl c2); reflexivity|].
    apply returns_const. unfold res1. destruct (negb (a_eqb ar c2 cpl)); [discriminate|]. destruct (a_ltb ar s2 slack && a_eqb ar cpl c2); discriminate.
  - unfold res1. destruct (a_eqb ar c2 cpl) eqn:Ec; cbn [negb]; [|auto]. apply EQB in Ec; [|exact G2|exact Gc]. destruct Ec as [Ec1 Ec2].
    destruct (a_ltb ar s2 slack && a_eqb ar cpl c2) eqn:Eb; [|auto]. apply andb_true_iff in Eb. destruct Eb as [Eb _]. split.
    + hnf; splits; auto.
      * intros x. rewrite C1. apply HN.
      * intros x. rewrite O1. apply HO.
      * exists c2, d2. splits; auto.
      * exists ng1, c2, d2. splits; auto. apply same_refl.
    + right. destruct Hle as [<-|Hle]; [exact Eb|]. eapply LT; eauto. Qed.

Lemma gpurge_spec g cpl slack ng e : good cpl -> gplan good g -> gkept g cpl slack ng -> has_edge ng (fst (fst e)) (snd (fst e)) ->
  exists ng', returns (fun n => gms_purge ar sub sumf one srt n g cpl slack ng e) (Ok ng') /\ gkept g cpl slack ng' /\
    forall x y, (x, y) <> fst e -> has_edge ng x y -> has_edge ng' x y.
Proof. intros Gc HP HK He. destruct e as [[n1 n2] w]. cbn [fst snd] in *. unfold gms_purge. destruct (edge g n1 n2) eqn:Eg.
  { exists ng. split; [apply returns_const; discriminate|auto]. }
  pose proof HK as (Rn & HN & HO & HE & Hac & _). pose proof (reachable_wf _ Rn) as Wn.
  rewrite del_edge_eq by exact Wn. cbn [bind]. set (ng1 := del_edge_result ng n1 n2).
  assert (reachable ng1) as R1 by (apply (reachable_step ng (OpDelEdge n1 n2) _ Rn); apply (del_edge_eq ng n1 n2 Wn)).
  pose proof (reachable_wf _ R1) as W1.
  assert (nodes ng1 = nodes ng) as N1 by apply nodes_del_edge_result.
  assert (forall x, contains ng1 x = contains ng x) as C1.
  { intros x. apply Bool.eq_iff_eq_true. rewrite !contains_In, N1. reflexivity. }
  assert (forall x, node ng1 x = node ng x) as O1 by (intros; apply node_del_edge_result).
  assert (forall x y, edge ng1 x y = if eq_dec x n1 then (if eq_dec y n2 then None else edge ng x y) else edge ng x y) as E1 by (intros; apply edge_del_edge_result, Wn).
  assert (acyclic (has_edge ng1)) as Hac1.
  { intros x (c & Hc & Hr). assert (forall u v, has_edge ng1 u v -> has_edge ng u v) as Hsub.
    { intros u v (z & Hz). rewrite E1 in Hz. destruct (eq_dec u n1); [destruct (eq_dec v n2); [discriminate|]|]; exists z; exact Hz. }
    apply (Hac x). exists c. split; [apply Hsub, Hc|]. eapply reach_mono; [exact Hsub|exact Hr]. }
  assert (gplan good ng1) as HP1.
  { intros x Hx. rewrite C1, HN in Hx. rewrite O1, HO. apply HP, Hx. }
  destruct (gcp_spec srt ng1 W1 Hs HP1 Hac1) as (c2 & d2 & Hr & G2 & L2 & _).
  assert (forall a b v, edge g a b = Some v -> edge ng1 a b = Some v) as HE1.
  { intros a b v Hv. pose proof (HE a b v Hv) as Hv'. rewrite E1. destruct (eq_dec a n1) as [->|]; [|exact Hv']. destruct (eq_dec b n2) as [->|]; [congruence|exact Hv']. }
  destruct (a_eqb ar c2 cpl && a_eqb ar (gtotal_slack sub sumf d2) slack) eqn:Eb.
  - exists ng1. splits.
    + refine (returns_bind _ (fun n r2 => _) (c2, d2) _ Hr _). cbn [fst snd]. rewrite Eb. apply returns_const. discriminate.
    + apply andb_true_iff in Eb. destruct Eb as [Ec Es]. apply EQB in Ec; [|exact G2|exact Gc]. destruct Ec as [Ec1 Ec2].
      hnf; splits; auto.
      * intros x. rewrite C1. apply HN.
      * intros x. rewrite O1. apply HO.
      * exists c2, d2. splits; auto.
      * exists ng1, c2, d2. splits; auto. apply same_refl.
    + intros x y Hne (v & Hv). exists v. rewrite E1. destruct (eq_dec x n1) as [->|]; [|exact Hv]. destruct (eq_dec y n2) as [->|]; [congruence|exact Hv].
  - set (ng2 := add_edge1_result ng1 n1 n2 one).
    assert (forall x y, edge ng2 x y = if eq_dec x n1 then (if eq_dec y n2 then Some one else edge ng x y) else edge ng x y) as E2.
    { intros x y. unfold ng2. rewrite edge_add_edge1_result, E1. destruct (eq_dec x n1); [destruct (eq_dec y n2)|]; reflexivity. }
    exists ng2. splits.
    + refine (returns_bind _ (fun n r2 => _) (c2, d2) _ Hr _). cbn [fst snd]. rewrite Eb. rewrite add_edge_eq by exact W1. apply returns_const. discriminate.
    + apply (gkept_same g cpl slack ng _ Gc HP HK); [apply (reachable_step ng1 (OpAddEdge n1 n2 one false) _ R1); apply (add_edge_eq ng1 n1 n2 one false W1)| |].
      * hnf; splits.
        -- intros x. apply Bool.eq_iff_eq_true. rewrite !contains_In. unfold ng2. rewrite nodes_add_edge1_result, N1. destruct (has_edge_nodes ng n1 n2 Wn He) as [I1 I2]. rewrite (sadd_in n1), (sadd_in n2); auto; tauto.
        -- intros x. unfold ng2. rewrite node_add_edge1_result, O1. reflexivity.
        -- intros x y. unfold has_edge at 2. rewrite E2. destruct (eq_dec x n1) as [->|]; [|reflexivity]. destruct (eq_dec y n2) as [->|]; [|reflexivity].
           split; [intros _; exists one; reflexivity|intros _; exact He].
      * intros a b v Hv. pose proof (HE a b v Hv) as Hv'. rewrite E2. destruct (eq_dec a n1) as [->|]; [|exact Hv']. destruct (eq_dec b n2) as [->|]; [congruence|exact Hv'].
    + intros x y Hne (v & Hv). exists v. rewrite E2. destruct (eq_dec x n1) as [->|]; [|exact Hv]. destruct (eq_dec y n2) as [->|]; [congruence|exact Hv]. Qed.

Theorem gminimize_spec ord g : reachable g -> (forall i l, Permutation (ord i l) l) -> gplan good g -> acyclic (has_edge g) -> nodes g <> [] ->
  exists cpl d r, returns (fun n => gcp srt n g) (Ok (cpl, d)) /\ good cpl /\ longest g cpl /\
    returns (fun n => gminimize_for_slack ar sub sumf one srt ord n g) r /\
    match r with Ok ng => exists slack, gkept g cpl slack ng /\ below slack (gtotal_slack sub sumf d) | Err e => e = AttributeError | OutOfFuel => False end.
Proof. intros R0g Ho HP Hac Hne. pose proof (reachable_wf _ R0g) as W0. destruct (gcp_spec srt g W0 Hs HP Hac) as (cpl & d & Hr & Gc & Lc & Hd). exists cpl, d.
  destruct (phase_lines_of_spec IsGraph g ord W0 Ho) as [[Hall _]|(_ & r0 & Hr0 & Hpost)].
  { exfalso. destruct (nodes g) as [|x0 l] eqn:En; [congruence|]. rewrite <- En in *.
    destruct (pred_cycle (has_edge g) (nodes g) x0) as (z & _ & Hz); [rewrite En; cbn; auto| |apply (Hac z Hz)].
    intros x Hx. destruct (Hall x Hx) as (y & Hy). exists y. split; [apply (has_edge_nodes g y x W0 Hy)|exact Hy]. }
  destruct Hpost as [(_ & u & v & _ & _ & Hb)|(phases & -> & Hk & _)]; [destruct (acyclic_not_behind _ v Hac Hb)|].
  destruct (copy_spec g W0) as (ng0 & Ec & Wc & _ & N0 & E0 & _). pose proof (reachable_copy _ _ Ec) as Rc.
  assert (gkept g cpl (gtotal_slack sub sumf d) ng0) as K0.
  { apply (gkept_same g cpl (gtotal_slack sub sumf d) g ng0 Gc HP); [|exact Rc| |].
    - hnf; splits; auto.
      + exists cpl, d. splits; auto; (destruct (a_ltb ar cpl cpl) eqn:C; [rewrite (l_asym _ _ LW _ _ Gc Gc C) in C; discriminate|reflexivity]).
      + exists g, cpl, d. splits; auto. apply same_refl.
    - hnf; splits; [intros x; apply Bool.eq_iff_eq_true; rewrite !contains_In; unfold nodes; rewrite N0; reflexivity|intros x; unfold node; rewrite N0; reflexivity|intros x y; unfold has_edge, edge; rewrite E0; reflexivity].
    - intros a b v. unfold edge. rewrite E0. auto. }
  set (s0 := gtotal_slack sub sumf d) in *.
  pose (sl := gsort_desc ar (fun p : A * gtask W => gt_slack sub (snd p)) (filter (fun p => a_ltb ar (a_zero ar) (gt_slack sub (snd p))) d)).
  pose (ids := map fst sl). pose (ids2 := map fst (gsort_desc ar (fun p : A * gtask W => gt_dur (snd p)) sl)).
  assert (forall x, In x ids -> In x (nodes g)) as Hids.
  { intros x Hx. apply in_map_iff in Hx. destruct Hx as (p & <- & Hp). apply in_gsort_desc, filter_In in Hp. apply (Permutation_in _ Hd). apply (in_map fst), Hp. }
  assert (forall x, In x ids2 -> In x (nodes g)) as Hids2.
  { intros x Hx. apply in_map_iff in Hx. destruct Hx as (p & <- & Hp). apply in_gsort_desc in Hp. apply Hids. apply (in_map fst), Hp. }
  pose (P := fun s : graph * W * bool => let '(ng, slack, _) := s in gkept g cpl slack ng /\ below slack s0).
  assert (forall x, In x (nodes g) -> In x (dkeys phases)) as Hph by (intros x Hx; rewrite Hk; exact Hx).
  destruct (foldM_returns (fun n => gms_node ar sub sumf one srt n phases cpl ids) (fun _ => P) (fun e => e = AttributeError) ids2) with (s0 := (ng0, s0, false)) as (r1 & Hr1 & HP1).
  { intros pre n1 post s El HPs. unfold gms_node. destruct s as [[ng slack] stop]. cbn [snd].
    destruct stop; [exists (Ok (ng, slack, true)); split; [apply returns_const; discriminate|exact HPs]|].
    apply (foldM_returns (fun n => gms_try ar sub sumf one srt n phases cpl n1) (fun _ => P) (fun e => e = AttributeError) ids); [|exact HPs].
    intros pre' n2 post' [[ng' slack'] stop'] El' [HK' Hle'].
    destruct (gtry_spec g phases cpl n1 ng' s0 stop' n2 slack') as (r & Hr' & HR'); auto.
    - apply Hids2. rewrite El. apply in_app_iff. cbn; auto.
    - apply Hids. rewrite El'. apply in_app_iff. cbn; auto.
    - exists r. split; [exact Hr'|]. destruct r as [[[ng2 slack2] stop2]|e|]; exact HR'. }
  { split; [exact K0|left; reflexivity]. }
  assert (forall r2, returns (fun n => bind (foldM (gms_node ar sub sumf one srt n phases cpl ids) ids2 (ng0, s0, false)) (fun s => let '(ng, slack, _) := s in foldM (gms_purge ar sub sumf one srt n g cpl slack) (edges ng) ng)) r2 ->
     returns (fun n => gminimize_for_slack ar sub sumf one srt ord n g) r2) as Hwrap.
  { intros r2 H2. unfold gminimize_for_slack. refine (returns_bind _ (fun n r => _) (cpl, d) r2 Hr _).
    refine (returns_bind _ (fun n ph => _) phases r2 Hr0 _). rewrite Ec. exact H2. }
  destruct r1 as [[[ng slack] stop]|e|]; [| |destruct HP1].
  2:{ exists (Err e). splits; auto. apply Hwrap. refine (returns_bind_err _ (fun n s => _) e Hr1). }
  destruct HP1 as [HK Hle].
  destruct (foldM_returns (fun n => gms_purge ar sub sumf one srt n g cpl slack) (fun pre ng' => gkept g cpl slack ng' /\ forall a b v, In (a, b, v) (edges ng) -> ~ In (a, b) (map ekey pre) -> has_edge ng' a b)
    (fun _ => False) (edges ng)) with (s0 := ng) as (r2 & Hr2 & HP2).
  { intros pre [[n1 n2] w] post ng' El [HK' HE'].
    pose proof (NoDup_edges ng (reachable_wf _ (proj1 HK))) as HND.
    assert (~ In (n1, n2) (map ekey pre)) as Hn.
    { rewrite El, map_app in HND. cbn in HND. apply NoDup_remove_2 in HND. intros C. apply HND. apply in_app_iff. auto. }
    destruct (gpurge_spec g cpl slack ng' (n1, n2, w) Gc HP HK') as (ng2 & Hr2 & HK2 & Hpres).
    { cbn. apply (HE' n1 n2 w); [rewrite El; apply in_app_iff; cbn; auto|exact Hn]. }
    exists (Ok ng2). split; [exact Hr2|]. split; [exact HK2|]. intros a b v Hab Hni. rewrite map_app in Hni. cbn in Hni.
    assert ((a, b) <> (n1, n2)) as Hne2 by (intros C; apply Hni; rewrite C; apply in_app_iff; cbn; auto).
    apply Hpres; [exact Hne2|]. apply (HE' a b v Hab). intros C. apply Hni. apply in_app_iff. auto. }
  { split; [exact HK|]. intros a b v Hab _. exists v. apply (In_edges ng a b v (reachable_wf _ (proj1 HK))), Hab. }
  exists r2. splits; [exact Hr|exact Gc|exact Lc| |].
  - apply Hwrap. refine (returns_bind _ (fun n s => _) (ng, slack, stop) r2 Hr1 _). exact Hr2.
  - destruct r2 as [ng'|e|]; [|destruct HP2|exact HP2]. exists slack. split; [apply HP2|exact Hle]. Qed.
End S.
