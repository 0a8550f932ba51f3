(** Property theorems C36-C39 (phase lines, sources, critical path). *)
From Verif Require Import Prelude PreludeFacts Base BaseFacts BaseFacts2 BaseFacts3 Spec SpecFacts Loop SearchFacts
  BaseAlgFacts Topo TopoFacts Dag DagFacts Cpm CpmFacts SlackFacts.
Local Open Scope Z_scope.

(** edges that always go up cannot close a cycle *)
Lemma rank_acyclic {A} (R : A -> A -> Prop) (f : A -> nat) : (forall x y, R x y -> (f x < f y)%nat) -> acyclic R.
Proof. intros H a (c & Hac & p & Hp). assert (forall a p b, path R a p b -> (f a <= f b)%nat) as G.
  { intros x q y Hq. induction Hq as [|x y q z Hxy _ IH]; [lia|]. specialize (H _ _ Hxy). lia. }
  specialize (G _ _ _ Hp). specialize (H _ _ Hac). lia. Qed.
Lemma rank_acyclic_g {A O V} {EA : EqDec A} (g : graph A O V) (f : A -> nat) : wf g ->
  forallb (fun e => let '(a, b, _) := e in (f a <? f b)%nat) (edges g) = true -> acyclic (has_edge g).
Proof. intros W H. apply (rank_acyclic _ f). intros x y (v & Hv). apply (In_edges g x y v W) in Hv. rewrite forallb_forall in H.
  specialize (H _ Hv). apply Nat.ltb_lt in H. exact H. Qed.
Lemma acyclic_source {A O V} {EA : EqDec A} (g : graph A O V) : wf g -> acyclic (has_edge g) -> nodes g <> [] -> ~ (forall x, In x (nodes g) -> exists y, has_edge g y x).
Proof. intros W Hac Hne Hall. destruct (nodes g) as [|x0 l] eqn:En; [congruence|]. rewrite <- En in *.
  destruct (pred_cycle (has_edge g) (nodes g) x0) as (z & _ & Hz); [rewrite En; cbn; auto| |apply (Hac z Hz)].
  intros x Hx. destruct (Hall x Hx) as (y & Hy). exists y. split; [apply (has_edge_nodes g y x W Hy)|exact Hy]. Qed.

Section P.
Context {A O V : Type} {EA : EqDec A} (cl : gclass).
Notation graph := (graph A O V).
Implicit Types (g : graph) (x y : A).

(** C36 on acyclic non-empty graphs; [ord]: iteration order of the set in each round *)
Theorem C36_phase_lines_levels_partial g ord : reachable g -> (forall i l, Permutation (ord i l) l) -> acyclic (has_edge g) -> nodes g <> [] ->
  exists ph, returns (fun n => phase_lines_of cl ord n g) (Ok ph) /\ dkeys ph = nodes g /\
    forall x, contains g x = true -> exists k, level (has_edge g) x k /\ dget x ph = Some (Z.of_nat k).
Proof. intros H Ho Hac Hne. apply reachable_wf in H.
  destruct (phase_lines_of_spec cl g ord H Ho) as [[Hall _]|(_ & r & Hr & Hp)].
  - destruct (acyclic_source g H Hac Hne Hall).
  - destruct Hp as [(_ & u & v & _ & _ & Hb)|(ph & -> & Hk & _ & Hx)]; [destruct (acyclic_not_behind _ v Hac Hb)|].
    exists ph. splits; auto. intros x Hc. apply contains_In in Hc. destruct (Hx x Hc) as [HL|[Hb _]]; [exact HL|destruct (acyclic_not_behind _ x Hac Hb)]. Qed.
(** C36, exactly when it raises: when every node has a predecessor (this includes the empty graph), or some node
    that is not behind a cycle has an edge to one that is.  Otherwise nodes behind a cycle keep the
    initial value (number of nodes + 1) and no exception is raised. *)
Theorem C36_phase_lines_any_graph_partial g ord : reachable g -> (forall i l, Permutation (ord i l) l) ->
  exists r, returns (fun n => phase_lines_of cl ord n g) r /\
    ((r = Err AttributeError /\
       ((forall x, contains g x = true -> exists y, has_edge g y x) \/
        exists u v, has_edge g u v /\ ~ behind_cycle (has_edge g) u /\ behind_cycle (has_edge g) v)) \/
     (exists ph, r = Ok ph /\ dkeys ph = nodes g /\
       (exists x, contains g x = true /\ forall y, ~ has_edge g y x) /\
       (forall u v, has_edge g u v -> behind_cycle (has_edge g) v -> behind_cycle (has_edge g) u) /\
       forall x, contains g x = true ->
         (exists k, level (has_edge g) x k /\ dget x ph = Some (Z.of_nat k)) \/
         (behind_cycle (has_edge g) x /\ dget x ph = Some (Z.of_nat (length (nodes g)) + 1)))).
Proof. intros H Ho. apply reachable_wf in H.
  destruct (phase_lines_of_spec cl g ord H Ho) as [[Hall Hr]|((x0 & Hx0 & Hs0) & r & Hr & Hp)].
  - exists (Err AttributeError). split; [hnf; splits; [discriminate|exists 0%nat; intros n _; apply Hr|intros n; right; apply Hr]|].
    left. split; [reflexivity|]. left. intros x Hx. apply Hall, contains_In, Hx.
  - exists r. split; [exact Hr|]. destruct Hp as [[-> He]|(ph & -> & Hk & Hc & Hx)]; [left; auto|right].
    exists ph. splits; auto; [exists x0; split; [apply contains_In; exact Hx0|exact Hs0]|]. intros x Hcx. apply Hx, contains_In, Hcx. Qed.

(** C37 *)
Theorem C37_sources_exact_partial g n : reachable g -> contains g n = true -> ~ behind_cycle (has_edge g) n ->
  exists r, returns (fun k => sources k g n) (Ok r) /\ NoDup r /\ forall x, In x r <-> reach1 (has_edge g) x n.
Proof. intros H Hn Hb. apply sources_dag; [apply reachable_wf, H|apply contains_In, Hn|exact Hb]. Qed.
Theorem C37_sources_other_partial g n : reachable g ->
  (contains g n = false -> forall k, sources k g n = Err ValueError) /\
  (contains g n = true -> behind_cycle (has_edge g) n -> diverges (fun k => sources k g n)).
Proof. intros H. split.
  - intros Hn k. unfold sources. rewrite Hn. reflexivity.
  - intros Hn Hb. apply sources_cycle; [apply reachable_wf, H|apply contains_In, Hn|exact Hb]. Qed.
End P.

Section C.
Context {A V : Type} {EA : EqDec A} (cl : gclass).
Notation graph := (graph A Z V).
Implicit Types (g : graph) (x y : A) (srt : list A -> list A).

(** C38.  [srt] is sorted() of topological_sort.  cpl is the length of the heaviest chain; earliest_finish is
    the weight of the heaviest chain into the task, cpl - latest_start that of the heaviest chain out of it. *)
Theorem C38_critical_path_exact g srt : reachable g -> (forall l, Permutation (srt l) l) -> plan g -> acyclic (has_edge g) ->
  exists cpl d, returns (fun n => critical_path_of cl srt n g) (Ok (cpl, d)) /\
    Permutation (dkeys d) (nodes g) /\
    (* the length *)
    (nodes g = [] -> cpl = 0) /\
    (nodes g <> [] -> exists a p b, path (has_edge g) a p b /\ contains g b = true /\ total_duration g p = cpl) /\
    (forall a p b, contains g b = true -> path (has_edge g) a p b -> total_duration g p <= cpl) /\
    (* every task *)
    (forall x t, dget x d = Some t ->
       t_dur t = duration g x /\ t_ef t = t_es t + t_dur t /\ t_lf t = t_ls t + t_dur t /\ 0 <= t_es t /\
       heaviest_to g x (t_ef t) /\ heaviest_from g x (cpl - t_ls t) /\ 0 <= t_slack t) /\
    (* dependencies are respected by the early and by the late schedule *)
    (forall x y tx ty, has_edge g x y -> dget x d = Some tx -> dget y d = Some ty -> t_ef tx <= t_es ty /\ t_lf tx <= t_ls ty) /\
    ((exists x t, dget x d = Some t /\ t_slack t = 0) <-> nodes g <> []).
Proof. intros H Hs HP Hac. apply reachable_wf in H. destruct (critical_path_of_spec cl srt g H Hs HP Hac) as (cpl & d & Hr & H1 & H2 & H3 & H4 & H5).
  exists cpl, d. splits; auto.
  - intros E. destruct H2 as [[_ ->]|(a & p & b & _ & Hb & _)]; [reflexivity|]. rewrite E in Hb. destruct Hb.
  - intros Hne. destruct H2 as [[E _]|(a & p & b & Hp & Hb & Hw)]; [congruence|]. exists a, p, b. splits; auto. apply contains_In, Hb.
  - intros a p b Hb. apply H3, contains_In, Hb.
  - intros x t Et. destruct (H4 _ _ Et) as [((X1 & X2 & X3 & X4 & _) & X5 & X6) X7]. splits; auto.
  - intros x y tx ty Hxy Ex Ey. destruct (H4 _ _ Ex) as [((X1 & X2 & _ & [(a & p & Hp & Hw) _] & _) & X5 & [_ X6]) _].
    destruct (H4 _ _ Ey) as [((Y1 & Y2 & _ & _ & Y3 & _) & Y5 & [(c & q & Hq & Hwq) _]) _].
    split; [rewrite <- Hw; eapply Y3; eauto|]. specialize (X6 c (x :: q) (path_cons _ x y q c Hxy Hq)). cbn in X6. lia.
  - split; [|exact H5]. intros (x & t & Et & _) E. apply dget_Some_key in Et. apply (Permutation_in _ H1) in Et. rewrite E in Et. destruct Et. Qed.
Theorem C38_cyclic_raises g srt : reachable g -> (forall l, Permutation (srt l) l) -> ~ acyclic (has_edge g) ->
  returns (fun n => critical_path_of cl srt n g) (Err AttributeError).
Proof. intros H Hs Hnc. apply reachable_wf in H. destruct (topological_sort_of_spec cl srt g H Hs) as (order & err & Hr & _ & _ & _ & Hc).
  destruct Hc as [(_ & Hac & _)|(_ & x & _ & _ & Hx)]; [tauto|]. eapply critical_path_of_cyclic; eauto. Qed.
End C.

Section M.
Context {A : Type} {EA : EqDec A}.
Notation graph := (graph A Z Z).

(** C39.  When it returns a graph the graph is as promised; the only exception is AttributeError
    (critical_path on an intermediate graph with a cycle; C39_raises_refuted shows that this happens). *)
Theorem C39_slack_partial (g : graph) srt ord : reachable g -> (forall l, Permutation (srt l) l) -> (forall i l, Permutation (ord i l) l) ->
  plan g -> acyclic (has_edge g) -> nodes g <> [] ->
  exists r, returns (fun n => critical_path_minimize_for_slack srt ord n g) r /\
    (r = Err AttributeError \/ exists ng, r = Ok ng /\
       (forall x, contains ng x = contains g x) /\ (forall x, node ng x = node g x) /\
       (forall a b v, edge g a b = Some v -> edge ng a b = Some v) /\ acyclic (has_edge ng) /\
       exists cpl d d', returns (fun n => critical_path srt n g) (Ok (cpl, d)) /\ returns (fun n => critical_path srt n ng) (Ok (cpl, d')) /\
         total_slack d' <= total_slack d).
Proof. intros H Hs Ho HP Hac Hne. apply reachable_wf in H. destruct (minimize_spec srt ord g H Hs Ho HP Hac Hne) as (cpl & d & r & Hr & Hd & HR & Hm).
  exists r. split; [exact HR|]. destruct r as [ng|e|]; [right|left; f_equal; exact Hm|destruct Hm].
  destruct Hm as (slack & HK & Hle). exists ng. pose proof (kept_plan _ _ _ _ HP HK) as HPn. destruct HK as (W & HN & HO & HE & Hac' & d0 & Hd0 & Hsl). splits; auto.
  - intros x. destruct (contains g x) eqn:E; [apply contains_In, HN, contains_In, E|]. apply contains_notIn. apply contains_notIn in E. rewrite HN. exact E.
  - destruct (critical_path_spec srt ng W Hs HPn Hac') as (c' & d' & Hr' & Hd'). destruct (schedule_unique ng ng cpl d0 c' d') as [<- Hs']; auto; try apply W.
    { hnf; splits; intros; reflexivity. }
    exists cpl, d, d'. splits; auto. lia. Qed.
End M.

Local Close Scope Z_scope.
(** C36 fails: an isolated node plus a separate cycle gives no exception; the empty graph gives one *)
Definition pl_cyc : graph nat unit Z := ok_or empty_graph (run [OpAddNode 9 None; OpAddEdge 1 2 1%Z true]).
Theorem C36_cycle_not_reported_refuted :
  reachable pl_cyc /\ reach1 (has_edge pl_cyc) 1 1 /\ (forall n, phase_lines (fun _ l => l) (2 + n) pl_cyc = Ok [(9, 0%Z); (1, 4%Z); (2, 4%Z)]) /\
  acyclic (has_edge (@empty_graph nat unit Z)) /\ (forall n, phase_lines (fun _ l => l) n (@empty_graph nat unit Z) = Err AttributeError).
Proof. splits; try (intros n; vm_compute; reflexivity).
  - apply reachable_run.
  - exists 2. split; [exists 1%Z; reflexivity|]. apply reach_step. exists 1%Z. reflexivity.
  - apply (rank_acyclic_g _ (fun x => x)); [apply wf_empty|reflexivity]. Qed.

(** C37 fails: on a graph with a cycle sources never returns *)
Theorem C37_cycle_refuted : reachable pl_cyc /\ contains pl_cyc 1 = true /\ diverges (fun k => sources k pl_cyc 1).
Proof. assert (reachable pl_cyc) as H by apply reachable_run. splits; [exact H|reflexivity|].
  apply C37_sources_other_partial; [exact H|reflexivity|]. exists 1. split; [|apply reach_refl].
  exists 2. split; [exists 1%Z; reflexivity|]. apply reach_step. exists 1%Z. reflexivity. Qed.

(** C39 fails: the inserted dependencies can close a cycle; critical_path then raises *)
Definition cpx : graph nat Z Z := ok_or empty_graph (run
  [OpAddNode 0 (Some 1%Z); OpAddNode 1 (Some 99%Z); OpAddNode 2 (Some 50%Z); OpAddNode 3 (Some 50%Z); OpAddNode 10 (Some 10%Z);
   OpAddNode 11 (Some 7%Z); OpAddNode 12 (Some 5%Z); OpAddNode 13 (Some 60%Z);
   OpAddEdge 0 1 1%Z false; OpAddEdge 2 3 1%Z false; OpAddEdge 0 10 1%Z false; OpAddEdge 0 11 1%Z false; OpAddEdge 2 12 1%Z false; OpAddEdge 10 13 1%Z false]).
Lemma plan_check {A V} {EA : EqDec A} (g : graph A Z V) :
  forallb (fun x => match node g x with Some d => (0 <=? d)%Z | None => false end) (nodes g) = true -> plan g.
Proof. intros H x Hx. apply contains_In in Hx. rewrite forallb_forall in H. specialize (H x Hx). destruct (node g x) as [d|]; [|discriminate].
  exists d. split; [reflexivity|]. apply Z.leb_le, H. Qed.
Definition cpx_rank (x : nat) : nat := match x with 1 | 3 | 12 => 1 | 10 | 11 => 1 | 13 => 2 | _ => 0 end.
Theorem C39_raises_refuted : reachable cpx /\ plan cpx /\ acyclic (has_edge cpx) /\
  forall n, critical_path_minimize_for_slack (fun l => l) (fun _ l => l) (100 + n) cpx = Err AttributeError.
Proof. splits.
  - apply reachable_run.
  - apply plan_check. vm_compute. reflexivity.
  - apply (rank_acyclic_g _ cpx_rank); [apply reachable_wf, reachable_run|vm_compute; reflexivity].
  - intros n. vm_compute. reflexivity. Qed.

(** Hypotheses are satisfiable: the project of the documentation *)
Definition cp_doc : graph nat Z Z := ok_or empty_graph (run
  [OpAddNode 1 (Some 10%Z); OpAddNode 2 (Some 20%Z); OpAddNode 3 (Some 5%Z); OpAddNode 4 (Some 10%Z); OpAddNode 5 (Some 20%Z);
   OpAddNode 6 (Some 15%Z); OpAddNode 7 (Some 5%Z); OpAddNode 8 (Some 15%Z);
   OpAddEdge 1 2 0%Z false; OpAddEdge 2 3 0%Z false; OpAddEdge 3 4 0%Z false; OpAddEdge 4 5 0%Z false; OpAddEdge 1 6 0%Z false;
   OpAddEdge 6 7 0%Z false; OpAddEdge 7 5 0%Z false; OpAddEdge 1 8 0%Z false; OpAddEdge 8 5 0%Z false]).
Definition cp_doc_rank (x : nat) : nat := match x with 1 => 0 | 5 => 9 | x => x end.
Example ex_cp_doc : reachable cp_doc /\ plan cp_doc /\ acyclic (has_edge cp_doc) /\ nodes cp_doc <> [].
Proof. splits.
  - apply reachable_run.
  - apply plan_check. vm_compute. reflexivity.
  - apply (rank_acyclic_g _ cp_doc_rank); [apply reachable_wf, reachable_run|vm_compute; reflexivity].
  - vm_compute. discriminate. Qed.
Example ex_cp_run : (exists d, critical_path (fun l => l) 50 cp_doc = Ok (65%Z, d) /\ dget 8 d = Some (mkT 15 10 25 30 45) /\ dget 5 d = Some (mkT 20 45 65 45 65)) /\
  phase_lines (fun _ l => l) 50 cp_doc = Ok [(1, 0%Z); (2, 1%Z); (3, 2%Z); (4, 3%Z); (5, 4%Z); (6, 1%Z); (7, 2%Z); (8, 1%Z)] /\
  sources 50 cp_doc 7 = Ok [6; 1] /\
  exists ng, critical_path_minimize_for_slack (fun l => l) (fun _ l => l) 50 cp_doc = Ok ng /\ edge ng 8 6 = Some 1%Z /\ edge ng 6 8 = None.
Proof. splits; [eexists; splits; vm_compute; reflexivity|vm_compute; reflexivity|vm_compute; reflexivity|]. eexists. vm_compute. splits; reflexivity. Qed.
Example ex_pl_not_behind : ~ behind_cycle (has_edge pl_cyc) 9 /\ behind_cycle (has_edge pl_cyc) 2.
Proof. split.
  - intros (c & (d & Hcd & _) & Hr). apply reach_cases in Hr. destruct Hr as [->|Hr].
    + destruct Hcd as (v & Hv). vm_compute in Hv. discriminate.
    + apply reach1_last in Hr. destruct Hr as (b & _ & v & Hv). apply (In_edges pl_cyc b 9 v) in Hv; [|apply reachable_wf, reachable_run].
      vm_compute in Hv. intuition discriminate.
  - exists 2. split; [|apply reach_refl]. exists 1. split; [exists 1%Z; reflexivity|]. apply reach_step. exists 1%Z. reflexivity. Qed.
