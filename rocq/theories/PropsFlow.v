(** Property theorems C42-C44 (maximum_flow, maximum_flow_min_cut). *)
From Verif Require Import Prelude PreludeFacts Base BaseFacts BaseFacts2 BaseFacts3 Spec SpecFacts Loop SearchFacts
  BaseAlgFacts Bfs Sp SpFacts FlowSpec Flow FlowFacts MaxFlowFacts FlowFacts2.
Local Open Scope Z_scope.

Section P.
(** [inv c] is the float 1/c and [sp] the path search on the inverted graph.  The theorems hold for every inv and
    every search that finds a simple path whenever there is a path (so also in the presence of float rounding). *)
Context {A O W : Type} {EA : EqDec A} (inv : Z -> W) (P : W -> Prop) (sp : nat -> graph A O W -> A -> A -> res (option (list A))).
Notation graph := (graph A O Z).
Implicit Types (g : graph) (s e x y : A).

Theorem C42_maximum_flow_feasible g s e : (forall c, 0 < c -> P (inv c)) -> finds_paths P sp ->
  reachable g -> nonneg g -> contains g s = true -> contains g e = true -> s <> e ->
  exists total fg, returns (fun n => maximum_flow inv sp n g s e) (Ok (total, fg)) /\
    is_flow g s e (amount fg) total /\ 0 <= total /\ reachable fg /\ (forall x y v, edge fg x y = Some v -> 0 < v) /\
    forall S, S s = true -> S e = false -> total <= cut_capacity g S.
Proof. intros HP Hsp HR Hnn Hs He Hse. apply contains_In in Hs, He. pose proof (reachable_wf _ HR) as HW.
  destruct (maximum_flow_spec inv P sp HP Hsp g s e HW Hnn Hs He Hse) as (r & Hr & total & fg & -> & Rf & Ht & Fp & Fc & Cons & Cs1 & Cs2 & Ce1 & Ce2 & _).
  exists total, fg. assert (is_flow g s e (amount fg) total) as HF by (hnf; splits; [exact Fc|intros x _; apply Cons|lia]). 
  split; [exact Hr|]. split; [exact HF|]. split; [lia|]. split; [exact Rf|]. split; [exact Fp|]. intros S0 H1 H2. exact (flow_le_cut g s e (amount fg) total S0 HW Hs HF H1 H2). Qed.
Theorem C42_bad_nodes g s e : contains g s = false \/ contains g e = false -> forall n, maximum_flow inv sp n g s e = Err ValueError.
Proof. intros H n. unfold maximum_flow. destruct (contains g s) eqn:E1; [|reflexivity]. destruct (contains g e) eqn:E2; [|reflexivity]. destruct H; discriminate. Qed.

(** C43: the returned flow is maximal if it equals what leaves s or what can enter e; otherwise it is blocking
    (every path from s to e contains a full edge).  Missing: maximality in the second case, which fails. *)
Theorem C43_blocking_flow_partial g s e total fg : (forall c, 0 < c -> P (inv c)) -> finds_paths P sp ->
  reachable g -> nonneg g -> contains g s = true -> contains g e = true -> s <> e ->
  returns (fun n => maximum_flow inv sp n g s e) (Ok (total, fg)) ->
  (total = Z.min (outflow g (amount g) s) (inflow g (amount g) e) /\ forall f v, is_flow g s e f v -> v <= total) \/
  ~ reach (unsaturated g (amount fg)) s e.
Proof. intros HP Hsp HR Hnn Hs He Hse Hret. apply contains_In in Hs, He. pose proof (reachable_wf _ HR) as HW.
  destruct (maximum_flow_spec inv P sp HP Hsp g s e HW Hnn Hs He Hse) as (r & Hr & total' & fg' & -> & _ & _ & _ & _ & _ & _ & _ & _ & _ & HD).
  pose proof (returns_fun _ _ _ Hret Hr) as E. inv E. destruct HD as [HD|HD]; [left|right; exact HD]. split; [exact HD|]. intros f v Hf. rewrite HD. eapply flow_le_ends; eauto. Qed.

(** C44: what is returned.  Missing: that it is a cut and minimal, which fails. *)
Theorem C44_min_cut_edges_partial g s e : (forall c, 0 < c -> P (inv c)) -> finds_paths P sp ->
  reachable g -> nonneg g -> contains g s = true -> contains g e = true -> s <> e ->
  exists total fg, returns (fun n => maximum_flow inv sp n g s e) (Ok (total, fg)) /\
   ((total = 0 /\ returns (fun n => maximum_flow_min_cut inv sp n g s e) (Ok [])) \/
    (total <> 0 /\ exists walk cut, returns (fun n => breadth_first_walk n fg s (Some e) false) (Ok walk) /\
       returns (fun n => maximum_flow_min_cut inv sp n g s e) (Ok cut) /\ NoDup cut /\
       forall x y, In (x, y) cut <-> In x walk /\ has_edge fg x y /\ forall z v, edge fg x z = Some v -> edge g x z = Some v)).
Proof. intros HP Hsp HR Hnn Hs He Hse. apply contains_In in Hs, He. eapply min_cut_spec; eauto. Qed.
Theorem C44_bad_nodes_partial g s e : contains g s = false \/ contains g e = false -> forall n, maximum_flow_min_cut inv sp n g s e = Err ValueError.
Proof. intros H n. unfold maximum_flow_min_cut. destruct (contains g s) eqn:E1; [|reflexivity]. destruct (contains g e) eqn:E2; [|reflexivity]. destruct H; discriminate. Qed.
End P.

Local Close Scope Z_scope.
(** The hypotheses on inv and sp are met by Dijkstra on integers; 1 / c is exact for c = 1. *)
Definition inv1 (c : Z) : Z := (1 / c)%Z.
Example ex_inv1 : (forall c, (0 < c)%Z -> (0 <= inv1 c)%Z) /\ finds_paths (fun w => (0 <= w)%Z) (@dijkstra nat unit _).
Proof. split; [|apply dijkstra_finds_paths]. intros c Hc. unfold inv1. apply Z.div_pos; lia. Qed.

Lemma nonneg_check {A O} {EA : EqDec A} (g : graph A O Z) : wf g -> forallb (fun e => (0 <=? snd e)%Z) (edges g) = true -> nonneg g.
Proof. intros W H a b w E. apply (In_edges g a b w W) in E. rewrite forallb_forall in H. specialize (H _ E). apply Z.leb_le in H. exact H. Qed.
Lemma is_flow_check {A O} {EA : EqDec A} (g fg : graph A O Z) s e v : wf g -> wf fg ->
  forallb (fun x => (0 <=? snd x)%Z && (snd x <=? amount g (fst (fst x)) (snd (fst x)))%Z) (edges fg) = true -> nonneg g ->
  forallb (fun x => eqb x s || eqb x e || (outflow g (amount fg) x =? inflow g (amount fg) x)%Z) (nodes g) = true ->
  (outflow g (amount fg) s - inflow g (amount fg) s)%Z = v -> is_flow g s e (amount fg) v.
Proof. intros W Wf H1 Hnn H2 H3. rewrite forallb_forall in H1, H2. hnf; splits; auto.
  - intros x y. unfold amount at 1 2. destruct (edge fg x y) as [c|] eqn:E.
    + apply (In_edges fg x y c Wf) in E. apply H1 in E. cbn [fst snd] in E. apply andb_true_iff in E. destruct E as [E1 E2]. apply Z.leb_le in E1, E2. lia.
    + unfold amount. destruct (edge g x y) eqn:E'; [pose proof (Hnn _ _ _ E')|]; lia.
  - intros x Hx Hs He. apply contains_In in Hx. apply H2 in Hx. apply orb_true_iff in Hx. destruct Hx as [Hx|Hx]; [|apply Z.eqb_eq, Hx].
    apply orb_true_iff in Hx. destruct Hx as [Hx|Hx]; apply eqb_eq in Hx; congruence. Qed.

(** C43 fails: without residual edges the first (shortest) path blocks both others.
    s=0 a=1 b=2 t=3, y=4 z=5 (s-y-z-b), x=6 w=7 (a-x-w-t), all capacities 1: total 1, but 2 is possible. *)
Definition mf_bad : graph nat unit Z := ok_or empty_graph (run
  [OpAddEdge 0 1 1%Z false; OpAddEdge 1 2 1%Z false; OpAddEdge 2 3 1%Z false; OpAddEdge 0 4 1%Z false; OpAddEdge 4 5 1%Z false; OpAddEdge 5 2 1%Z false;
   OpAddEdge 1 6 1%Z false; OpAddEdge 6 7 1%Z false; OpAddEdge 7 3 1%Z false]).
Definition mf_better : graph nat unit Z := ok_or empty_graph (run
  [OpAddEdge 0 1 1%Z false; OpAddEdge 2 3 1%Z false; OpAddEdge 0 4 1%Z false; OpAddEdge 4 5 1%Z false; OpAddEdge 5 2 1%Z false;
   OpAddEdge 1 6 1%Z false; OpAddEdge 6 7 1%Z false; OpAddEdge 7 3 1%Z false]).
Theorem C43_not_maximal_refuted : reachable mf_bad /\ nonneg mf_bad /\
  (exists fg, forall n, maximum_flow inv1 dijkstra (30 + n) mf_bad 0 3 = Ok (1%Z, fg)) /\ is_flow mf_bad 0 3 (amount mf_better) 2.
Proof. assert (reachable mf_bad) as H by apply reachable_run. assert (nonneg mf_bad) as Hnn by (apply nonneg_check; [apply reachable_wf, H|vm_compute; reflexivity]). splits; auto.
  - eexists. intros n. vm_compute. reflexivity.
  - apply is_flow_check; [apply reachable_wf, H|apply reachable_wf, reachable_run|vm_compute; reflexivity|exact Hnn|vm_compute; reflexivity|vm_compute; reflexivity]. Qed.

(** C44 fails: on 0 -> 1 -> 2 with capacities 1 both edges are returned (total capacity 2, maximum flow 1);
    on 0 -> 2 (1), 0 -> 1 (2), 1 -> 3 (1), 3 -> 2 (1) nothing is returned although the flow is 2. *)
Definition mc_line : graph nat unit Z := ok_or empty_graph (run [OpAddEdge 0 1 1%Z false; OpAddEdge 1 2 1%Z false]).
Definition inv1000 (c : Z) : Z := (1000 / c)%Z.
Definition mc_none : graph nat unit Z := ok_or empty_graph (run
  [OpAddEdge 0 2 1%Z false; OpAddEdge 0 1 2%Z false; OpAddEdge 1 3 1%Z false; OpAddEdge 3 2 1%Z false]).
Theorem C44_not_minimal_refuted : reachable mc_line /\
  (exists fg, forall n, maximum_flow inv1 dijkstra (20 + n) mc_line 0 2 = Ok (1%Z, fg)) /\
  (forall n, maximum_flow_min_cut inv1 dijkstra (20 + n) mc_line 0 2 = Ok [(0, 1); (1, 2)]) /\ (amount mc_line 0%nat 1%nat + amount mc_line 1%nat 2%nat = 2)%Z.
Proof. splits; [apply reachable_run|eexists; intros n; vm_compute; reflexivity|intros n; vm_compute; reflexivity|reflexivity]. Qed.
Theorem C44_not_a_cut_refuted : reachable mc_none /\ reach (has_edge mc_none) 0 2 /\
  (exists fg, forall n, maximum_flow inv1000 dijkstra (30 + n) mc_none 0 2 = Ok (2%Z, fg)) /\
  (forall n, maximum_flow_min_cut inv1000 dijkstra (30 + n) mc_none 0 2 = Ok []).
Proof. splits; [apply reachable_run|apply reach_step; exists 1%Z; reflexivity|eexists; intros n; vm_compute; reflexivity|intros n; vm_compute; reflexivity]. Qed.

(** Hypotheses are satisfiable, the answer is not trivial (capacities 2 and 3 with a shared bottleneck) *)
Definition mf_ok : graph nat unit Z := ok_or empty_graph (run
  [OpAddEdge 0 1 2%Z false; OpAddEdge 0 2 3%Z false; OpAddEdge 1 3 3%Z false; OpAddEdge 2 3 1%Z false; OpAddEdge 2 1 1%Z false; OpAddEdge 3 4 9%Z false]).
Example ex_mf_ok : reachable mf_ok /\ nonneg mf_ok /\ contains mf_ok 0 = true /\ contains mf_ok 4 = true /\
  exists fg, maximum_flow inv1000 dijkstra 50 mf_ok 0 4 = Ok (4%Z, fg) /\ edges fg = [(0, 1, 2%Z); (0, 2, 2%Z); (1, 3, 3%Z); (3, 4, 4%Z); (2, 3, 1%Z); (2, 1, 1%Z)].
Proof. splits; try reflexivity; [apply reachable_run|apply nonneg_check; [apply reachable_wf, reachable_run|vm_compute; reflexivity]|]. eexists. split; vm_compute; reflexivity. Qed.
