(** C51: tsp_branch_and_bound *)
From Verif Require Import Prelude PreludeFacts Base BaseFacts BaseFacts2 BaseFacts3 Spec SpecFacts Loop BaseAlgFacts MaxFlowFacts Sp Perms TspSpec Tsp TspFacts PropsTsp Bnb BnbFacts.
Section Props.
Context {A O : Type} {EA : EqDec A}.
Notation graph := (graph A O Z).
Implicit Types (g : graph).
(** iterating over a set visits its elements once each, in any order *)
Definition set_order (ord : list A -> list A -> list A) : Prop := forall t s, Permutation (ord t s) s.

(** ** C51, partial: on a complete graph of at least 4 nodes without an edge from a node to itself it ends, and either returns a
    Hamiltonian tour with exactly its length or raises AssertionError.  Missing: the tour is optimal, and is found on every graph (both refuted below) *)
Theorem C51_bnb_partial srt ord ltt g : set_order ord -> reachable g -> complete g -> (forall x, edge g x x = None) -> 4 <= length (nodes g) ->
  exists r, returns (fun n => tsp_branch_and_bound srt ord ltt n g) r /\
    (r = Err AssertionError \/ exists d t, r = Ok (Fin d, t) /\ hamiltonian g t /\ tour_length g t = Some d).
Proof. intros Ho R HC HL Hn. pose proof (reachable_wf _ R) as W. destruct (nodes g) as [|s rest] eqn:En; [cbn in Hn; lia|]. rewrite <- En in Hn.
  destruct (bnb_spec srt ord ltt Ho g W HC s rest En (HL s) Hn) as (r & Hr & [->|(d & t & -> & H1 & H2 & _)]); [exists (Err AssertionError); auto|]. exists (Ok (Fin d, t)). split; [exact Hr|]. right. exists d, t. auto. Qed.
(** graphs of no node, one node, two nodes and three nodes are never solved *)
Theorem C51_small_refuted srt ord ltt g n : set_order ord -> reachable g -> complete g -> (forall x, edge g x x = None) ->
  (length (nodes g) = 0 -> tsp_branch_and_bound srt ord ltt n g = Err IndexError) /\
  (length (nodes g) = 1 \/ length (nodes g) = 2 -> returns (fun n => tsp_branch_and_bound srt ord ltt n g) (Ok (Inf, []))) /\
  (length (nodes g) = 3 -> returns (fun n => tsp_branch_and_bound srt ord ltt n g) (Err BadLogic)).
Proof. intros Ho R HC HL. pose proof (reachable_wf _ R) as W. destruct (nodes g) as [|s rest] eqn:En; [splits; [intros _; unfold tsp_branch_and_bound; rewrite En; reflexivity|intros [H|H]; discriminate|discriminate]|]. pose proof (wf_nodes _ W) as ND. rewrite En in ND. assert (In s (nodes g)) as Hs by (rewrite En; left; reflexivity).
  pose proof (edges_count_start g W HC s rest En (HL s)) as Hc. 
  assert (forall l q, (forall s' e d, In (s', e, d) l -> s' = s /\ In e rest) -> (forall x, In x q -> exists d e, x = (d, [s; e]) /\ In e rest) -> forall q', q' = fold_left (fun q e => let '(s, e, d) := e in insort (qlt ltt) (Fin (d + lower_bound srt ord g [s; e] (lremove s (nodes g))), [s; e]) q) l q -> length q' = length l + length q /\ forall x, In x q' -> exists d e, x = (d, [s; e]) /\ In e rest) as Hi.
  { induction l as [|[[s' e] d] l IH]; intros q Hl Hq q' ->; cbn [fold_left]; [auto|]. destruct (Hl s' e d (or_introl eq_refl)) as [-> He]. set (x := (Fin _, [s; e])). pose proof (insort_perm (qlt ltt) x q) as HP.
    destruct (IH (insort (qlt ltt) x q)) with (q' := fold_left (fun q e => let '(s, e, d) := e in insort (qlt ltt) (Fin (d + lower_bound srt ord g [s; e] (lremove s (nodes g))), [s; e]) q) l (insort (qlt ltt) x q)) as [K1 K2]; auto.
    - intros; apply (Hl s' e0 d0); right; assumption.
    - intros y Hy. apply (Permutation_in _ HP) in Hy. destruct Hy as [<-|Hy]; [|auto]. unfold x. eauto.
    - split; [|exact K2]. rewrite K1, (Permutation_length HP). cbn. lia. }
  destruct (Hi (edges_from g s) []) with (q' := bnb_init srt ord ltt g s) as [L1 L2].
  { intros s' e d He. apply (In_edges_from g s _ W) in He. destruct He as (b & v & E & Hb). injection E as -> -> ->. split; [reflexivity|]. assert (In b (nodes g)) as Hb2 by (apply (has_edge_nodes g s b W); exists v; exact Hb). rewrite En in Hb2. destruct Hb2 as [->|Hb2]; [congruence|exact Hb2]. }
  { intros x []. } { reflexivity. }
  clear Hi. rewrite Hc in L1. cbn [length] in L1 |- *. rewrite <- En in *. assert (forall m, tsp_branch_and_bound srt ord ltt m g = loop m (bnb_step srt ord ltt m g (lower_bound srt ord g [] (nodes g))) (bnb_init srt ord ltt g s, [])) as Et by (intros m; unfold tsp_branch_and_bound; rewrite En; reflexivity).
  assert (length (nodes g) = S (length rest)) as El by (rewrite En; reflexivity).
  splits; [discriminate| |].
  - intros H. apply (returns_ext _ _ _ (fun m => eq_sym (Et m))). destruct H as [H|H].
    + destruct (bnb_init srt ord ltt g s) as [|x q]; [|cbn in L1; lia]. hnf. splits; [discriminate| |].
      * exists 1. intros [|m] Hm; [lia|]. reflexivity.
      * intros [|m]; [left|right]; reflexivity.
    + destruct (bnb_init srt ord ltt g s) as [|x [|y q]]; [cbn in L1; lia| |cbn in L1; lia]. destruct (L2 x (or_introl eq_refl)) as (d & e & -> & He). assert (rest = [e]) as Er. { destruct rest as [|y [|z r]]; cbn in H; try lia. destruct He as [->|[]]. reflexivity. }
      assert (forall m, bnb_step srt ord ltt m g (lower_bound srt ord g [] (nodes g)) ([(d, [s; e])], []) = inl ([], [(d, [s; e])])) as E1.
      { intros m. unfold bnb_step. rewrite En, Er. cbn [forallb]. rewrite !(proj2 (mem_In _ _)) by (cbn; auto). cbn. reflexivity. }
      hnf. splits; [discriminate| |].
      * exists 2. intros [|[|m]] Hm; [lia|lia|]. cbn [loop]. rewrite E1. reflexivity.
      * intros [|[|m]]; [left; reflexivity|left; cbn [loop]; rewrite E1; reflexivity|right; cbn [loop]; rewrite E1; reflexivity].
  - intros H. apply (returns_ext _ _ _ (fun m => eq_sym (Et m))). destruct (bnb_init srt ord ltt g s) as [|x q]; [cbn in L1; lia|]. destruct (L2 x (or_introl eq_refl)) as (d & e & -> & He).
    assert (NoDup [s; e]) as N2. { rewrite En in ND. apply NoDup_cons_iff in ND. constructor; [intros [->|[]]; tauto|constructor; [intros []|constructor]]. }
    assert (incl [s; e] (nodes g)) as Hincl by (intros y [<-|[<-|[]]]; [exact Hs|rewrite En; right; exact He]).
    pose proof (rem_length g W [s; e] N2 Hincl) as HR. unfold rem in HR. cbn [length] in HR. set (R' := filter (fun x => negb (mem x [s; e])) (nodes g)) in *.
    assert (exists y, R' = [y]) as [y Ey]. { destruct R' as [|y [|z r]]; cbn in HR; try lia. eauto. }
    assert (forall m, bnb_step srt ord ltt m g (lower_bound srt ord g [] (nodes g)) ((d, [s; e]) :: q, []) = inr (Err BadLogic)) as E1.
    { intros m. unfold bnb_step. fold R'. assert (forallb (fun x => mem x [s; e]) (nodes g) = false) as ->. { apply not_true_is_false. intros C. rewrite forallb_forall in C. assert (In y R') as Hy by (rewrite Ey; left; reflexivity). apply filter_In in Hy. destruct Hy as [Hy1 Hy2]. rewrite (C y Hy1) in Hy2. discriminate. }
      rewrite Ey. pose proof (Ho [s; e] [y]) as HO. apply Permutation_sym, Permutation_length_1_inv in HO. rewrite HO. cbn [foldM]. unfold bnb_child. cbn [lremove]. destruct (eq_dec y y); [|congruence]. reflexivity. }
    hnf. splits; [discriminate| |].
    + exists 1. intros [|m] Hm; [lia|]. cbn [loop]. rewrite E1. reflexivity.
    + intros [|m]; [left; reflexivity|right; cbn [loop]; rewrite E1; reflexivity]. Qed.
End Props.

(** ** concrete graphs.  Python's order of (distance, node) pairs and of tuples; sets of small integers in ascending order *)
Definition le2 (x y : Z * nat) : bool := ((fst x <? fst y)%Z || ((fst x =? fst y)%Z && (snd x <=? snd y))).
Fixpoint ins2 x l := match l with [] => [x] | y :: r => if le2 x y then x :: y :: r else y :: ins2 x r end.
Definition sort2 l := fold_right ins2 [] l.
Definition ord0 (t s : list nat) : list nat := s.
Fixpoint lex (x y : list nat) : bool := match x, y with [], _ :: _ => true | a :: r, b :: u => (a <? b) || ((a =? b) && lex r u) | _, [] => false end.
Lemma ord0_order : set_order ord0.
Proof. intros t s. reflexivity. Qed.
Lemma no_loops (g : graph nat unit Z) : reachable g -> forallb (fun e : nat * nat * Z => negb (fst (fst e) =? snd (fst e))) (edges g) = true -> forall x, edge g x x = None.
Proof. intros R H x. destruct (edge g x x) as [v|] eqn:E; [|reflexivity]. rewrite forallb_forall in H. specialize (H (x, x, v) (proj2 (In_edges g x x v (reachable_wf _ R)) E)). cbn in H. rewrite Nat.eqb_refl in H. discriminate. Qed.
(** a symmetric complete graph of 5 nodes: the tour returned has length 15, another has length 12 *)
Definition m_sub : list (list Z) := [[0;3;1;2;3]; [3;0;9;2;9]; [1;9;0;3;1]; [2;2;3;0;9]; [3;9;1;9;0]]%Z.
Definition g_sub := matrix_graph m_sub.
Lemma g_sub_ok : reachable g_sub /\ complete g_sub /\ symmetric g_sub /\ (forall x, edge g_sub x x = None) /\ length (nodes g_sub) = 5.
Proof. assert (reachable g_sub) as R by (exists (matrix_ops m_sub); vm_compute; reflexivity). splits; [exact R|apply complete_check; vm_compute; reflexivity|apply (symmetric_check _ R); vm_compute; reflexivity|apply (no_loops _ R); vm_compute; reflexivity|vm_compute; reflexivity]. Qed.
Theorem C51_not_optimal_refuted : reachable g_sub /\ complete g_sub /\ symmetric g_sub /\ (forall x, edge g_sub x x = None) /\
  returns (fun n => tsp_branch_and_bound sort2 ord0 lex n g_sub) (Ok (Fin 15, [0; 2; 4; 1; 3])) /\ exists t, hamiltonian g_sub t /\ tour_length g_sub t = Some 12%Z.
Proof. destruct g_sub_ok as (R & HC & HS & HL & Hn). splits; auto.
  - destruct (C51_bnb_partial sort2 ord0 lex g_sub ord0_order R HC HL) as (r & Hr & _); [rewrite Hn; lia|]. replace (Ok (Fin 15, [0; 2; 4; 1; 3])) with r; [exact Hr|]. transitivity (tsp_branch_and_bound sort2 ord0 lex 200 g_sub); [symmetry; apply (returns_of _ _ 200 Hr); vm_compute; discriminate|vm_compute; reflexivity].
  - assert (exists t, In t (permutations (nodes g_sub)) /\ tour_length g_sub t = Some 12%Z) as (t & Ht & E); [|exists t; split; [apply In_permutations, Ht|exact E]].
    assert (existsb (fun t => match tour_length g_sub t with Some z => (z =? 12)%Z | None => false end) (permutations (nodes g_sub)) = true) as C by (vm_compute; reflexivity). apply existsb_exists in C. destruct C as (t & Ht & E). exists t. split; [exact Ht|]. destruct (tour_length g_sub t); [|discriminate]. apply Z.eqb_eq in E. subst. reflexivity. Qed.
(** a symmetric complete graph of 4 nodes on which it raises AssertionError although a tour exists *)
Definition m_ass : list (list Z) := [[0;1;3;9]; [1;0;9;3]; [3;9;0;1]; [9;3;1;0]]%Z.
Definition g_ass := matrix_graph m_ass.
Theorem C51_assertion_refuted : reachable g_ass /\ complete g_ass /\ symmetric g_ass /\ (forall x, edge g_ass x x = None) /\ length (nodes g_ass) = 4 /\
  returns (fun n => tsp_branch_and_bound sort2 ord0 lex n g_ass) (Err AssertionError).
Proof. assert (reachable g_ass) as R by (exists (matrix_ops m_ass); vm_compute; reflexivity). assert (complete g_ass) as HC by (apply complete_check; vm_compute; reflexivity). assert (forall x, edge g_ass x x = None) as HL by (apply (no_loops _ R); vm_compute; reflexivity).
  splits; auto; [apply (symmetric_check _ R); vm_compute; reflexivity|]. destruct (C51_bnb_partial sort2 ord0 lex g_ass ord0_order R HC HL) as (r & Hr & _); [vm_compute; lia|]. replace (Err AssertionError) with r; [exact Hr|]. transitivity (tsp_branch_and_bound sort2 ord0 lex 200 g_ass); [symmetry; apply (returns_of _ _ 200 Hr); vm_compute; discriminate|vm_compute; reflexivity]. Qed.
(** with an edge of value 0 from the first node to itself the path returned visits that node twice *)
Definition m_one : list (list Z) := [[0;1;1;1]; [1;0;1;1]; [1;1;0;1]; [1;1;1;0]]%Z.
Definition ops_self : list (op nat unit Z) := matrix_ops m_one ++ [OpAddEdge 0 0 0%Z false].
Definition g_self : graph nat unit Z := ok_or empty_graph (run ops_self).
Theorem C51_loop_refuted : reachable g_self /\ complete g_self /\ length (nodes g_self) = 4 /\ (forall n, tsp_branch_and_bound sort2 ord0 lex (50 + n) g_self = Ok (Fin 4, [0; 0; 1; 2; 3])) /\ ~ hamiltonian g_self [0; 0; 1; 2; 3].
Proof. splits; [exists ops_self; vm_compute; reflexivity|apply complete_check; vm_compute; reflexivity|vm_compute; reflexivity|intros n; vm_compute; reflexivity|]. intros C. apply Permutation_length in C. vm_compute in C. discriminate. Qed.
Example ex_small3 : reachable g_tri /\ complete g_tri /\ (forall x, edge g_tri x x = None) /\ length (nodes g_tri) = 3.
Proof. splits; [apply g_tri_reachable|apply complete_check; vm_compute; reflexivity|apply (no_loops _ g_tri_reachable); vm_compute; reflexivity|vm_compute; reflexivity]. Qed.
