(** Property theorems C23-C28 (shortest paths). *)
From Verif Require Import Prelude PreludeFacts Base BaseFacts BaseFacts2 BaseFacts3 Spec SpecFacts Loop SearchFacts
  BaseAlgFacts Sp SpFacts BidirFacts CacheFacts.
Local Open Scope Z_scope.

Section P.
Context {A O : Type} {EA : EqDec A}.
Notation graph := (graph A O Z).
Implicit Types (g : graph) (a b s e x y : A).

(** C23 *)
Theorem C23_shortest_path_optimal g s e : reachable g -> nonneg g -> contains g s = true -> contains g e = true ->
  exists d p, returns (fun n => shortest_path n g s e []) (Ok (d, p)) /\
    match d with
    | Fin z => wpath (edge g) s p e z /\ forall p' z', wpath (edge g) s p' e z' -> z <= z'
    | Inf => p = [] /\ forall p' z', ~ wpath (edge g) s p' e z'
    end.
Proof. intros H Hn Hs He. apply reachable_wf in H. apply contains_In in Hs, He.
  destruct (shortest_path_dist g s e H Hn Hs He) as (d & p & Hr & Hd & Hp). exists d, p. split; [exact Hr|]. destruct d; [destruct Hd; auto|auto]. Qed.
Theorem C23_shortest_path_bad_nodes g s e S n : contains g s = false \/ contains g e = false -> shortest_path n g s e S = Err ValueError.
Proof. unfold shortest_path. intros [-> | ->]; [reflexivity|]. destruct (negb (contains g s)); reflexivity. Qed.

(** C24: no node of the answer, endpoints included, is in S *)
Theorem C24_shortest_path_avoids g s e S : reachable g -> nonneg g -> contains g s = true -> contains g e = true ->
  exists d p, returns (fun n => shortest_path n g s e S) (Ok (d, p)) /\
    match d with
    | Fin z => wpath (edge g) s p e z /\ (forall x, In x p -> ~ In x S) /\
               forall p' z', wpath (edge g) s p' e z' -> (forall x, In x p' -> ~ In x S) -> z <= z'
    | Inf => p = [] /\ forall p' z', wpath (edge g) s p' e z' -> exists x, In x p' /\ In x S
    end.
Proof. intros H Hn Hs He. apply reachable_wf in H. apply contains_In in Hs, He.
  destruct (shortest_path_spec g s e S H Hn Hs He) as ([d p] & Hr & Hp). exists d, p. split; [exact Hr|]. destruct d; [exact Hp|].
  destruct Hp as [-> Hp]. split; [reflexivity|]. intros p' z' Hw. specialize (Hp p' z' Hw). clear - Hp EA. induction p' as [|x p' IH].
  - exfalso. apply Hp. intros x [].
  - destruct (In_dec' x S) as [h|h]; [exists x; cbn; auto|]. destruct IH as (y & Hy & HyS); [|exists y; cbn; auto].
    intros C. apply Hp. intros y [<-|Hy]; [exact h|apply C, Hy]. Qed.

(** C25; [srt] is sorted() on (distance, node) pairs, any rearrangement. *)
Theorem C25_bidirectional_optimal g s e srt : reachable g -> nonneg g -> (forall l, Permutation (srt l) l) ->
  contains g s = true -> contains g e = true ->
  exists d p, returns (fun n => shortest_path_bidirectional srt n g s e []) (Ok (d, p)) /\
    match d with
    | Fin z => wpath (edge g) s p e z /\ forall p' z', wpath (edge g) s p' e z' -> z <= z'
    | Inf => p = [] /\ forall p' z', ~ wpath (edge g) s p' e z'
    end.
Proof. intros H Hn Hsrt Hs He. apply reachable_wf in H. apply contains_In in Hs, He.
  destruct (bidir_dist g s e srt H Hn Hsrt Hs He) as (d & p & Hr & Hd & Hp). exists d, p. split; [exact Hr|]. destruct d; [destruct Hd; auto|auto]. Qed.
Theorem C25_bidirectional_agrees g s e srt : reachable g -> nonneg g -> (forall l, Permutation (srt l) l) ->
  contains g s = true -> contains g e = true ->
  exists d p p', returns (fun n => shortest_path_bidirectional srt n g s e []) (Ok (d, p)) /\ returns (fun n => shortest_path n g s e []) (Ok (d, p')).
Proof. intros H Hn Hsrt Hs He. apply reachable_wf in H. apply contains_In in Hs, He.
  destruct (bidir_dist g s e srt H Hn Hsrt Hs He) as (d & p & Hr & Hd & _). destruct (shortest_path_dist g s e H Hn Hs He) as (d' & p' & Hr' & Hd' & _).
  assert (d' = d) as -> by (eapply dist_fun; eauto). eauto. Qed.
(** with avoids, when the endpoints are not avoided *)
Theorem C25_bidirectional_avoids g s e S srt : reachable g -> nonneg g -> (forall l, Permutation (srt l) l) ->
  contains g s = true -> contains g e = true -> ~ In s S -> ~ In e S ->
  exists d p p', returns (fun n => shortest_path_bidirectional srt n g s e S) (Ok (d, p)) /\ returns (fun n => shortest_path n g s e S) (Ok (d, p')) /\
    match d with Fin z => wpath (edge g) s p e z /\ (forall x, In x p -> ~ In x S) | Inf => p = [] end.
Proof. intros H Hn Hsrt Hs He HsS HeS. apply reachable_wf in H. apply contains_In in Hs, He.
  destruct (bidir_spec g s e S srt H Hn Hsrt Hs He HsS HeS) as ([d p] & Hr & Hp).
  destruct (shortest_path_spec g s e S H Hn Hs He) as ([d' p'] & Hr' & Hp').
  assert (d' = d) as ->.
  { destruct d as [z|], d' as [z'|]; cbn in Hp, Hp'; auto.
    - destruct Hp as (H1 & H2 & H3), Hp' as (H1' & H2' & H3'). specialize (H3 _ _ H1' H2'). specialize (H3' _ _ H1 H2). f_equal. lia.
    - exfalso. destruct Hp as (H1 & H2 & H3), Hp' as (_ & H'). apply (H' _ _ H1 H2).
    - exfalso. destruct Hp' as (H1 & H2 & H3), Hp as (_ & H'). apply (H' _ _ H1 H2). }
  exists d, p, p'. splits; auto. destruct d; cbn in Hp; [|tauto]. destruct Hp as (H1 & H2 & _). split; [exact H1|exact H2]. Qed.

(** C26: any sequence of memoized queries on an unmodified graph; [hash] is hash() of a frozenset,
    assumed not to collide for different sets. *)
Theorem C26_cache_transparent {H} {EH : EqDec H} (hash : list A -> H) srt g qs : reachable g -> nonneg g ->
  (forall l, Permutation (srt l) l) ->
  (forall l l', hash l = hash l' -> forall u, In u l <-> In u l') ->
  (forall s e av, In (s, e, av) qs -> contains g s = true /\ contains g e = true /\ match av with None => True | Some S0 => ~ In s S0 /\ ~ In e S0 end) ->
  exists rs, returns (fun n => cached_seq hash srt n g ([], []) qs) (Ok rs) /\
    Forall2 (fun q r => let '(s, e, av) := q in let '(d, p) := r in let S := match av with None => [] | Some S0 => S0 end in
       match d with
       | Fin z => wpath (edge g) s p e z /\ clear_of S p /\ forall p' z', wpath (edge g) s p' e z' -> clear_of S p' -> z <= z'
       | Inf => p = [] /\ forall p' z', wpath (edge g) s p' e z' -> ~ clear_of S p'
       end) qs rs.
Proof. intros Hr Hn Hs Hh Hq. apply reachable_wf in Hr.
  destruct (cached_seq_spec hash srt g Hr Hn Hs Hh qs) with (c := @nil (A * A * (ext * list A))) (rc := @nil (A * A * H * (ext * list A))) as (rs & R & F).
  - intros [[s e] av] Hin. destruct (Hq s e av Hin) as (H1 & H2 & H3). apply contains_In in H1, H2. hnf. auto.
  - intros x y r C. discriminate C.
  - intros x y h r C. discriminate C.
  - exists rs. split; [exact R|]. clear - F. induction F as [|[[s e] av] [d p] qs rs H1 H2 IH]; constructor; [|exact IH]. destruct av as [S0|]; cbn in H1.
    + destruct d; exact H1.
    + destruct H1 as [H1 H3]. cbn in H1, H3. destruct d as [z|].
      * destruct H1 as [_ H1]. hnf. split; [exact H3|]. split; [intros x _ []|]. intros p' z' Hw _. eapply H1; eauto.
      * split; [exact H3|]. intros p' z' Hw. exfalso. apply (H1 p' z' Hw). Qed.

(** C28 *)
Theorem C28_distance_from_path_legs g h t : reachable g -> nonneg g -> (forall x, In x (h :: t) -> contains g x = true) ->
  exists d, returns (fun n => distance_from_path n g (h :: t)) (Ok d) /\ legs g h t d.
Proof. intros H Hn Hc. apply reachable_wf in H.
  destruct (distance_from_path_spec g h t H Hn) as (d & Hl & Hr); [apply contains_In, Hc; cbn; auto|intros x Hx; apply contains_In, Hc; cbn; auto|]. eauto. Qed.
Theorem C28_distance_of_walk g a p b d : reachable g -> nonneg g -> contains g a = true -> wpath (edge g) a p b d ->
  returns (fun n => distance_from_path n g p) (Ok (Fin d)).
Proof. intros H Hn Ha Hp. destruct (wpath_head _ _ _ _ _ Hp) as (t & ->). apply reachable_wf in H. apply contains_In in Ha.
  destruct (distance_from_path_spec g a t H Hn Ha) as (d' & Hl & Hr).
  { intros x Hx. apply (wpath_in_nodes g a (a :: t) b d H Ha Hp). cbn; auto. }
  assert (d' = Fin d) as -> by (eapply legs_fun; [exact Hl|]; eapply legs_wpath; eauto). exact Hr. Qed.
Theorem C28_empty g n : distance_from_path n g [] = Ok (Fin 0).
Proof. reflexivity. Qed.
End P.

Local Close Scope Z_scope.
(** C27 fails: the cache is not told about edits of the graph. *)
Definition stale_g : graph nat unit Z := ok_or empty_graph (run [OpAddEdge 1 2 10%Z false]).
Definition stale_g' : graph nat unit Z := ok_or empty_graph (run [OpAddEdge 1 2 10%Z false; OpAddEdge 1 2 3%Z false]).
Theorem C27_stale_after_edit_refuted :
  reachable stale_g' /\ add_edge stale_g 1 2 3%Z false = Ok stale_g' /\
  exists st r, cached_sp (fun l : list nat => l) (fun l => l) 50 stale_g ([], []) 1 2 None = Ok (r, st) /\
    cached_sp (fun l : list nat => l) (fun l => l) 50 stale_g' st 1 2 None = Ok ((Fin 10%Z, [1; 2]), st) /\
    shortest_path 50 stale_g' 1 2 [] = Ok (Fin 3%Z, [1; 2]).
Proof. split; [apply reachable_run|]. split; [vm_compute; reflexivity|]. eexists _, _. vm_compute. splits; reflexivity. Qed.
(** with an avoided endpoint memoize=True answers as if it were not avoided *)
Theorem C27_avoided_endpoint_refuted :
  (exists st, cached_sp (fun l : list nat => l) (fun l => l) 50 stale_g ([], []) 1 2 (Some [1]) = Ok ((Fin 10%Z, [1; 2]), st)) /\
  shortest_path 50 stale_g 1 2 [1] = Ok (Inf, []).
Proof. split; [eexists|]; vm_compute; reflexivity. Qed.
(** two avoid sets with the same hash are confused *)
Definition coll_g : graph nat unit Z := ok_or empty_graph (run [OpAddEdge 1 2 1%Z false; OpAddEdge 2 4 1%Z false; OpAddEdge 1 3 5%Z false; OpAddEdge 3 4 5%Z false]).
Theorem C27_hash_collision_refuted : forall hash : list nat -> Z, hash [2] = hash [3] ->
  exists st r st', cached_sp hash (fun l => l) 50 coll_g ([], []) 1 4 (Some [2]) = Ok (r, st) /\
    cached_sp hash (fun l => l) 50 coll_g st 1 4 (Some [3]) = Ok ((Fin 10%Z, [1; 3; 4]), st') /\
    shortest_path 50 coll_g 1 4 [3] = Ok (Fin 2%Z, [1; 2; 4]).
Proof. intros hash Hh.
  assert (cached_sp hash (fun l => l) 50 coll_g ([], []) 1 4 (Some [2]) =
    Ok ((Fin 10%Z, [1; 3; 4]), ([], [((1, 4, hash [2]), (Fin 10%Z, [1; 3; 4]))]))) as E.
  { unfold cached_sp.
    assert (contains coll_g 1 = true) as -> by reflexivity. assert (contains coll_g 4 = true) as -> by reflexivity. cbn [negb dget].
    assert (shortest_path_bidirectional (fun l => l) 50 coll_g 1 4 [2] = Ok (Fin 10%Z, [1; 3; 4])) as -> by (vm_compute; reflexivity). reflexivity. }
  eexists _, _, _. split; [exact E|]. split; [|vm_compute; reflexivity].
  unfold cached_sp.
  assert (contains coll_g 1 = true) as -> by reflexivity. assert (contains coll_g 4 = true) as -> by reflexivity. cbn [negb dget].
  rewrite <- Hh. destruct (eq_dec (1, 4, hash [2]) (1, 4, hash [2])); [reflexivity|congruence]. Qed.
(** the true part of C27: on the current graph, starting from an empty cache *)
Theorem C27_fresh_cache_partial {A O H} {EA : EqDec A} {EH : EqDec H} (hash : list A -> H) srt (g : graph A O Z) s e S : reachable g -> nonneg g ->
  (forall l, Permutation (srt l) l) -> (forall l l', hash l = hash l' -> forall u, In u l <-> In u l') ->
  contains g s = true -> contains g e = true -> ~ In s S -> ~ In e S ->
  exists d p p' st, returns (fun n => cached_sp hash srt n g ([], []) s e (Some S)) (Ok ((d, p), st)) /\
    returns (fun n => shortest_path n g s e S) (Ok (d, p')).
Proof. intros Hg Hn Hsrt Hh Hs He HsS HeS.
  destruct (C25_bidirectional_avoids g s e S srt Hg Hn Hsrt Hs He HsS HeS) as (d & p & p' & R1 & R2 & _).
  exists d, p, p'. eexists. split; [|exact R2]. unfold cached_sp. rewrite Hs, He. cbn [negb dget].
  apply (returns_bind_ok _ (fun r => (r, ([], dset (s, e, hash S) r []))) (d, p) R1). Qed.

(** Hypotheses are satisfiable *)
Definition ex_w : graph nat nat Z := ok_or empty_graph (run
  [OpAddEdge 1 2 4%Z false; OpAddEdge 1 3 1%Z false; OpAddEdge 3 2 1%Z false; OpAddEdge 2 4 0%Z false; OpAddEdge 4 1 7%Z true; OpAddNode 9 None; OpAddEdge 4 4 2%Z false]).
Lemma nonneg_check {A O} {EA : EqDec A} (g : graph A O Z) : wf g -> forallb (fun e => (0 <=? snd e)%Z) (edges g) = true -> nonneg g.
Proof. intros W H a b w E. rewrite forallb_forall in H. specialize (H (a, b, w)). cbn in H. apply Z.leb_le, H. apply In_edges; auto. Qed.
Example ex_w_ok : reachable ex_w /\ nonneg ex_w /\ contains ex_w 1 = true /\ contains ex_w 4 = true /\ contains ex_w 9 = true.
Proof. splits; try (vm_compute; reflexivity); [apply reachable_run|]. apply nonneg_check; [apply reachable_wf, reachable_run|vm_compute; reflexivity]. Qed.
Example ex_w_run : shortest_path 50 ex_w 1 4 [] = Ok (Fin 2%Z, [1; 3; 2; 4]) /\
  shortest_path 50 ex_w 1 9 [] = Ok (Inf, []) /\ shortest_path 50 ex_w 1 4 [3] = Ok (Fin 4%Z, [1; 2; 4]) /\
  shortest_path_bidirectional (fun l => l) 50 ex_w 1 4 [] = Ok (Fin 2%Z, [1; 3; 2; 4]) /\
  distance_from_path 50 ex_w [1; 4; 2; 4] = Ok (Fin 16%Z) /\
  cached_seq (fun l : list nat => l) (fun l => l) 50 ex_w ([], []) [(1, 4, None); (3, 4, None); (1, 9, None); (1, 4, Some [3])] =
    Ok [(Fin 2%Z, [1; 3; 2; 4]); (Fin 1%Z, [3; 2; 4]); (Inf, []); (Fin 4%Z, [1; 2; 4])].
Proof. vm_compute. splits; reflexivity. Qed.
