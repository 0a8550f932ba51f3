(** Property theorems C40, C41 (all_simple_paths, all_paths). *)
From Verif Require Import Prelude PreludeFacts Base BaseFacts BaseFacts2 BaseFacts3 Spec SpecFacts Loop SearchFacts
  BaseAlg BaseAlgFacts Paths PathsFacts PropsDag.

Section P.
Context {A O V : Type} {EA : EqDec A}.
Notation graph := (graph A O V).
Implicit Types (g : graph) (s e : A).

(** C40: every simple path exactly once and nothing else; argument errors *)
Theorem C40_all_simple_paths_exact g s e : reachable g -> contains g s = true -> contains g e = true -> s <> e ->
  exists r, returns (fun n => all_simple_paths n g s e) (Ok r) /\ NoDup r /\ forall P, In P r <-> simple_path (has_edge g) s P e.
Proof. intros H Hs He Hne. apply all_simple_paths_spec; [apply reachable_wf, H|apply contains_In, Hs|apply contains_In, He|exact Hne]. Qed.
Theorem C40_bad_arguments g s e : contains g s = false \/ contains g e = false \/ s = e -> forall n, all_simple_paths n g s e = Err ValueError.
Proof. intros H n. unfold all_simple_paths. destruct (contains g s) eqn:E1; [|reflexivity]. destruct (contains g e) eqn:E2; [|reflexivity]. cbn [negb].
  destruct (eqb s e) eqn:E3; [reflexivity|]. apply eqb_false in E3. destruct H as [H|[H|H]]; congruence. Qed.

(** C41: whatever is returned is a list of different paths from s to e; on an acyclic graph it is all of them.
    Missing (and false, see below): that it always terminates without raising. *)
Theorem C41_all_paths_sound_partial g s e r : reachable g ->
  returns (fun n => all_paths n g s e) (Ok r) -> NoDup r /\ forall P, In P r -> path (has_edge g) s P e.
Proof. intros H (_ & [N HN] & _). specialize (HN N (le_n N)). destruct (contains g s) eqn:Es.
  - eapply all_paths_sound; [apply reachable_wf, H|apply contains_In, Es|exact HN].
  - unfold all_paths in HN. rewrite Es in HN. discriminate. Qed.
Theorem C41_all_paths_dag_partial g s e : reachable g -> acyclic (has_edge g) -> contains g s = true -> contains g e = true -> s <> e ->
  exists r, returns (fun n => all_paths n g s e) (Ok r) /\ NoDup r /\ forall P, In P r <-> path (has_edge g) s P e.
Proof. intros H Hac Hs He Hne. apply all_paths_dag; [apply reachable_wf, H|exact Hac|apply contains_In, Hs|apply contains_In, He|exact Hne]. Qed.

(** C41: without an edge from a node to itself there is no exception (it may still not return) *)
Lemma pair_in_ok n2 n3 (p : list A) n1 : n1 <> n2 -> ends_with n1 p = true -> exists b, pair_in n2 n3 p = Ok b.
Proof. intros Hne He. apply ends_with_spec in He. destruct He as (q & ->). induction q as [|x q IH]; cbn [app pair_in].
  - destruct (eqb n1 n2) eqn:E; [apply eqb_eq in E; congruence|]. cbn. eauto.
  - destruct (eqb x n2); [|exact IH]. destruct (q ++ [n1]) as [|y t] eqn:E; [destruct q; discriminate|]. destruct (eqb y n3); [eauto|exact IH]. Qed.
Lemma ap_skip_ok n2 n1 (new : list (list A)) : n1 <> n2 -> (forall p, In p new -> ends_with n1 p = true) ->
  forall n3s skip, exists skip', ap_skip n2 n3s new skip = Ok skip'.
Proof. intros Hne Hnew. unfold ap_skip.
  assert (forall n3 l skip, incl l new -> exists skip', foldM (fun skip path => b <- pair_in n2 n3 path ;; Ok (if b then sadd n3 skip else skip)) l skip = Ok skip') as H1.
  { intros n3. induction l as [|p l IH]; intros skip Hl; cbn [foldM]; [eauto|].
    destruct (pair_in_ok n2 n3 p n1 Hne) as (b & ->); [apply Hnew, Hl; cbn; auto|]. cbn [bind]. apply IH. intros z Hz. apply Hl. cbn; auto. }
  induction n3s as [|n3 n3s IH]; intros skip; cbn [foldM]; [eauto|]. destruct (H1 n3 new skip) as (s' & ->); [intros z Hz; exact Hz|]. cbn [bind]. apply IH. Qed.
Lemma is_connected_no_err fuel g s e : reachable g -> is_connected fuel g s e = OutOfFuel \/ exists c, is_connected fuel g s e = Ok c.
Proof. intros H. destruct (is_connected_spec g s e (reachable_wf _ H)) as (c & (_ & _ & Hc) & _). destruct (Hc fuel) as [-> | ->]; eauto. Qed.
Theorem C41_no_exception_partial g s e : reachable g -> (forall x, ~ has_edge g x x) -> contains g s = true -> contains g e = true -> s <> e ->
  forall n x, all_paths n g s e <> Err x.
Proof. intros H Hself Hs He Hne n x. unfold all_paths. rewrite Hs, He. cbn [negb]. destruct (eqb s e) eqn:E; [apply eqb_eq in E; congruence|].
  destruct (is_connected_no_err n g s e H) as [-> |(c & ->)]; cbn [bind]; [discriminate|]. destruct c; cbn [negb]; [|discriminate]. intros EL.
  destruct (loop_partial (ap_step n g e) (fun _ => True) (fun r => forall x, r <> Err x)) with (n := n) (s := ([[s]], [s], @nil A)) (r := @Err (list (list A)) x) as [C|C]; auto; [|discriminate|apply (C x eq_refl)].
  intros [[paths q] skip] _. unfold ap_step. destruct q as [|n1 q]; [discriminate|]. destruct (eqb n1 e); [exact Logic.I|].
  set (new := filter (ends_with n1) paths).
  assert (forall l st, incl l (nodes_from g n1) -> forall x, foldM (ap_next n g n1 new) l st <> Err x) as HF.
  { induction l as [|n2 l IH]; intros st Hl x0; cbn [foldM]; [discriminate|].
    assert (forall x, ap_next n g n1 new st n2 <> Err x) as HN.
    { intros x1. destruct st as [[ps q'] sk]. unfold ap_next. destruct (mem n2 sk); [discriminate|].
      destruct (is_connected_no_err n g n2 n1 H) as [-> |(c & ->)]; cbn [bind]; [discriminate|].
      assert (n1 <> n2) as Hn12 by (intros ->; apply (Hself n2); apply (In_from g n2 n2 (reachable_wf _ H)), Hl; cbn; auto).
      destruct (ap_skip_ok n2 n1 new Hn12 ltac:(intros p Hp; apply filter_In in Hp; apply Hp) (nodes_from g n2) sk) as (sk' & Esk).
      rewrite Esk. destruct ((1 <? length (nodes_from g n2)) && c); discriminate. }
    destruct (ap_next n g n1 new st n2) as [st'|x1|]; cbn [bind]; [|destruct (HN x1 eq_refl)|discriminate]. apply IH. intros z Hz. apply Hl. cbn; auto. }
  specialize (HF (nodes_from g n1) (paths, q, skip) ltac:(intros z Hz; exact Hz)).
  destruct (foldM (ap_next n g n1 new) (nodes_from g n1) (paths, q, skip)) as [st|x0|]; [exact Logic.I|destruct (HF x0 eq_refl)|discriminate]. Qed.
End P.

(** C41 fails: IndexError when the start is a fork with an edge to itself *)
Definition ap_self : graph nat unit Z := ok_or empty_graph (run [OpAddEdge 0 0 1%Z false; OpAddEdge 0 1 1%Z false]).
Theorem C41_raises_refuted : reachable ap_self /\ contains ap_self 0 = true /\ contains ap_self 1 = true /\
  forall n, all_paths (10 + n) ap_self 0 1 = Err IndexError.
Proof. splits; [apply reachable_run|reflexivity|reflexivity|intros n; vm_compute; reflexivity]. Qed.

(** C41 fails: it never returns on 0 -> 9, 0 -> 1, 1 <-> 2 although 0 -> 9 is the only path to 9 *)
Definition ap_div : graph nat unit Z := ok_or empty_graph (run [OpAddEdge 0 9 1%Z false; OpAddEdge 0 1 1%Z false; OpAddEdge 1 2 1%Z true]).
Lemma ap_div_ext (x y : nat) t : ap_extend y [[0; 9]; 0 :: 1 :: t] (0 :: 1 :: t) = [[0; 9]; 0 :: 1 :: t ++ [y]].
Proof. unfold ap_extend.
  assert (mem (0 :: 1 :: t) [[0; 9]; 0 :: 1 :: t] = true) as -> by (apply mem_In; cbn; auto).
  assert (lremove (0 :: 1 :: t) [[0; 9]; 0 :: 1 :: t] = [[0; 9]]) as ->.
  { cbn [lremove]. destruct (eq_dec (0 :: 1 :: t) [0; 9]) as [C|_]; [discriminate|]. destruct (eq_dec (0 :: 1 :: t) (0 :: 1 :: t)); [reflexivity|congruence]. }
  assert (mem ((0 :: 1 :: t) ++ [y]) [[0; 9]] = false) as -> by (apply mem_notIn; intros [C|[]]; discriminate). reflexivity. Qed.
Lemma ap_div_step n (x y : nat) t : (x = 1 /\ y = 2) \/ (x = 2 /\ y = 1) -> ends_with x (0 :: 1 :: t) = true ->
  ap_step (10 + n) ap_div 9 ([[0; 9]; 0 :: 1 :: t], [x], []) = inl ([[0; 9]; 0 :: 1 :: t ++ [y]], [y], []).
Proof. intros H Hx. unfold ap_step. assert (eqb x 9 = false) as -> by (apply eqb_false; lia).
  assert (ends_with x [0; 9] = false) as E9 by (unfold ends_with; cbn [rev app]; apply eqb_false; lia).
  cbn [filter]. rewrite E9, Hx.
  assert (nodes_from ap_div x = [y]) as -> by (destruct H as [[-> ->]|[-> ->]]; reflexivity).
  cbn [foldM]. unfold ap_next. cbn [mem].
  assert (is_connected (10 + n) ap_div y x = Ok true) as -> by (destruct H as [[-> ->]|[-> ->]]; vm_compute; reflexivity).
  assert (length (nodes_from ap_div y) = 1) as -> by (destruct H as [[-> ->]|[-> ->]]; reflexivity).
  cbn [bind Nat.ltb Nat.leb andb fold_left]. rewrite ap_div_ext by exact 0. reflexivity. Qed.
Theorem C41_diverges_refuted : reachable ap_div /\ contains ap_div 0 = true /\ contains ap_div 9 = true /\
  (forall P, path (has_edge ap_div) 0 P 9 -> P = [0; 9]) /\ diverges (fun n => all_paths n ap_div 0 9).
Proof. assert (reachable ap_div) as H by apply reachable_run. splits; [exact H|reflexivity|reflexivity| |].
  - assert (forall a b, has_edge ap_div a b -> (a, b) = (0, 9) \/ (a, b) = (0, 1) \/ (a, b) = (1, 2) \/ (a, b) = (2, 1)) as HE.
    { intros a b (v & Hv). apply (In_edges ap_div a b v) in Hv; [|apply reachable_wf, H]. vm_compute in Hv. intuition congruence. }
    assert (forall a P b, path (has_edge ap_div) a P b -> b = 9 -> a = 0 /\ P = [0; 9] \/ a = 9 /\ P = [9]) as G.
    { intros a P b HP. induction HP as [|a b p c Hab Hp IH]; intros E; [subst; auto|].
      specialize (IH E). apply HE in Hab. destruct IH as [[-> ->]|[-> ->]]; [intuition congruence|]. left. split; [intuition congruence|]. assert (a = 0) as -> by intuition congruence. reflexivity. }
    intros P HP. destruct (G 0 P 9 HP eq_refl) as [[_ E]|[E _]]; [exact E|discriminate].
  - intros n. do 10 (destruct n as [|n]; [vm_compute; reflexivity|]).
    change (S (S (S (S (S (S (S (S (S (S n)))))))))) with (10 + n).
    unfold all_paths. assert (is_connected (10 + n) ap_div 0 9 = Ok true) as -> by (vm_compute; reflexivity).
    change (contains ap_div 0) with true. change (contains ap_div 9) with true. change (eqb 0 9) with false. cbn [negb bind].
    assert (diverges (fun m => loop m (ap_step (10 + n) ap_div 9) ([[0; 9]; [0; 1]], [1], []))) as HD.
    { apply (loop_diverges _ (fun st => exists x y t, st = ([[0; 9]; 0 :: 1 :: t], [x], @nil nat) /\ ((x = 1 /\ y = 2) \/ (x = 2 /\ y = 1)) /\ ends_with x (0 :: 1 :: t) = true)).
      - intros st (x & y & t & -> & Hxy & He). eexists. split; [apply (ap_div_step n x y t Hxy He)|].
        exists y, x, (t ++ [y]). splits; [reflexivity|tauto|]. apply ends_with_spec. exists (0 :: 1 :: t). reflexivity.
      - exists 1, 2, []. splits; auto. }
    specialize (HD (8 + n)). cbn beta in HD.
    change (loop (10 + n) (ap_step (10 + n) ap_div 9) ([[0]], [0], [])) with
      (match ap_step (10 + n) ap_div 9 ([[0]], [0], []) with inl s' => match ap_step (10 + n) ap_div 9 s' with inl s'' => loop (8 + n) (ap_step (10 + n) ap_div 9) s'' | inr r => r end | inr r => r end).
    assert (ap_step (10 + n) ap_div 9 ([[0]], [0], []) = inl ([[0; 9]; [0; 1]], [9; 1], [])) as -> by (vm_compute; reflexivity).
    assert (ap_step (10 + n) ap_div 9 ([[0; 9]; [0; 1]], [9; 1], []) = inl ([[0; 9]; [0; 1]], [1], [])) as -> by (vm_compute; reflexivity).
    exact HD. Qed.

(** Hypotheses are satisfiable *)
Definition ap_dag : graph nat unit Z := ok_or empty_graph (run
  [OpAddEdge 0 1 1%Z false; OpAddEdge 0 2 1%Z false; OpAddEdge 1 3 1%Z false; OpAddEdge 2 3 1%Z false; OpAddEdge 1 2 1%Z false; OpAddEdge 3 4 1%Z false]).
Example ex_ap_dag : reachable ap_dag /\ acyclic (has_edge ap_dag) /\ contains ap_dag 0 = true /\ contains ap_dag 4 = true /\
  all_paths 50 ap_dag 0 4 = Ok [[0; 1; 3; 4]; [0; 2; 3; 4]; [0; 1; 2; 3; 4]] /\
  all_simple_paths 50 ap_dag 0 4 = Ok [[0; 1; 3; 4]; [0; 2; 3; 4]; [0; 1; 2; 3; 4]].
Proof. splits; try (vm_compute; reflexivity); [apply reachable_run|].
  apply (rank_acyclic_g _ (fun x => x)); [apply reachable_wf, reachable_run|vm_compute; reflexivity]. Qed.
