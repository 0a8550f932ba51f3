(** C90: the tours of tsp_greedy and tsp_2023 are locally optimal. *)
From Verif Require Import Prelude PreludeFacts Base BaseFacts BaseFacts2 BaseFacts3 Spec Loop Perms Sp Tsp TspSpec TspFacts TspGreedy TspOpt TspLocal PropsTsp.
Open Scope Z_scope.
Section Props.
Context {A O : Type} {EA : EqDec A}.
Notation graph := (graph A O Z).
Implicit Types (g : graph).
Lemma two_opt_spec g t : wf g -> complete g -> (2 <= length (nodes g))%nat -> hamiltonian g t -> two_opt g t -> no_shorter_reversal g t (clen (dmax g) t).
Proof. intros W HC Hn Ht H P X Q d' Et Hd. assert (hamiltonian g (P ++ rev X ++ Q)) as Hr by (unfold hamiltonian in *; rewrite <- Ht, Et; apply Permutation_app_head, Permutation_app_tail; symmetry; apply Permutation_rev).
  rewrite (tour_total g _ W HC Hn Hr) in Hd. injection Hd as <-. apply H, Et. Qed.
Lemma exchange_spec g t : wf g -> complete g -> (2 <= length (nodes g))%nat -> hamiltonian g t -> exchange_opt g t -> no_shorter_exchange g t (clen (dmax g) t).
Proof. intros W HC Hn Ht H P X Y Q d' Et H1 H2 Hd. assert (hamiltonian g (P ++ Y ++ X ++ Q)) as Hr by (unfold hamiltonian in *; rewrite <- Ht, Et; apply Permutation_app_head; rewrite !app_assoc; apply Permutation_app_tail, Permutation_app_comm).
  rewrite (tour_total g _ W HC Hn Hr) in Hd. injection Hd as <-. apply (H P X Y Q Et); assumption. Qed.
(** on a complete graph with the same edge values in both directions no reversal of a part shortens the tour of tsp_greedy *)
Theorem C90_greedy srt g : reorders srt -> reachable g -> complete g -> symmetric g -> (2 <= length (nodes g))%nat ->
  exists d t, returns (fun n => tsp_greedy srt n g) (Ok (d, t)) /\ hamiltonian g t /\ tour_length g t = Some d /\ no_shorter_reversal g t d.
Proof. intros Hs R HC Hsym Hn. pose proof (reachable_wf _ R) as W. destruct (greedy_ok srt Hs g W HC Hn) as (t0 & E0 & H0). destruct (opt2_ok g W HC Hn t0 H0) as (t1 & R1 & H1 & L1).
  exists (clen (dmax g) t1), t1. splits; [|exact H1|apply tour_total; assumption|].
  - unfold tsp_greedy. rewrite E0. cbn [bind]. rewrite (dist_total g W HC Hn t0 H0). cbn [bind]. refine (returns_bind _ (fun n r => _) t1 _ R1 _). rewrite (dist_total g W HC Hn t1 H1). cbn [bind]. apply Z.leb_le in L1. rewrite L1. apply returns_const. discriminate.
  - apply two_opt_spec; auto. destruct R1 as (_ & [n R1] & _). apply (opt2_local g W HC Hn Hsym t0 t1 n H0 (R1 n (le_n n))). Qed.
(** tsp_2023 on at least 7 nodes.  Partial: it may also return the tour it started from *)
Theorem C90_2023_partial srt first g : reorders srt -> picks_least first -> reachable g -> complete g -> symmetric g -> (7 <= length (nodes g))%nat ->
  exists d t, returns (fun n => tsp_2023 srt first n g) (Ok (d, t)) /\ hamiltonian g t /\ tour_length g t = Some d /\
    (greedy srt g = Ok t \/ no_shorter_reversal g t d /\ no_shorter_exchange g t d).
Proof. intros Hs Hf R HC Hsym Hn. assert (2 <= length (nodes g))%nat as Hn2 by lia. pose proof (reachable_wf _ R) as W. destruct (greedy_ok srt Hs g W HC Hn2) as (t0 & E0 & H0).
  destruct (opt1_ok g W HC Hn2 t0 H0) as (t1 & E1 & H1). destruct (opt2_ok g W HC Hn2 t1 H1) as (t2 & R2 & H2 & L2). destruct (opt3_ok g W HC Hn2 Hsym t2 H2) as (t3 & R3 & H3 & L3).
  set (w := dmax g) in *. set (l := [(clen w t0, t0); (clen w t1, t1); (clen w t2, t2); (clen w t3, t3)]). destruct (Hf l) as [F1 F2]; [discriminate|].
  assert (t2 = t1 \/ clen w t2 < clen w t1) as D2. { pose proof R2 as (_ & [n R2'] & _). apply (opt2_same g W HC Hn2 t1 t2 n H1 (R2' n (le_n n))). }
  destruct R3 as (R3a & [n3 R3b] & R3c). destruct (opt3_local g W HC Hn2 Hsym t2 t3 n3 H2 (R3b n3 (le_n n3))) as (D3 & _ & S3). assert (returns (fun n => opt3 n g t2) (Ok t3)) as R3 by (split; [exact R3a|split; [exists n3; exact R3b|exact R3c]]). clear R3a R3b R3c. fold w in D3.
  assert (hamiltonian g (snd (first l)) /\ fst (first l) = clen w (snd (first l))) as [F3 F4]. { destruct F1 as [<-|[<-|[<-|[<-|[]]]]]; auto. }
  exists (fst (first l)), (snd (first l)). splits; auto.
  - unfold tsp_2023. replace (length (nodes g) <? 7)%nat with false by (symmetry; apply Nat.ltb_ge; exact Hn). rewrite E0. cbn [bind]. rewrite (dist_total g W HC Hn2 t0 H0). cbn [bind]. rewrite E1. cbn [bind]. rewrite (dist_total g W HC Hn2 t1 H1). cbn [bind].
    refine (returns_bind _ (fun n r => _) t2 _ R2 _). rewrite (dist_total g W HC Hn2 t2 H2). cbn [bind]. refine (returns_bind _ (fun n r => _) t3 _ R3 _). rewrite (dist_total g W HC Hn2 t3 H3). cbn [bind]. fold w l. rewrite <- surjective_pairing. apply returns_const. discriminate.
  - rewrite F4. apply tour_total; auto.
  - assert (snd (first l) = t0 \/ snd (first l) = t3) as [Es|Es].
    { assert (fst (first l) <= clen w t3) as K by (apply (F2 (clen w t3, t3)); cbn; auto). destruct F1 as [E|[E|[E|[E|[]]]]]; rewrite <- E in *; cbn [fst snd] in *; auto; right.
      - destruct D2 as [D2|D2]; [|lia]. destruct D3 as [D3|D3]; [|lia]. congruence.
      - destruct D3 as [D3|D3]; [|lia]. congruence. }
    + left. rewrite Es. exact E0.
    + right. rewrite F4, Es. assert (7 <= length t3)%nat as Hl by (rewrite (Permutation_length H3); exact Hn). split; [apply two_opt_spec|apply exchange_spec]; auto; [apply stable3_two_opt|apply stable3_exchange]; auto. Qed.
End Props.

(** ** tsp_2023 can return a tour that a reversal shortens, longer than that of tsp_greedy, whichever least tour it picks *)
Definition m_loc : list (list Z) :=
 [[0;4;8;15;11;13;9]; [4;0;1;2;8;1;3]; [8;1;0;19;20;17;17]; [15;2;19;0;12;20;19]; [11;8;20;12;0;16;10]; [13;1;17;20;16;0;8]; [9;3;17;19;10;8;0]].
Definition g_loc := matrix_graph m_loc.
Lemma g_loc_ok : reachable g_loc /\ complete g_loc /\ symmetric g_loc /\ length (nodes g_loc) = 7%nat.
Proof. assert (reachable g_loc) as R by (exists (matrix_ops m_loc); vm_compute; reflexivity). splits; [exact R|apply complete_check; vm_compute; reflexivity|apply (symmetric_check _ R); vm_compute; reflexivity|vm_compute; reflexivity]. Qed.
Definition t_loc : list nat := ok_or [] (greedy sort3 g_loc).
Theorem C90_2023_refuted : reachable g_loc /\ complete g_loc /\ symmetric g_loc /\ reorders sort3 /\
  (forall first, picks_least first -> returns (fun n => tsp_2023 sort3 first n g_loc) (Ok (55, [3; 4; 6; 5; 1; 2; 0]%nat))) /\
  ~ no_shorter_reversal g_loc [3; 4; 6; 5; 1; 2; 0]%nat 55 /\
  exists d t, returns (fun n => tsp_greedy sort3 n g_loc) (Ok (d, t)) /\ d < 55.
Proof. destruct g_loc_ok as (R & HC & Hsym & Hn). splits; auto; [apply sort3_reorders| | |].
  - intros first Hf. destruct (C90_2023_partial sort3 first g_loc sort3_reorders Hf R HC Hsym) as (d & t & Hr & _ & Hd & _); [rewrite Hn; lia|].
    assert (greedy sort3 g_loc = Ok [3; 4; 6; 5; 1; 2; 0]%nat) as E0 by (vm_compute; reflexivity).
    assert (opt1 g_loc [3; 4; 6; 5; 1; 2; 0]%nat = Ok [3; 4; 6; 5; 2; 0; 1]%nat) as E1 by (vm_compute; reflexivity).
    assert (opt2 100 g_loc [3; 4; 6; 5; 2; 0; 1]%nat = Ok [3; 4; 6; 0; 2; 5; 1]%nat) as E2 by (vm_compute; reflexivity).
    assert (opt3 100 g_loc [3; 4; 6; 0; 2; 5; 1]%nat = Ok [3; 4; 6; 0; 2; 5; 1]%nat) as E3 by (vm_compute; reflexivity).
    assert (distance g_loc [3; 4; 6; 5; 1; 2; 0]%nat = Ok 55) as D0 by (vm_compute; reflexivity).
    assert (exists z, distance g_loc [3; 4; 6; 5; 2; 0; 1]%nat = Ok z /\ 55 < z) as (z1 & D1 & L1) by (eexists; split; [vm_compute; reflexivity|lia]).
    assert (exists z, distance g_loc [3; 4; 6; 0; 2; 5; 1]%nat = Ok z /\ 55 < z) as (z2 & D2 & L2) by (eexists; split; [vm_compute; reflexivity|lia]).
    assert (tsp_2023 sort3 first 100 g_loc = Ok (first [(55, [3; 4; 6; 5; 1; 2; 0]%nat); (z1, [3; 4; 6; 5; 2; 0; 1]%nat); (z2, [3; 4; 6; 0; 2; 5; 1]%nat); (z2, [3; 4; 6; 0; 2; 5; 1]%nat)])) as ET.
    { unfold tsp_2023. rewrite Hn. change (7 <? 7)%nat with false. cbv iota. rewrite E0. cbn [bind]. rewrite D0. cbn [bind]. rewrite E1. cbn [bind]. rewrite D1. cbn [bind]. rewrite E2. cbn [bind]. rewrite D2. cbn [bind]. rewrite E3. cbn [bind]. rewrite D2. reflexivity. }
    match type of ET with _ = Ok (first ?l) => destruct (Hf l) as [F1 F2]; [discriminate|] end.
    specialize (F2 _ (or_introl eq_refl)). cbn [fst] in F2.
    assert (tsp_2023 sort3 first 100 g_loc = Ok (55, [3; 4; 6; 5; 1; 2; 0]%nat)) as EF. { rewrite ET. f_equal. destruct F1 as [E|[E|[E|[E|[]]]]]; rewrite <- E in *; cbn [fst] in F2; [reflexivity|lia|lia|lia]. }
    assert (Ok (d, t) = Ok (55, [3; 4; 6; 5; 1; 2; 0]%nat)) as <-; [|exact Hr]. rewrite <- EF. symmetry. apply (returns_of _ _ 100%nat Hr). rewrite EF. discriminate.
  - intros H. specialize (H [3; 4; 6; 5]%nat [1; 2; 0]%nat [] 54 eq_refl). assert (55 <= 54) as C by (apply H; vm_compute; reflexivity). lia.
  - destruct (C90_greedy sort3 g_loc sort3_reorders R HC Hsym) as (d & t & Hr & _); [rewrite Hn; lia|]. exists d, t. split; [exact Hr|].
    assert (Ok (d, t) = tsp_greedy sort3 100 g_loc) as E by (symmetry; apply (returns_of _ _ 100%nat Hr); vm_compute; discriminate).
    assert (d = fst (ok_or (0, []) (tsp_greedy sort3 100 g_loc))) as -> by (rewrite <- E; reflexivity). vm_compute. reflexivity. Qed.
(** a graph on which all three improvements find a shorter tour *)
Definition m_all : list (list Z) :=
 [[0;5;12;4;2;13;20]; [5;0;20;8;6;18;19]; [12;20;0;16;6;12;20]; [4;8;16;0;13;17;19]; [2;6;6;13;0;6;11]; [13;18;12;17;6;0;17]; [20;19;20;19;11;17;0]].
Definition g_all := matrix_graph m_all.
Lemma g_all_ok : reachable g_all /\ complete g_all /\ symmetric g_all /\ length (nodes g_all) = 7%nat.
Proof. assert (reachable g_all) as R by (exists (matrix_ops m_all); vm_compute; reflexivity). splits; [exact R|apply complete_check; vm_compute; reflexivity|apply (symmetric_check _ R); vm_compute; reflexivity|vm_compute; reflexivity]. Qed.
Example ex_local : exists t0, returns (fun n => tsp_2023 sort3 least n g_all) (Ok (68, [1; 6; 5; 2; 4; 0; 3]%nat)) /\ greedy sort3 g_all = Ok t0 /\ t0 <> [1; 6; 5; 2; 4; 0; 3]%nat /\
  no_shorter_reversal g_all [1; 6; 5; 2; 4; 0; 3]%nat 68 /\ no_shorter_exchange g_all [1; 6; 5; 2; 4; 0; 3]%nat 68.
Proof. destruct g_all_ok as (R & HC & HS & Hn).
  destruct (C90_2023_partial sort3 least g_all sort3_reorders least_picks R HC HS) as (d & t & H1 & H2 & H3 & H4); [rewrite Hn; lia|].
  assert (tsp_2023 sort3 least 500 g_all = Ok (68, [1; 6; 5; 2; 4; 0; 3]%nat)) as EV by (vm_compute; reflexivity).
  assert (Ok (d, t) = Ok (68, [1; 6; 5; 2; 4; 0; 3]%nat)) as E by (rewrite <- EV; symmetry; apply (returns_of _ _ 500%nat H1); rewrite EV; clear; discriminate). injection E as -> ->.
  assert (greedy sort3 g_all = Ok [1; 4; 0; 3; 2; 5; 6]%nat) as EG by (vm_compute; reflexivity).
  assert ([1; 4; 0; 3; 2; 5; 6]%nat <> [1; 6; 5; 2; 4; 0; 3]%nat) as Hne by (clear; discriminate).
  exists [1; 4; 0; 3; 2; 5; 6]%nat. rewrite EG in H4. destruct H4 as [C|[H4 H5]]; [injection C as C; congruence|]. split; [exact H1|]. split; [exact EG|]. split; [exact Hne|]. split; assumption. Qed.
