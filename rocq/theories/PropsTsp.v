(** C49, C50: brute-force, greedy and 2023 travelling salesman *)
From Verif Require Import Prelude PreludeFacts Base BaseFacts BaseFacts2 BaseFacts3 Spec SpecFacts Loop BaseAlgFacts MaxFlowFacts Sp SpFacts Perms TspSpec Tsp TspFacts TspGreedy TspOpt.
Local Open Scope Z_scope.

Section Props.
Context {A O : Type} {EA : EqDec A}.
Notation graph := (graph A O Z).
Implicit Types (g : graph) (t : list A).
(** list.sort() only reorders *)
Definition reorders (srt : list (Z * (A * A)) -> list (Z * (A * A))) : Prop := forall l, Permutation (srt l) l.
(** the first element of a sorted list of (length, tour) is one of those of least length *)
Definition picks_least (first : list (Z * list A) -> Z * list A) : Prop := forall l, l <> [] -> In (first l) l /\ forall x, In x l -> fst (first l) <= fst x.

(** ** C49: with fewer than 7 nodes the tour is a permutation of the nodes of least length *)
Theorem C49_small_optimal srt first g : reachable g -> nonneg g -> nodes g <> [] -> (length (nodes g) < 7)%nat ->
  (exists t z, hamiltonian g t /\ travel_length g t (Fin z) /\ z < maxsize) ->
  exists d t, returns (fun n => tsp_2023 srt first n g) (Ok (d, t)) /\ hamiltonian g t /\ travel_length g t (Fin d) /\
    forall t' e, hamiltonian g t' -> travel_length g t' e -> ext_le (Fin d) e.
Proof. intros R N Hne Hl (t0 & z & H1 & H2 & H3). pose proof (reachable_wf _ R) as W. destruct (brute_force_spec g W N Hne) as (r & Hr & [(d & t & -> & K1 & K2 & _ & K4)|(-> & K)]).
  - exists d, t. splits; auto. refine (returns_ext _ _ _ _ Hr). intros n. unfold tsp_2023. apply Nat.ltb_lt in Hl. rewrite Hl. reflexivity.
  - specialize (K t0 z H1 H2). lia. Qed.
(** brute_force does so for every number of nodes *)
Theorem C49_brute_force g : reachable g -> nonneg g -> nodes g <> [] -> (exists t z, hamiltonian g t /\ travel_length g t (Fin z) /\ z < maxsize) ->
  exists d t, returns (fun n => brute_force n g) (Ok (d, t)) /\ hamiltonian g t /\ travel_length g t (Fin d) /\
    forall t' e, hamiltonian g t' -> travel_length g t' e -> ext_le (Fin d) e.
Proof. intros R N Hne (t0 & z & H1 & H2 & H3). pose proof (reachable_wf _ R) as W. destruct (brute_force_spec g W N Hne) as (r & Hr & [(d & t & -> & K1 & K2 & _ & K4)|(-> & K)]).
  - exists d, t. splits; auto.
  - specialize (K t0 z H1 H2). lia. Qed.
(** otherwise it raises: UnboundLocalError when no tour is shorter than sys.maxsize, IndexError without nodes *)
Theorem C49_no_tour g : reachable g -> nonneg g -> nodes g <> [] -> (forall t z, hamiltonian g t -> travel_length g t (Fin z) -> maxsize <= z) ->
  returns (fun n => brute_force n g) (Err UnboundLocalError).
Proof. intros R N Hne H. pose proof (reachable_wf _ R) as W. destruct (brute_force_spec g W N Hne) as (r & Hr & [(d & t & -> & K1 & K2 & K3 & _)|(-> & _)]); [|exact Hr]. specialize (H t d K1 K2). lia. Qed.
Theorem C49_no_nodes srt first g n : nodes g = [] -> tsp_2023 srt first n g = Err IndexError.
Proof. intros H. unfold tsp_2023, brute_force. rewrite H. reflexivity. Qed.

(** ** C50: a Hamiltonian tour, its exact length, never longer than the greedy tour *)
Theorem C50_greedy srt g : reorders srt -> reachable g -> complete g -> (2 <= length (nodes g))%nat ->
  exists d t t0 d0, returns (fun n => tsp_greedy srt n g) (Ok (d, t)) /\ hamiltonian g t /\ tour_length g t = Some d /\
    greedy srt g = Ok t0 /\ hamiltonian g t0 /\ tour_length g t0 = Some d0 /\ d <= d0.
Proof. intros Hs R HC Hn. pose proof (reachable_wf _ R) as W. destruct (greedy_ok srt Hs g W HC Hn) as (t0 & E0 & H0). destruct (opt2_ok g W HC Hn t0 H0) as (t1 & R1 & H1 & L1).
  exists (clen (dmax g) t1), t1, t0, (clen (dmax g) t0). splits; auto; try (apply tour_total; assumption).
  unfold tsp_greedy. rewrite E0. cbn [bind]. rewrite (dist_total g W HC Hn t0 H0). cbn [bind]. refine (returns_bind _ (fun n r => _) t1 _ R1 _). rewrite (dist_total g W HC Hn t1 H1). cbn [bind]. apply Z.leb_le in L1. rewrite L1. apply returns_const. discriminate. Qed.
(** whenever the greedy start of tsp_greedy and tsp_2023 ends, every node is visited once; it ends in ValueError otherwise *)
Theorem C50_greedy_start srt g : reorders srt -> reachable g -> (exists t, greedy srt g = Ok t /\ hamiltonian g t) \/ greedy srt g = Err ValueError.
Proof. intros Hs R. destruct (greedy srt g) as [t|e|] eqn:E.
  - left. exists t. split; [reflexivity|]. apply (greedy_tour srt g t (reachable_wf _ R) E).
  - right. unfold greedy in E. destruct (_ =? _)%nat; congruence.
  - exfalso. unfold greedy in E. destruct (_ =? _)%nat; discriminate. Qed.
(** tsp_2023 on complete graphs of at least 7 nodes.  Partial: edge values must be the same in both directions *)
Theorem C50_2023_partial srt first g : reorders srt -> picks_least first -> reachable g -> complete g -> symmetric g -> (7 <= length (nodes g))%nat ->
  exists d t t0 d0, returns (fun n => tsp_2023 srt first n g) (Ok (d, t)) /\ hamiltonian g t /\ tour_length g t = Some d /\
    greedy srt g = Ok t0 /\ tour_length g t0 = Some d0 /\ d <= d0.
Proof. intros Hs Hf R HC Hsym Hn. assert (2 <= length (nodes g))%nat as Hn2 by lia. pose proof (reachable_wf _ R) as W. destruct (greedy_ok srt Hs g W HC Hn2) as (t0 & E0 & H0).
  destruct (opt1_ok g W HC Hn2 t0 H0) as (t1 & E1 & H1). destruct (opt2_ok g W HC Hn2 t1 H1) as (t2 & R2 & H2 & L2). destruct (opt3_ok g W HC Hn2 Hsym t2 H2) as (t3 & R3 & H3 & L3).
  set (w := dmax g) in *. set (l := [(clen w t0, t0); (clen w t1, t1); (clen w t2, t2); (clen w t3, t3)]). destruct (Hf l) as [F1 F2]; [discriminate|].
  assert (hamiltonian g (snd (first l)) /\ fst (first l) = clen w (snd (first l))) as [F3 F4]. { destruct F1 as [<-|[<-|[<-|[<-|[]]]]]; auto. }
  exists (fst (first l)), (snd (first l)), t0, (clen w t0). splits; auto.
  - unfold tsp_2023. replace (length (nodes g) <? 7)%nat with false by (symmetry; apply Nat.ltb_ge; exact Hn). rewrite E0. cbn [bind]. rewrite (dist_total g W HC Hn2 t0 H0). cbn [bind]. rewrite E1. cbn [bind]. rewrite (dist_total g W HC Hn2 t1 H1). cbn [bind].
    refine (returns_bind _ (fun n r => _) t2 _ R2 _). rewrite (dist_total g W HC Hn2 t2 H2). cbn [bind]. refine (returns_bind _ (fun n r => _) t3 _ R3 _). rewrite (dist_total g W HC Hn2 t3 H3). cbn [bind]. fold w l. rewrite <- surjective_pairing. apply returns_const. discriminate.
  - rewrite (tour_total g _ W HC Hn2 F3). fold w. rewrite F4. reflexivity.
  - apply (tour_total g _ W HC Hn2 H0).
  - apply (F2 (clen w t0, t0)). left. reflexivity. Qed.
(** below 7 nodes tsp_2023 tries all tours: the same holds in graphs of any direction, and no tour is shorter *)
Lemma legs_walk g t : complete g -> forall x y z, (forall u, In u (x :: t) -> In u (nodes g)) -> In y (nodes g) -> NoDup (x :: t) -> last (x :: t) x <> y -> walk_length g x (t ++ [y]) = Some z -> legs g x (t ++ [y]) (Fin z).
Proof. intros HC. induction t as [|u t IH]; intros x y z Hi Hy ND Hl E; cbn [app walk_length] in *.
  - destruct (HC x y) as (v & Ev & Hv); [apply Hi; left; reflexivity|exact Hy|exact Hl|]. rewrite Ev in E. injection E as <-. change (Fin (v + 0)) with (ext_add (Fin v) (Fin 0)). apply legs_cons; [|apply legs_nil]. unfold leg. rewrite Ev. apply Z.eqb_neq in Hv. rewrite Hv. reflexivity.
  - apply NoDup_cons_iff in ND. destruct ND as [Hx ND]. destruct (HC x u) as (v & Ev & Hv); [apply Hi; left; reflexivity|apply Hi; right; left; reflexivity|intros ->; apply Hx; left; reflexivity|]. rewrite Ev in E. destruct (walk_length g u (t ++ [y])) as [z'|] eqn:E2; [|discriminate]. injection E as <-. change (Fin (v + z')) with (ext_add (Fin v) (Fin z')). apply legs_cons.
    + unfold leg. rewrite Ev. apply Z.eqb_neq in Hv. rewrite Hv. reflexivity.
    + apply IH; auto; [intros w Hw; apply Hi; right; exact Hw|]. intros C. apply Hl. rewrite <- C. apply (last_indep t u x u). Qed.
Lemma travel_tour g t z : reachable g -> complete g -> (2 <= length (nodes g))%nat -> hamiltonian g t -> tour_length g t = Some z -> travel_length g t (Fin z).
Proof. intros R HC Hn Ht E. unfold hamiltonian in Ht. pose proof (Permutation_NoDup (Permutation_sym Ht) (wf_nodes _ (reachable_wf _ R))) as ND. pose proof (Permutation_length Ht) as HL. destruct t as [|h r]; [cbn in HL; lia|]. unfold tour_length, travel_length in *. apply legs_walk; auto.
  - intros u Hu. apply (Permutation_in _ Ht), Hu.
  - apply (Permutation_in _ Ht). left. reflexivity.
  - destruct r as [|u r]; [cbn in HL; lia|]. intros C. apply NoDup_cons_iff in ND. destruct ND as [ND _]. apply ND. rewrite <- C. change (last (h :: u :: r) h) with (last (u :: r) h). assert (u :: r <> []) as Hne by discriminate. destruct (exists_last Hne) as (l & y & ->). rewrite last_last. apply in_app_iff. right. left. reflexivity. Qed.
Theorem C50_2023_small srt first g : reachable g -> complete g -> nonneg g -> (2 <= length (nodes g) < 7)%nat -> (exists t z, hamiltonian g t /\ tour_length g t = Some z /\ z < maxsize) ->
  exists d t, returns (fun n => tsp_2023 srt first n g) (Ok (d, t)) /\ hamiltonian g t /\ tour_length g t = Some d /\ forall t' d', hamiltonian g t' -> tour_length g t' = Some d' -> d <= d'.
Proof. intros R HC N [H1 H2] (t0 & z & K1 & K2 & K3). pose proof (reachable_wf _ R) as W. destruct (C49_small_optimal srt first g R N) as (d & t & Hr & L1 & L2 & L3); auto; [intros C; rewrite C in H1; cbn in H1; lia|exists t0, z; splits; auto; apply travel_tour; auto|].
  exists d, t. splits; auto.
  - pose proof (tour_total g t W HC H1 L1) as E. pose proof (travel_tour g t _ R HC H1 L1 E) as L4. destruct t as [|h r]; [apply Permutation_length in L1; cbn in L1; lia|]. unfold travel_length in *. pose proof (legs_fun _ _ _ _ _ L2 L4) as E2. injection E2 as ->. exact E.
  - intros t' d' M1 M2. specialize (L3 t' (Fin d') M1 (travel_tour g t' d' R HC H1 M1 M2)). exact L3. Qed.
(** a graph of one node is refused by tsp_greedy *)
Theorem C50_one_node_refuted srt g x n : nodes g = [x] -> srt [] = [] -> tsp_greedy srt n g = Err ValueError.
Proof. intros H Hs. unfold tsp_greedy, greedy, greedy_pairs. rewrite H. cbn [pairs_of map app flat_map]. rewrite Hs. reflexivity. Qed.
End Props.

(** ** concrete graphs *)
(** Python's order of (distance, a, b) triples, and insertion sort by it *)
Definition le3 (x y : Z * (nat * nat)) : bool :=
  let '(d, (a, b)) := x in let '(e, (p, q)) := y in
  (d <? e) || ((d =? e) && ((a <? p)%nat || ((a =? p)%nat && (b <=? q)%nat))).
Fixpoint ins3 x l := match l with [] => [x] | y :: r => if le3 x y then x :: y :: r else y :: ins3 x r end.
Definition sort3 l := fold_right ins3 [] l.
Lemma sort3_reorders : reorders sort3.
Proof. intros l. induction l as [|x l IH]; [reflexivity|]. cbn [sort3 fold_right]. fold (sort3 l). rewrite <- IH at 2. generalize (sort3 l). clear. intros l. induction l as [|y l IH]; [reflexivity|]. cbn [ins3]. destruct (le3 x y); [reflexivity|]. rewrite IH. apply perm_swap. Qed.
Definition lstep (b x : Z * list nat) : Z * list nat := if fst x <? fst b then x else b.
Definition least (l : list (Z * list nat)) : Z * list nat := fold_left lstep l (hd (0, []) l).
Lemma lfold l : forall b, (fold_left lstep l b = b \/ In (fold_left lstep l b) l) /\ fst (fold_left lstep l b) <= fst b /\ forall y, In y l -> fst (fold_left lstep l b) <= fst y.
Proof. induction l as [|z l IH]; intros b; cbn [fold_left]; [splits; auto; [lia|intros y []]|]. destruct (IH (lstep b z)) as (H1 & H2 & H3). unfold lstep in H1, H2, H3 |- *. fold lstep in *. destruct (fst z <? fst b) eqn:E; [apply Z.ltb_lt in E|apply Z.ltb_ge in E]; splits.
  - destruct H1 as [->|H1]; right; [left; reflexivity|right; exact H1].
  - lia.
  - intros y [<-|Hy]; auto.
  - destruct H1 as [->|H1]; [left; reflexivity|right; right; exact H1].
  - lia.
  - intros y [<-|Hy]; [lia|auto]. Qed.
Lemma least_picks : picks_least least.
Proof. intros l Hl. unfold least. destruct l as [|x l]; [congruence|]. clear Hl. cbn [hd]. destruct (lfold (x :: l) x) as (H1 & H2 & H3). split; [destruct H1 as [->|H1]; [left; reflexivity|exact H1]|exact H3]. Qed.
Definition matrix_ops (m : list (list Z)) : list (op nat unit Z) :=
  flat_map (fun i => flat_map (fun j => if (i =? j)%nat then [] else [OpAddEdge i j (nth j (nth i m []) 0) false]) (seq 0 (length m))) (seq 0 (length m)).
Definition matrix_graph (m : list (list Z)) : graph nat unit Z := ok_or empty_graph (run (matrix_ops m)).
Definition complete_b (g : graph nat unit Z) : bool := forallb (fun x => forallb (fun y => (x =? y)%nat || match edge g x y with Some v => negb (v =? 0) | None => false end) (nodes g)) (nodes g).
Lemma complete_check g : complete_b g = true -> complete g.
Proof. intros H x y Hx Hy Hne. unfold complete_b in H. rewrite forallb_forall in H. specialize (H x Hx). rewrite forallb_forall in H. specialize (H y Hy). apply orb_true_iff in H. destruct H as [H|H]; [apply Nat.eqb_eq in H; contradiction|]. destruct (edge g x y) as [v|]; [|discriminate]. exists v. split; [reflexivity|]. apply negb_true_iff, Z.eqb_neq in H. exact H. Qed.

Definition symmetric_b (g : graph nat unit Z) : bool := forallb (fun e => match edge g (snd (fst e)) (fst (fst e)) with Some v => v =? snd e | None => false end) (edges g).
Lemma symmetric_check g : reachable g -> symmetric_b g = true -> symmetric g.
Proof. intros R H. pose proof (reachable_wf _ R) as W. unfold symmetric_b in H. rewrite forallb_forall in H. assert (forall x y v, edge g x y = Some v -> edge g y x = Some v) as K.
  { intros x y v E. specialize (H (x, y, v) (proj2 (In_edges g x y v W) E)). cbn in H. destruct (edge g y x); [|discriminate]. apply Z.eqb_eq in H. subst. reflexivity. }
  intros x y. destruct (edge g x y) as [v|] eqn:E; [symmetry; apply K, E|]. destruct (edge g y x) as [v|] eqn:E2; [|reflexivity]. apply K in E2. congruence. Qed.
Fixpoint orbit {S R} (step : S -> S + res R) (k : nat) (s : S) : list S := match k with 0%nat => [] | Datatypes.S k => s :: match step s with inl s' => orbit step k s' | inr _ => [] end end.
Lemma cycle_diverges {S R} (step : S -> S + res R) (eqb : S -> S -> bool) (l : list S) : (forall x y, eqb x y = true -> x = y) ->
  forallb (fun s => match step s with inl s' => existsb (eqb s') l | inr _ => false end) l = true -> forall s, In s l -> diverges (fun n => loop n step s).
Proof. intros He H s Hs n. revert s Hs. induction n as [|n IH]; intros s Hs; [reflexivity|]. cbn [loop]. rewrite forallb_forall in H. specialize (H s Hs). destruct (step s) as [s'|r]; [|discriminate]. apply existsb_exists in H. destruct H as (s2 & H1 & H2). apply He in H2. subst. apply IH, H1. Qed.

(** on a complete graph of 7 nodes whose edges differ in the two directions tsp_2023 never ends: _opt3 repeats itself *)
Definition m_asym : list (list Z) :=
 [[0;1;2;2;6;3;5]; [5;0;4;1;3;7;7]; [9;6;0;9;8;9;5]; [1;1;6;0;8;6;7]; [7;9;3;9;0;3;4]; [4;1;3;6;3;0;3]; [9;9;6;9;9;3;0]].
Definition g_asym := matrix_graph m_asym.
Lemma g_asym_reachable : reachable g_asym.
Proof. exists (matrix_ops m_asym). vm_compute. reflexivity. Qed.
Definition st_eqb (x y : list nat * list nat * Z) : bool := if eq_dec (fst (fst x)) (fst (fst y)) then if eq_dec (snd (fst x)) (snd (fst y)) then snd x =? snd y else false else false.
Lemma st_eqb_eq x y : st_eqb x y = true -> x = y.
Proof. unfold st_eqb. destruct x as [[a b] c], y as [[d e] f]. cbn [fst snd]. destruct (eq_dec a d); [|discriminate]. destruct (eq_dec b e); [|discriminate]. intros H. apply Z.eqb_eq in H. subst. reflexivity. Qed.
Definition t_asym : list nat := ok_or [] (t <- greedy sort3 g_asym ;; t1 <- opt1 g_asym t ;; opt2 500 g_asym t1).
Definition d_asym : Z := ok_or 0 (distance g_asym t_asym).
Theorem C50_2023_asymmetric_refuted : reachable g_asym /\ complete g_asym /\ length (nodes g_asym) = 7%nat /\ reorders sort3 /\ forall first, diverges (fun n => tsp_2023 sort3 first n g_asym).
Proof. assert (complete g_asym) as HC by (apply complete_check; vm_compute; reflexivity). pose proof (reachable_wf _ g_asym_reachable) as W. assert (length (nodes g_asym) = 7%nat) as Hn by (vm_compute; reflexivity).
  splits; auto; [apply g_asym_reachable|apply sort3_reorders|]. intros first n. unfold tsp_2023. rewrite Hn. change (7 <? 7)%nat with false. cbv iota.
  destruct (greedy_ok sort3 sort3_reorders g_asym W HC) as (t0 & E0 & H0); [lia|]. destruct (opt1_ok g_asym W HC ltac:(lia) t0 H0) as (t1 & E1 & H1). destruct (opt2_ok g_asym W HC ltac:(lia) t1 H1) as (t2 & R2 & H2 & L2).
  rewrite E0. cbn [bind]. rewrite (dist_total g_asym W HC ltac:(lia) t0 H0). cbn [bind]. rewrite E1. cbn [bind]. rewrite (dist_total g_asym W HC ltac:(lia) t1 H1). cbn [bind].
  assert (t2 = t_asym) as E2. { assert (t_asym = ok_or [] (opt2 500 g_asym t1)) as E by (unfold t_asym; rewrite E0; cbn [bind]; rewrite E1; reflexivity). pose proof (returns_of _ _ 500%nat R2) as E3. cbv beta in E3. rewrite E3 in E; [symmetry; exact E|]. intros C. rewrite C in E. assert (t_asym <> []) as K by (vm_compute; discriminate). exact (K E). }
  subst t2. destruct R2 as (_ & _ & R2). destruct (R2 n) as [-> | ->]; [reflexivity|]. cbn [bind]. rewrite (dist_total g_asym W HC ltac:(lia) t_asym H2). cbn [bind]. assert (opt3 n g_asym t_asym = OutOfFuel) as ->; [|reflexivity].
  assert (distance g_asym t_asym = Ok d_asym) as Ed by (vm_compute; reflexivity). unfold opt3. rewrite Ed. cbn [bind].
  apply (cycle_diverges (opt3_step g_asym) st_eqb (orbit (opt3_step g_asym) 40 (t_asym, t_asym, d_asym)) st_eqb_eq); [vm_compute; reflexivity|left; reflexivity]. Qed.
(** the other hypotheses of C50_greedy and C50_2023_partial are met *)
Example ex_greedy : exists d t, returns (fun n => tsp_greedy sort3 n g_asym) (Ok (d, t)) /\ hamiltonian g_asym t /\ tour_length g_asym t = Some d /\ d = 22.
Proof. destruct C50_2023_asymmetric_refuted as (R & HC & Hn & Hs & _). destruct (C50_greedy sort3 g_asym Hs R HC) as (d & t & t0 & d0 & H1 & H2 & H3 & _); [rewrite Hn; lia|]. exists d, t. splits; auto.
  assert (Ok (d, t) = tsp_greedy sort3 500 g_asym) as E by (symmetry; apply (returns_of _ _ 500%nat H1); vm_compute; discriminate). assert (d = fst (ok_or (0, []) (tsp_greedy sort3 500 g_asym))) as -> by (rewrite <- E; reflexivity). vm_compute. reflexivity. Qed.
Definition m_sym : list (list Z) :=
 [[0;3;9;4;6;2;8]; [3;0;5;7;1;9;4]; [9;5;0;2;8;3;6]; [4;7;2;0;9;5;1]; [6;1;8;9;0;7;3]; [2;9;3;5;7;0;9]; [8;4;6;1;3;9;0]].
Definition g_sym := matrix_graph m_sym.
Lemma g_sym_reachable : reachable g_sym.
Proof. exists (matrix_ops m_sym). vm_compute. reflexivity. Qed.
Example ex_2023 : exists d t, returns (fun n => tsp_2023 sort3 least n g_sym) (Ok (d, t)) /\ hamiltonian g_sym t /\ tour_length g_sym t = Some d /\ d = 15.
Proof. assert (complete g_sym) as HC by (apply complete_check; vm_compute; reflexivity). assert (symmetric g_sym) as HS by (apply (symmetric_check _ g_sym_reachable); vm_compute; reflexivity). assert (length (nodes g_sym) = 7%nat) as Hn by (vm_compute; reflexivity).
  destruct (C50_2023_partial sort3 least g_sym sort3_reorders least_picks g_sym_reachable HC HS) as (d & t & t0 & d0 & H1 & H2 & H3 & _); [rewrite Hn; lia|]. exists d, t. splits; auto.
  assert (Ok (d, t) = tsp_2023 sort3 least 500 g_sym) as E by (symmetry; apply (returns_of _ _ 500%nat H1); vm_compute; discriminate). assert (d = fst (ok_or (0, []) (tsp_2023 sort3 least 500 g_sym))) as -> by (rewrite <- E; reflexivity). vm_compute. reflexivity. Qed.
Definition m_tri : list (list Z) := [[0;10;1]; [10;0;1]; [1;1;0]].
Definition g_tri := matrix_graph m_tri.
Lemma g_tri_reachable : reachable g_tri.
Proof. exists (matrix_ops m_tri). vm_compute. reflexivity. Qed.
Lemma nonneg_edges (g : graph nat unit Z) : reachable g -> forallb (fun e => 0 <=? snd e) (edges g) = true -> nonneg g.
Proof. intros R H x y v E. rewrite forallb_forall in H. specialize (H (x, y, v) (proj2 (In_edges g x y v (reachable_wf _ R)) E)). cbn in H. apply Z.leb_le in H. exact H. Qed.
Lemma g_tri_nonneg : nonneg g_tri.
Proof. apply (nonneg_edges _ g_tri_reachable). vm_compute. reflexivity. Qed.
Lemma g_tri_brute : returns (fun n => brute_force n g_tri) (Ok (12, [0; 1; 2]%nat)).
Proof. destruct (brute_force_spec g_tri (reachable_wf _ g_tri_reachable) g_tri_nonneg) as (r & Hr & _); [vm_compute; discriminate|]. replace (Ok (12, [0; 1; 2]%nat)) with r; [exact Hr|]. transitivity (brute_force 50 g_tri); [symmetry; apply (returns_of _ _ 50%nat Hr); vm_compute; discriminate|vm_compute; reflexivity]. Qed.
Example ex_small : exists d t, returns (fun n => tsp_2023 sort3 least n g_tri) (Ok (d, t)) /\ hamiltonian g_tri t /\ travel_length g_tri t (Fin d).
Proof. assert (exists t z, hamiltonian g_tri t /\ travel_length g_tri t (Fin z) /\ z < maxsize) as H.
  { destruct (brute_force_spec g_tri (reachable_wf _ g_tri_reachable) g_tri_nonneg) as (r & Hr & [(d & t & -> & K1 & K2 & K3 & _)|(-> & _)]); [vm_compute; discriminate|eauto|]. pose proof (returns_fun _ _ _ Hr g_tri_brute). discriminate. }
  destruct (C49_small_optimal sort3 least g_tri g_tri_reachable g_tri_nonneg) as (d & t & H1 & H2 & H3 & _); [vm_compute; discriminate|vm_compute; lia|exact H|]. exists d, t. auto. Qed.
Example ex_small2 : exists d t, returns (fun n => tsp_2023 sort3 least n g_tri) (Ok (d, t)) /\ hamiltonian g_tri t /\ tour_length g_tri t = Some d /\ d = 12.
Proof. destruct (C50_2023_small sort3 least g_tri g_tri_reachable) as (d & t & H1 & H2 & H3 & H4); [apply complete_check; vm_compute; reflexivity|apply g_tri_nonneg|vm_compute; lia| |].
  - exists [0; 1; 2]%nat, 12. splits; [|vm_compute; reflexivity|vm_compute; reflexivity]. unfold hamiltonian. replace (nodes g_tri) with [0; 1; 2]%nat by (vm_compute; reflexivity). reflexivity.
  - exists d, t. splits; auto. assert (returns (fun n => tsp_2023 sort3 least n g_tri) (Ok (12, [0; 1; 2]%nat))) as K by (refine (returns_ext _ _ _ _ g_tri_brute); intros n; unfold tsp_2023; replace (length (nodes g_tri) <? 7)%nat with true by (vm_compute; reflexivity); reflexivity).
    pose proof (returns_fun _ _ _ H1 K) as E. injection E as -> _. reflexivity. Qed.
