(** Property theorems C89 (examples/graphs.py: grid). *)
From Verif Require Import Prelude PreludeFacts Base Loop Spec SpecFacts BaseFacts BaseFacts2 BaseFacts3 MaxFlowFacts Sp PropsSp Grid.

(** ** Specification *)
Definition in_grid (x y : nat) (c : cell) : Prop := fst c < x /\ snd c < y.
(** w is the right or the lower neighbour of u *)
Definition next_to (u w : cell) : Prop := w = (S (fst u), snd u) \/ w = (fst u, S (snd u)).
(** |a - b| *)
Definition gap (a b : nat) : nat := (a - b) + (b - a).

Section Facts.
Context (x y : nat) (bi : bool).
Notation graph := (graph cell unit Z).
Implicit Types (g : graph).
Definition adds (c u w : cell) : Prop := in_grid x y c /\ next_to u w /\ w = c.
Definition grid_inv (pre : list cell) g : Prop := reachable g /\ (forall u w v, edge g u w = Some v -> v = 1%Z) /\
  (forall u w, has_edge g u w <-> exists c, In c pre /\ (adds c u w \/ bi = true /\ adds c w u)) /\
  (forall n, In n (nodes g) <-> exists m, has_edge g n m \/ has_edge g m n).
Lemma add_one g a b : reachable g -> (forall u w v, edge g u w = Some v -> v = 1%Z) -> (forall n, In n (nodes g) <-> exists m, has_edge g n m \/ has_edge g m n) ->
  exists g', add_edge g a b 1%Z bi = Ok g' /\ reachable g' /\ (forall u w v, edge g' u w = Some v -> v = 1%Z) /\
    (forall u w, has_edge g' u w <-> (u = a /\ w = b) \/ (bi = true /\ u = b /\ w = a) \/ has_edge g u w) /\
    (forall n, In n (nodes g') <-> exists m, has_edge g' n m \/ has_edge g' m n).
Proof. intros R H1 HN. destruct (add_edge_effect g a b 1%Z bi R) as (g' & E & K1 & _ & K3 & K4 & K5). exists g'. split; [exact E|].
  assert (reachable g') as R' by exact (reachable_step g (OpAddEdge a b 1%Z bi) _ R E).
  assert (forall u w, edge g' u w = Some 1%Z /\ ((u = a /\ w = b) \/ (bi = true /\ u = b /\ w = a)) \/ (~ ((u = a /\ w = b) \/ (bi = true /\ u = b /\ w = a)) /\ edge g' u w = edge g u w)) as HD.
  { intros u w. destruct (eq_dec (u, w) (a, b)) as [e|n1]; [injection e as -> ->; left; auto|]. destruct bi.
    - destruct (eq_dec (u, w) (b, a)) as [e|n2]; [injection e as -> ->; left; auto|]. right. split; [|apply K5; auto]. intros [[-> ->]|(_ & -> & ->)]; congruence.
    - right. split; [|apply K5; [auto|discriminate]]. intros [[-> ->]|(? & _)]; congruence. }
  assert (forall u w, has_edge g' u w <-> (u = a /\ w = b) \/ (bi = true /\ u = b /\ w = a) \/ has_edge g u w) as HE.
  { intros u w. destruct (HD u w) as [[E1 E2]|[E1 E2]]; unfold has_edge; rewrite E2 || rewrite E1; [|tauto]. split; [tauto|]. intros _. eauto. }
  splits; [exact R'| |exact HE|].
  - intros u w v Hv. destruct (HD u w) as [[E1 _]|[_ E1]]; rewrite E1 in Hv; [congruence|apply (H1 u w v Hv)].
  - intros n. rewrite <- contains_In, K1, contains_In, HN. split.
    + intros [->|[->|(m & Hm)]]; [exists b; left; apply HE; auto|exists a; right; apply HE; auto|exists m; rewrite !HE; tauto].
    + intros (m & Hm). rewrite !HE in Hm. destruct Hm as [[[-> _]|[(_ & -> & _)|H]]|[[_ ->]|[(_ & _ & ->)|H]]]; eauto. Qed.
Lemma grid_cell_inv pre g c : grid_inv pre g -> in_grid x y c -> exists g', grid_cell x y bi g c = Ok g' /\ grid_inv (pre ++ [c]) g'.
Proof. intros (R & V1 & HE & HN) HC. destruct c as [i j]. destruct HC as [Hi Hj]. cbn [fst snd] in Hi, Hj. unfold grid_cell.
  rewrite (Nat.mod_small i x), (Nat.mod_small j y) by lia.
  assert (forall u w, next_to u w /\ w = (i, j) <-> (0 < i /\ u = (i - 1, j) /\ w = (i, j)) \/ (0 < j /\ u = (i, j - 1) /\ w = (i, j))) as HS.
  { intros [a b] w. unfold next_to. cbn [fst snd]. split.
    - intros [[-> | ->] E]; injection E as <- <-; [left|right]; (split; [lia|split; [|reflexivity]]); rewrite Nat.sub_succ, Nat.sub_0_r; reflexivity.
    - intros [(Hp & E & ->)|(Hp & E & ->)]; injection E as -> ->; (split; [|reflexivity]); [left|right]; f_equal; lia. }
  assert (exists g1, (if 0 <? i then add_edge g (i - 1, j) (i, j) 1%Z bi else Ok g) = Ok g1 /\ reachable g1 /\ (forall u w v, edge g1 u w = Some v -> v = 1%Z) /\
    (forall u w, has_edge g1 u w <-> (0 < i /\ u = (i - 1, j) /\ w = (i, j)) \/ (0 < i /\ bi = true /\ u = (i, j) /\ w = (i - 1, j)) \/ has_edge g u w) /\
    (forall n, In n (nodes g1) <-> exists m, has_edge g1 n m \/ has_edge g1 m n)) as (g1 & -> & R1 & V2 & HE1 & HN1).
  { destruct (Nat.ltb_spec 0 i) as [Hp|Hp].
    - destruct (add_one g (i - 1, j) (i, j) R V1 HN) as (g1 & E & K1 & K2 & K3 & K4). exists g1. splits; auto. intros u w. rewrite K3. tauto.
    - exists g. splits; auto. intros u w. split; [tauto|]. intros [[C _]|[[C _]|H]]; [lia|lia|exact H]. }
  cbn [bind].
  assert (exists g2, (if 0 <? j then add_edge g1 (i, j - 1) (i, j) 1%Z bi else Ok g1) = Ok g2 /\ reachable g2 /\ (forall u w v, edge g2 u w = Some v -> v = 1%Z) /\
    (forall u w, has_edge g2 u w <-> (0 < j /\ u = (i, j - 1) /\ w = (i, j)) \/ (0 < j /\ bi = true /\ u = (i, j) /\ w = (i, j - 1)) \/ has_edge g1 u w) /\
    (forall n, In n (nodes g2) <-> exists m, has_edge g2 n m \/ has_edge g2 m n)) as (g2 & -> & R2 & V3 & HE2 & HN2).
  { destruct (Nat.ltb_spec 0 j) as [Hp|Hp].
    - destruct (add_one g1 (i, j - 1) (i, j) R1 V2 HN1) as (g2 & E & K1 & K2 & K3 & K4). exists g2. splits; auto. intros u w. rewrite K3. tauto.
    - exists g1. splits; auto. intros u w. split; [tauto|]. intros [[C _]|[[C _]|H]]; [lia|lia|exact H]. }
  exists g2. split; [reflexivity|]. unfold grid_inv. splits; [exact R2|exact V3| |exact HN2]. intros u w. rewrite HE2, HE1, HE. pose proof (HS u w) as S1. pose proof (HS w u) as S2.
  assert (in_grid x y (i, j)) as HG by (split; cbn; lia). split.
  - intros H. assert ((exists c, In c pre /\ (adds c u w \/ bi = true /\ adds c w u)) \/ (adds (i, j) u w \/ bi = true /\ adds (i, j) w u)) as [(c & Hc & K)|K].
    { unfold adds at 3 4. tauto. }
    + exists c. split; [apply in_app_iff; auto|exact K].
    + exists (i, j). split; [apply in_app_iff; right; left; reflexivity|exact K].
  - intros (c & Hc & K). apply in_app_iff in Hc. destruct Hc as [Hc|[<-|[]]]; [right; right; right; right; eauto|]. unfold adds in K. tauto. Qed.
Lemma grid_built : exists g, grid x y bi = Ok g /\ grid_inv (list_prod (seq 0 x) (seq 0 y)) g.
Proof. unfold grid. apply foldM_inv_prefix.
  - unfold grid_inv. splits; [exists []; reflexivity|intros u w v H; discriminate| |].
    + intros u w. split; [intros [v H]; discriminate|intros (c & [] & _)].
    + intros n. split; [intros []|]. intros (m & [[v H]|[v H]]); discriminate.
  - intros pre [i j] post g E H. apply grid_cell_inv; [exact H|]. assert (In (i, j) (list_prod (seq 0 x) (seq 0 y))) as HI by (rewrite E; apply in_app_iff; right; left; reflexivity).
    apply in_prod_iff in HI. destruct HI as [H1 H2]. apply in_seq in H1, H2. split; cbn; lia. Qed.
End Facts.

(** grid(x, y): an edge of value 1 from every cell to its right and its lower neighbour, with bidirectional also back, and
    nothing else; the nodes are all cells (1 x 1, whose only cell has no neighbour, has no node) *)
Theorem C89_grid_exact x y bi : exists g, grid x y bi = Ok g /\ reachable g /\
  (forall u w, has_edge g u w <-> in_grid x y u /\ in_grid x y w /\ (next_to u w \/ bi = true /\ next_to w u)) /\
  (forall u w v, edge g u w = Some v -> v = 1%Z) /\
  (forall n, In n (nodes g) <-> in_grid x y n /\ 2 <= x * y).
Proof. destruct (grid_built x y bi) as (g & E & R & V1 & HE & HN). exists g.
  assert (forall u w, has_edge g u w <-> in_grid x y u /\ in_grid x y w /\ (next_to u w \/ bi = true /\ next_to w u)) as HE'.
  { intros u w. rewrite HE. assert (forall a b, next_to a b -> in_grid x y b -> in_grid x y a) as HB.
    { intros [a1 a2] b [-> | ->] [H1 H2]; cbn in *; split; cbn; lia. }
    assert (forall c, in_grid x y c -> In c (list_prod (seq 0 x) (seq 0 y))) as HI. { intros [i j] [H1 H2]. cbn in H1, H2. apply in_prod_iff. split; apply in_seq; lia. }
    split.
    - intros (c & _ & [(H1 & H2 & ->)|(Hb & H1 & H2 & ->)]); splits; eauto.
    - intros (Hu & Hw & [H|[Hb H]]); [exists w|exists u]; unfold adds; (split; [apply HI; assumption|]); tauto. }
  splits; auto. intros n. rewrite HN. split.
  - intros (m & H). assert (exists u w, in_grid x y u /\ in_grid x y w /\ next_to u w /\ (n = u \/ n = w)) as (u & w & Hu & Hw & Hn & Hc).
    { rewrite !HE' in H. destruct H as [(H1 & H2 & [H3|[_ H3]])|(H1 & H2 & [H3|[_ H3]])]; [exists n, m|exists m, n|exists m, n|exists n, m]; splits; auto. }
    split; [destruct Hc as [-> | ->]; assumption|]. destruct u as [a b], Hw as [W1 W2]. destruct Hn as [-> | ->]; cbn in W1, W2; nia.
  - intros [[H1 H2] H3]. destruct n as [i j]. cbn in H1, H2.
    assert (exists m, in_grid x y m /\ (next_to (i, j) m \/ next_to m (i, j))) as (m & Hm & Hn).
    { unfold in_grid, next_to. destruct (Nat.eq_dec x 1) as [->|].
      - destruct j as [|j]; [exists (i, 1)|exists (i, j)]; cbn [fst snd]; split; try lia; auto.
      - destruct i as [|i]; [exists (1, j)|exists (i, j)]; cbn [fst snd]; split; try lia; auto. }
    exists m. rewrite !HE'. assert (in_grid x y (i, j)) by (split; cbn; lia). tauto. Qed.

(** in a bidirectional grid shortest_path finds |dx| + |dy| between any two cells; in a one-way grid it finds the same to
    cells that are neither further left nor further up, and nothing to all others *)
Definition ahead (u w : cell) : Prop := fst u <= fst w /\ snd u <= snd w.
Lemma grid_walk x y bi g : grid x y bi = Ok g -> forall n u w, in_grid x y u -> in_grid x y w -> bi = true \/ ahead u w ->
  gap (fst u) (fst w) + gap (snd u) (snd w) = n -> exists p, wpath (edge g) u p w (Z.of_nat n).
Proof. intros EG. destruct (C89_grid_exact x y bi) as (g' & E & R & HE & HV & HN). assert (g' = g) by congruence. subst g'. clear E.
  assert (forall u w, has_edge g u w -> edge g u w = Some 1%Z) as HV'. { intros u w [v H]. rewrite H. f_equal. apply (HV _ _ _ H). }
  induction n as [|n IH]; intros [a b] [c d] Hu Hw Hdir Hn; unfold gap in Hn; cbn [fst snd] in Hn.
  - assert (a = c) by lia. assert (b = d) by lia. subst c d. exists [(a, b)]. apply wpath_one.
  - assert (exists m, in_grid x y m /\ (next_to (a, b) m \/ bi = true /\ next_to m (a, b)) /\ (bi = true \/ ahead m (c, d)) /\ gap (fst m) c + gap (snd m) d = n) as (m & M1 & M2 & M3 & M4).
    { destruct Hu as [U1 U2], Hw as [W1 W2]. unfold ahead, in_grid, gap, next_to in *. cbn [fst snd] in *. destruct (Nat.lt_trichotomy a c) as [H|[H|H]].
      - exists (S a, b). cbn [fst snd]. splits; auto; try lia; try (destruct Hdir; [left; assumption|right; lia]).
      - destruct (Nat.lt_trichotomy b d) as [H'|[H'|H']]; [|lia|].
        + exists (a, S b). cbn [fst snd]. splits; auto; try lia; try (destruct Hdir; [left; assumption|right; lia]).
        + destruct Hdir as [Hb|Hd]; [|lia]. exists (a, b - 1). cbn [fst snd]. splits; auto; try lia; try (destruct Hdir; [left; assumption|right; lia]). right. split; [exact Hb|]. right. f_equal. lia.
      - destruct Hdir as [Hb|Hd]; [|lia]. exists (a - 1, b). cbn [fst snd]. splits; auto; try lia; try (destruct Hdir; [left; assumption|right; lia]). right. split; [exact Hb|]. left. f_equal. lia. }
    destruct (IH m (c, d) M1 Hw M3 M4) as (p & Hp). exists ((a, b) :: p). replace (Z.of_nat (S n)) with (1 + Z.of_nat n)%Z by lia. apply (wpath_cons _ _ m); [|exact Hp]. apply HV', HE. auto. Qed.
Lemma grid_least x y bi g : grid x y bi = Ok g -> forall u p w z, wpath (edge g) u p w z -> (Z.of_nat (gap (fst u) (fst w) + gap (snd u) (snd w)) <= z)%Z /\ (bi = false -> ahead u w).
Proof. intros EG. destruct (C89_grid_exact x y bi) as (g' & E & R & HE & HV & HN). assert (g' = g) by congruence. subst g'. clear E.
  intros u p w z H. induction H as [u|u m p w v z Hm Hp IH]; [unfold gap, ahead; split; [lia|intros _; lia]|]. destruct IH as [I1 I2]. pose proof (HV _ _ _ Hm) as ->.
  destruct (proj1 (HE u m)) as (_ & _ & H); [exists 1%Z; exact Hm|]. destruct u as [a b], m as [c d], w as [e f]. unfold next_to, ahead, gap in *. cbn [fst snd] in *. split.
  - destruct H as [[H|H]|[_ [H|H]]]; injection H as -> ->; lia.
  - intros Hb. specialize (I2 Hb). destruct H as [[H|H]|[C _]]; [injection H as -> ->; lia|injection H as -> ->; lia|congruence]. Qed.
Theorem C89_grid_distance x y bi g u w : grid x y bi = Ok g -> in_grid x y u -> in_grid x y w -> 2 <= x * y ->
  exists d p, returns (fun n => shortest_path n g u w []) (Ok (d, p)) /\
    match d with
    | Fin z => (bi = true \/ ahead u w) /\ z = Z.of_nat (gap (fst u) (fst w) + gap (snd u) (snd w)) /\ wpath (edge g) u p w z
    | Inf => p = [] /\ bi = false /\ ~ ahead u w
    end.
Proof. intros EG Hu Hw H2. destruct (C89_grid_exact x y bi) as (g' & E & R & HE & HV & HN). assert (g' = g) by congruence. subst g'. clear E.
  destruct (C23_shortest_path_optimal g u w R) as (d & p & Hr & Hd).
  - intros a b v H. rewrite (HV _ _ _ H). lia.
  - apply contains_In, HN. auto.
  - apply contains_In, HN. auto.
  - exists d, p. split; [exact Hr|]. destruct d as [z|].
    + destruct Hd as [Hp Hmin]. destruct (grid_least _ _ _ _ EG _ _ _ _ Hp) as [L1 L2]. assert (bi = true \/ ahead u w) as Hdir by (destruct bi; auto).
      splits; auto. destruct (grid_walk _ _ _ _ EG _ u w Hu Hw Hdir eq_refl) as (p' & Hp'). specialize (Hmin _ _ Hp'). lia.
    + destruct Hd as [-> Hno]. split; [reflexivity|]. assert (~ (bi = true \/ ahead u w)) as HC. { intros C. destruct (grid_walk _ _ _ _ EG _ u w Hu Hw C eq_refl) as (p' & Hp'). apply (Hno _ _ Hp'). }
      split; [destruct bi; [exfalso; auto|reflexivity]|]. intros C. apply HC. auto. Qed.
Example ex_grid : exists g, grid 3 2 false = Ok g /\ in_grid 3 2 (0, 0) /\ in_grid 3 2 (2, 1) /\ 2 <= 3 * 2 /\
  shortest_path 20 g (0, 0) (2, 1) [] = Ok (Fin 3%Z, [(0, 0); (0, 1); (1, 1); (2, 1)]) /\ shortest_path 20 g (2, 1) (0, 0) [] = Ok (Inf, []) /\
  length (nodes g) = 6 /\ length (edges g) = 7 /\ exists g1, grid 1 1 false = Ok g1 /\ nodes g1 = [].
Proof. eexists. split; [vm_compute; reflexivity|]. splits; try (vm_compute; reflexivity); try (unfold in_grid; cbn; lia). eexists. split; vm_compute; reflexivity. Qed.
