(** Property theorems C66 (random_xy_graph) and C67 (n_nearest_neighbours). *)
From Coq Require Import Sorted.
From Verif Require Import Prelude PreludeFacts Base BaseFacts BaseFacts2 BaseFacts3 Spec SpecFacts Loop MaxFlowFacts Random Nearest RandomFacts.

Section C66.
Context {V : Type} (xyd : Z * Z -> Z * Z -> V) (rnd : nat -> Z * Z)
  (shX shY : list Z -> list Z) (sh1 sh2 : list (Z * Z) -> list (Z * Z)).
(** the random source keeps its contract: randint(1,m) is between 1 and m, shuffles permute *)
Definition random_ok (X Y : Z) : Prop :=
  ((1 <= X)%Z -> (1 <= Y)%Z -> forall i, (1 <= fst (rnd i) <= X)%Z /\ (1 <= snd (rnd i) <= Y)%Z) /\
  (forall l, Permutation (shX l) l) /\ (forall l, Permutation (shY l) l) /\ (forall l, Permutation (sh1 l) l) /\ (forall l, Permutation (sh2 l) l).
Notation rxy := (random_xy_graph xyd rnd shX shY sh1 sh2).
(** C66: whatever the random source does, a returned graph has the requested number of distinct nodes inside the
    frame and the requested number of edges (all pairs when edges is not given), each with its distance. *)
Theorem C66_size (N X Y : Z) (E : option Z) n g : random_ok X Y -> (0 <= N)%Z -> (forall e, E = Some e -> (0 <= e)%Z) ->
  rxy n N X Y E = Ok g ->
  reachable g /\ Z.of_nat (length (nodes g)) = N /\ NoDup (nodes g) /\
  (forall x y, contains g (x, y) = true -> (1 <= x <= X)%Z /\ (1 <= y <= Y)%Z) /\
  Z.of_nat (length (edges g)) = match E with Some e => e | None => (N * N)%Z end /\
  (forall a b v, edge g a b = Some v -> v = xyd a b).
Proof. intros (H1 & H2 & H3 & H4 & H5) HN HE Hg. unfold random_xy_graph in Hg. destruct (Z.ltb_spec (X * Y) N) as [|Hs]; [discriminate|].
  set (e := match E with Some e => e | None => _ end) in *. destruct (Z.ltb_spec (N * N) e) as [|He]; [discriminate|].
  assert (0 <= e <= N * N)%Z as He'. { split; [|exact He]. unfold e. destruct E as [z|]; [apply HE; reflexivity|nia]. }
  destruct (loop_SPost (V := V) rnd N X Y HN H1 n) as [EL|EL]; [rewrite EL in Hg; discriminate|].
  destruct (loop n _ _) as [[g0 sp]| |]; cbn [bind] in Hg; try discriminate.
  destruct (after_loop xyd rnd shX shY sh1 sh2 N X Y HN Hs H1 H2 H3 H4 H5 g0 sp e EL He') as (g' & Hg' & R & A1 & A2 & A3 & A4). pose proof (eq_trans (eq_sym Hg') Hg) as C. injection C as ->.
  splits; auto; [apply reachable_wf, R|]. intros x y Hxy. apply contains_In in Hxy. apply (A2 _ Hxy). Qed.
(** it only raises ValueError, and only for impossible requests *)
Theorem C66_errors (N X Y : Z) (E : option Z) n e : random_ok X Y -> (0 <= N)%Z -> (forall e, E = Some e -> (0 <= e)%Z) ->
  rxy n N X Y E = Err e -> e = ValueError /\ ((X * Y < N)%Z \/ (exists k, E = Some k /\ (N * N < k)%Z) \/ (X < 1)%Z \/ (Y < 1)%Z).
Proof. intros (H1 & H2 & H3 & H4 & H5) HN HE Hg. unfold random_xy_graph in Hg. destruct (Z.ltb_spec (X * Y) N) as [|Hs]; [inversion Hg; auto|].
  set (m := match E with Some e => e | None => _ end) in *. destruct (Z.ltb_spec (N * N) m) as [Hm|He].
  { inversion Hg. split; [reflexivity|]. right. left. unfold m in Hm. destruct E as [k|]; [eauto|lia]. }
  assert (0 <= m <= N * N)%Z as He'. { split; [|exact He]. unfold m. destruct E as [z|]; [apply HE; reflexivity|nia]. }
  destruct (loop_SPost (V := V) rnd N X Y HN H1 n) as [EL|EL]; [rewrite EL in Hg; discriminate|].
  destruct (loop n _ _) as [[g0 sp]|e0|]; cbn [bind] in Hg; try discriminate.
  - destruct (after_loop xyd rnd shX shY sh1 sh2 N X Y HN Hs H1 H2 H3 H4 H5 g0 sp m EL He') as (g' & Hg' & _). pose proof (eq_trans (eq_sym Hg') Hg) as C. discriminate C.
  - inversion Hg; subst. destruct EL as [-> EL]. split; [reflexivity|tauto]. Qed.
(** it terminates when every cell of the frame keeps being drawn *)
Theorem C66_terminates (N X Y : Z) (E : option Z) : random_ok X Y -> (0 <= N)%Z -> (forall e, E = Some e -> (0 <= e)%Z) ->
  (forall x y i, (1 <= x <= X)%Z -> (1 <= y <= Y)%Z -> exists j, i <= j /\ rnd j = (x, y)) ->
  exists r, returns (fun n => rxy n N X Y E) r.
Proof. intros (H1 & H2 & H3 & H4 & H5) HN HE HF. unfold random_xy_graph. destruct (Z.ltb_spec (X * Y) N) as [|Hs]; [eexists; apply returns_const; discriminate|].
  set (m := match E with Some e => e | None => _ end). destruct (Z.ltb_spec (N * N) m) as [Hm|He]; [eexists; apply returns_const; discriminate|].
  assert (0 <= m <= N * N)%Z as He'. { split; [|exact He]. unfold m. destruct E as [z|]; [apply HE; reflexivity|nia]. }
  destruct (fair_terminates (V := V) rnd N X Y Hs H1) with (st := (0, @empty_graph (Z * Z) unit V, @nil (Z * Z), 0%Z)) as [k Hk]; [intros [x y] i [? ?]; apply HF; assumption|apply sinv_init, HN|].
  set (st0 := (0, @empty_graph (Z * Z) unit V, @nil (Z * Z), 0%Z)) in *. set (stp := rxy_step rnd N X Y) in *.
  assert (returns (fun n => loop n stp st0) (loop k stp st0)) as HR.
  { hnf. splits; [exact Hk|exists k; intros n Hn; symmetry; symmetry; apply (loop_mono stp k st0 _ eq_refl Hk n Hn)|].
    intros n. destruct (loop n stp st0) as [x|e|] eqn:En; [right|right|left; reflexivity].
    - destruct (Nat.le_ge_cases n k) as [Hle|Hle]; [symmetry; apply (loop_mono stp n st0 _ En); [discriminate|exact Hle]|rewrite <- En; apply (loop_mono stp k st0 _ eq_refl Hk n Hle)].
    - destruct (Nat.le_ge_cases n k) as [Hle|Hle]; [symmetry; apply (loop_mono stp n st0 _ En); [discriminate|exact Hle]|rewrite <- En; apply (loop_mono stp k st0 _ eq_refl Hk n Hle)]. }
  destruct (loop_SPost (V := V) rnd N X Y HN H1 k) as [EL|EL]; [fold st0 stp in EL; congruence|]. fold st0 stp in EL.
  destruct (loop k stp st0) as [[g0 sp]|e0|] eqn:EK; [|exists (Err e0); eapply returns_bind_err; exact HR|congruence].
  destruct (after_loop xyd rnd shX shY sh1 sh2 N X Y HN Hs H1 H2 H3 H4 H5 g0 sp m EL He') as (g' & Hg' & _). exists (Ok g').
  refine (returns_bind _ (fun _ r => _) _ _ HR _). apply (returns_ext (fun _ => Ok g')); [intros n; symmetry; exact Hg'|apply returns_const; discriminate]. Qed.
End C66.
(** a concrete run: 5 nodes in a 2 x 3 frame; the draws go round the frame, shuffles reverse *)
Definition rr (i : nat) : Z * Z := (1 + Z.of_nat (i mod 4 mod 2), 1 + Z.of_nat (i mod 4 / 2))%Z.
Definition rdist (a b : Z * Z) : Z := ((fst a - fst b) * (fst a - fst b) + (snd a - snd b) * (snd a - snd b))%Z.
Example ex_random_ok : random_ok rr (@rev Z) (@rev Z) (@rev (Z * Z)) (@rev (Z * Z)) 2 3.
Proof. split; [|splits; intros l; symmetry; apply Permutation_rev]. intros _ _ i. unfold rr; cbn [fst snd].
  assert (i mod 4 < 4) by (apply Nat.mod_upper_bound; lia). assert (i mod 4 mod 2 < 2) by (apply Nat.mod_upper_bound; lia).
  assert (i mod 4 / 2 < 2) by (apply Nat.div_lt_upper_bound; lia). lia. Qed.
Example ex_random_run : exists g, random_xy_graph rdist rr (@rev Z) (@rev Z) (@rev (Z * Z)) (@rev (Z * Z)) 20 5 2 3 (Some 7%Z) = Ok g /\
  nodes g = [(1, 1); (2, 1); (1, 2); (2, 2); (2, 3)]%Z /\ length (edges g) = 7.
Proof. eexists. split; [vm_compute; reflexivity|split; vm_compute; reflexivity]. Qed.
(** the fairness condition of C66_terminates is satisfiable for the draws above in a 2 x 2 frame *)
Example ex_random_fair x y i : (1 <= x <= 2)%Z -> (1 <= y <= 2)%Z -> exists j, i <= j /\ rr j = (x, y).
Proof. intros Hx Hy. set (k := Z.to_nat (x - 1) + 2 * Z.to_nat (y - 1)). assert (k < 4) by (unfold k; lia). exists (i * 4 + k). split; [lia|].
  unfold rr. rewrite Nat.add_comm, Nat.mod_add, (Nat.mod_small k) by lia. assert (k mod 2 = Z.to_nat (x - 1)) as -> by (unfold k; rewrite Nat.mul_comm, Nat.mod_add, Nat.mod_small by lia; reflexivity).
  assert (k / 2 = Z.to_nat (y - 1)) as -> by (unfold k; rewrite Nat.mul_comm, Nat.div_add, Nat.div_small by lia; reflexivity). f_equal; lia. Qed.

Section C67.
Context {A O V D : Type} {EA : EqDec A} (dist : A -> A -> D) (srt : list (D * A) -> list (D * A)) (le : D -> D -> Prop).
Notation graph := (graph A O V).
(** C67: sort() is any function that permutes and orders by distance (ties in any order) *)
Theorem C67_nearest (g : graph) x n : reachable g -> (1 <= n)%Z ->
  (forall l, Permutation (srt l) l /\ StronglySorted (fun a b => le (fst a) (fst b)) (srt l)) ->
  exists r, n_nearest_neighbours dist srt g x n = Ok r /\
  match r with
  | None => forall y, contains g y = true -> y = x
  | Some l => NoDup l /\ l <> [] /\ (forall y, In y l -> contains g y = true /\ y <> x) /\
      (Z.of_nat (length l) = n \/ ((Z.of_nat (length l) < n)%Z /\ forall y, contains g y = true -> y <> x -> In y l)) /\
      StronglySorted (fun a b => le (dist x a) (dist x b)) l /\
      (forall y z, In y l -> contains g z = true -> z <> x -> ~ In z l -> le (dist x y) (dist x z))
  end.
Proof. intros R Hn HS. pose proof (nearest_spec dist srt le g x n (reachable_wf _ R) Hn HS) as H. cbn zeta in H.
  assert (forall y, In y (filter (fun m => negb (eqb m x)) (nodes g)) <-> contains g y = true /\ y <> x) as HF.
  { intros y. rewrite filter_In, contains_In. pose proof (eqb_true y x) as E. destruct (eqb y x); cbn; split; intros [K1 K2]; split; auto; try discriminate; [destruct (K2 (proj1 E eq_refl))|intros K; discriminate (proj2 E K)]. }
  destruct (n_nearest_neighbours dist srt g x n) as [r| |]; try contradiction. exists r. split; [reflexivity|]. destruct r as [l|].
  - destruct H as (H0 & H1 & H2 & H3 & H4 & H5). splits; auto.
    + intros ->. cbn in H2. destruct (filter _ _); [congruence|]. cbn in H2. lia.
    + intros y Hy. apply HF, H3, Hy.
    + destruct (Nat.le_gt_cases (Z.to_nat n) (length (filter (fun m => negb (eqb m x)) (nodes g)))) as [Hle|Hle]; [left; lia|right]. split; [lia|]. intros y Hy Hne.
      apply (NoDup_length_incl H1 (l' := filter (fun m => negb (eqb m x)) (nodes g))); [lia|exact H3|apply HF; auto].
    + intros y z Hy Hz Hne Hnz. apply H5; auto. apply HF. auto.
  - intros y Hy. destruct (eq_dec y x) as [|Hne]; [assumption|]. assert (In y (filter (fun m => negb (eqb m x)) (nodes g))) as Hi by (apply HF; auto). rewrite H in Hi. destruct Hi. Qed.
Theorem C67_bad_n (g : graph) x n : (n < 1)%Z -> n_nearest_neighbours dist srt g x n = Err ValueError.
Proof. intros Hn. unfold n_nearest_neighbours. apply Z.ltb_lt in Hn. rewrite Hn. reflexivity. Qed.
End C67.
(** concrete: integer points, squared distance, insertion sort *)
Fixpoint insd (x : Z * (Z * Z * Z)) (l : list (Z * (Z * Z * Z))) := match l with [] => [x] | y :: t => if (fst x <=? fst y)%Z then x :: l else y :: insd x t end.
Definition sortd (l : list (Z * (Z * Z * Z))) := fold_right insd [] l.
Lemma insd_perm x l : Permutation (insd x l) (x :: l).
Proof. induction l as [|y l IH]; cbn; [reflexivity|]. destruct (fst x <=? fst y)%Z; [reflexivity|]. rewrite IH. apply perm_swap. Qed.
Example ex_sortd l : Permutation (sortd l) l /\ StronglySorted (fun a b => (fst a <= fst b)%Z) (sortd l).
Proof. induction l as [|x l [P S]]; cbn [sortd fold_right]; [repeat constructor|]. fold (sortd l). split; [rewrite insd_perm, P; reflexivity|]. clear P.
  induction S as [|y t S IH F]; cbn; [repeat constructor|]. destruct (Z.leb_spec (fst x) (fst y)).
  - constructor; [constructor; assumption|]. constructor; [assumption|]. rewrite Forall_forall in *. intros z Hz. specialize (F z Hz). lia.
  - constructor; [assumption|]. rewrite Forall_forall in *. intros z Hz. apply (Permutation_in _ (insd_perm x t)) in Hz. destruct Hz as [<-|Hz]; [lia|auto]. Qed.
Definition d3 (a b : Z * Z * Z) : Z := let '((x, y), z) := a in let '((x', y'), z') := b in ((x - x') * (x - x') + (y - y') * (y - y') + (z - z') * (z - z'))%Z.
Definition pts : graph (Z * Z * Z) unit Z := ok_or empty_graph (run [OpAddNode (0, 0, 0)%Z None; OpAddNode (5, 0, 0)%Z None; OpAddNode (1, 1, 0)%Z None; OpAddNode (0, 0, 2)%Z None]).
Example ex_near : reachable pts /\ n_nearest_neighbours d3 sortd pts (0, 0, 0)%Z 2 = Ok (Some [(1, 1, 0); (0, 0, 2)]%Z).
Proof. split; [apply reachable_run|vm_compute; reflexivity]. Qed.
