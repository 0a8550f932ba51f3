(** Facts about random_xy_graph and n_nearest_neighbours *)
From Coq Require Import Sorted.
From Verif Require Import Prelude PreludeFacts Base BaseFacts BaseFacts2 BaseFacts3 Spec SpecFacts Loop SearchFacts BaseAlgFacts
  MaxFlowFacts HashFacts Random Nearest.

Lemma NoDup_list_prod {X Y} (l : list X) (m : list Y) : NoDup l -> NoDup m -> NoDup (list_prod l m).
Proof. induction l as [|x l IH]; intros Hl Hm; cbn; [constructor|]. apply NoDup_cons_iff in Hl. destruct Hl as [Hx Hl].
  apply NoDup_app_iff. split; [|split].
  - apply FinFun.Injective_map_NoDup; [intros a b E; congruence|exact Hm].
  - apply IH; assumption.
  - intros [a b] H1 H2. apply in_map_iff in H1. destruct H1 as (y & E & _). inversion E; subst. apply in_prod_iff in H2. tauto. Qed.
Lemma In_range1 m z : In z (range1 m) <-> (1 <= z <= m)%Z.
Proof. unfold range1. rewrite in_map_iff. split.
  - intros (k & <- & Hk). apply in_seq in Hk. lia.
  - intros Hz. exists (Z.to_nat z). split; [lia|]. apply in_seq. lia. Qed.
Lemma NoDup_range1 m : NoDup (range1 m).
Proof. unfold range1. apply FinFun.Injective_map_NoDup; [intros a b E; lia|apply seq_NoDup]. Qed.
Lemma length_range1 m : length (range1 m) = Z.to_nat m.
Proof. unfold range1. rewrite map_length, seq_length. reflexivity. Qed.

Section R.
Context {V : Type} (xyd : Z * Z -> Z * Z -> V) (rnd : nat -> Z * Z)
  (shX shY : list Z -> list Z) (sh1 sh2 : list (Z * Z) -> list (Z * Z)).
Notation graph := (graph (Z * Z) unit V).
Context (N X Y : Z) (HN : (0 <= N)%Z) (Hsize : (N <= X * Y)%Z).
Definition in_frame (p : Z * Z) : Prop := (1 <= fst p <= X)%Z /\ (1 <= snd p <= Y)%Z.
Context (Hrnd : (1 <= X)%Z -> (1 <= Y)%Z -> forall i, in_frame (rnd i)).

Record RInv (g : graph) (sp : list (Z * Z)) : Prop := {
  r_r : reachable g; r_n : nodes g = sp; r_f : forall p, In p sp -> in_frame p; r_e : forall x y, edge g x y = None; r_l : (Z.of_nat (length sp) <= N)%Z; r_d : NoDup sp }.

Lemma rinv_add g sp p : RInv g sp -> in_frame p -> ~ In p sp -> (Z.of_nat (length sp) < N)%Z -> RInv (add_node g p None) (sadd p sp) /\ length (sadd p sp) = S (length sp).
Proof. intros [H1 H2 H3 H4 H5 H6] Hf Hp Hl. assert (sadd p sp = sp ++ [p]) as E. { unfold sadd. apply mem_notIn in Hp. rewrite Hp. reflexivity. }
  assert (length (sadd p sp) = S (length sp)) as El by (rewrite E, app_length; cbn; lia). split; [|exact El]. constructor.
  - apply reachable_add_node, H1.
  - rewrite nodes_add_node, H2. reflexivity.
  - intros q Hq. apply In_sadd in Hq. destruct Hq as [->|Hq]; auto.
  - intros x y. rewrite edge_add_node. apply H4.
  - rewrite El. lia.
  - apply NoDup_sadd, H6. Qed.

Definition SInv (st : nat * graph * list (Z * Z) * Z) : Prop := let '(i, g, sp, c) := st in RInv g sp /\ c = Z.of_nat (length sp).
Lemma sinv_init : SInv (0, empty_graph, [], 0%Z).
Proof. split; [|reflexivity]. constructor; [apply reachable_empty|reflexivity|intros p []|reflexivity|cbn; lia|constructor]. Qed.
Definition SPost (r : res (graph * list (Z * Z))) : Prop :=
  match r with Ok (g, sp) => RInv g sp /\ (Z.of_nat (length sp) = N \/ (1 <= X /\ 1 <= Y)%Z) | Err e => e = ValueError /\ ((X < 1)%Z \/ (Y < 1)%Z) | OutOfFuel => False end.
Lemma rxy_step_inv st : SInv st -> match rxy_step rnd N X Y st with inl st' => SInv st' | inr r => SPost r end.
Proof. destruct st as [[[i g] sp] c]. intros [HI ->]. unfold rxy_step. destruct (Z.ltb_spec (Z.of_nat (length sp)) N) as [Hl|Hl]; [|split; [exact HI|left; pose proof (r_l _ _ HI); lia]].
  destruct (Z.ltb_spec X 1); [cbn; auto|]. destruct (Z.ltb_spec Y 1); [cbn; auto|]. cbn [orb]. destruct (mem (rnd i) sp) eqn:Em.
  - destruct (X * Y <? _)%Z; [split; [exact HI|right; lia]|split; auto].
  - apply mem_notIn in Em. destruct (rinv_add g sp (rnd i) HI) as [HI' El]; auto. split; [exact HI'|]. rewrite El. lia. Qed.

Lemma rxy_row_inv x ys : (1 <= x <= X)%Z -> (forall y, In y ys -> 1 <= y <= Y)%Z -> forall g sp, RInv g sp -> (Z.of_nat (length sp) < N)%Z ->
  let '(g', sp', q) := rxy_row N x ys g sp in RInv g' sp' /\ (if q then Z.of_nat (length sp') = N else (Z.of_nat (length sp') < N)%Z /\ (forall p, In p sp -> In p sp') /\ forall y, In y ys -> In (x, y) sp').
Proof. intros Hx. induction ys as [|y ys IH]; intros Hy g sp HI Hl; cbn [rxy_row].
  - splits; auto. intros y [].
  - assert (forall g sp, RInv g sp -> (Z.of_nat (length sp) < N)%Z -> In (x, y) sp -> let '(g', sp', q) := rxy_row N x ys g sp in RInv g' sp' /\ (if q then Z.of_nat (length sp') = N else (Z.of_nat (length sp') < N)%Z /\ (forall p, In p sp -> In p sp') /\ forall y', In y' (y :: ys) -> In (x, y') sp')) as IH'.
    { intros g1 sp1 HI1 Hl1 Hin. specialize (IH (fun y' H' => Hy y' (or_intror H')) g1 sp1 HI1 Hl1). destruct (rxy_row N x ys g1 sp1) as [[g' sp'] q]. destruct IH as [I1 I2]. split; [exact I1|].
      destruct q; [exact I2|]. destruct I2 as (I2 & I3 & I4). splits; auto. intros y' [<-|Hy']; auto. }
    destruct (mem (x, y) sp) eqn:Em; [apply IH'; [assumption|assumption|apply mem_In, Em]|]. apply mem_notIn in Em.
    destruct (rinv_add g sp (x, y) HI) as [HI' El]; [split; [exact Hx|apply Hy; left; reflexivity]|exact Em|exact Hl|].
    destruct (Z.eqb_spec (Z.of_nat (length (sadd (x, y) sp))) N) as [Eq|Nq]; [split; [exact HI'|exact Eq]|].
    assert (Z.of_nat (length (sadd (x, y) sp)) < N)%Z as Hl' by lia. specialize (IH' _ _ HI' Hl'). 
    destruct (rxy_row N x ys (add_node g (x, y) None) (sadd (x, y) sp)) as [[g' sp'] q]. destruct IH' as [I1 I2]; [apply In_sadd; auto|]. split; [exact I1|].
    destruct q; [exact I2|]. destruct I2 as (I2 & I3 & I4). splits; auto. intros p Hp. apply I3, In_sadd. auto. Qed.

Lemma rxy_grid_inv ys : (forall y, In y ys -> 1 <= y <= Y)%Z -> forall xs, (forall x, In x xs -> 1 <= x <= X)%Z -> forall g sp, RInv g sp -> (Z.of_nat (length sp) < N)%Z ->
  let '(g', sp') := rxy_grid N xs ys g sp in RInv g' sp' /\ (Z.of_nat (length sp') = N \/ ((Z.of_nat (length sp') < N)%Z /\ (forall p, In p sp -> In p sp') /\ forall x y, In x xs -> In y ys -> In (x, y) sp')).
Proof. intros Hy xs. induction xs as [|x xs IH]; intros Hx g sp HI Hl; cbn [rxy_grid].
  - split; [exact HI|]. right. splits; auto. intros x y [].
  - pose proof (rxy_row_inv x ys (Hx x (or_introl eq_refl)) Hy g sp HI Hl) as HR. destruct (rxy_row N x ys g sp) as [[g1 sp1] q]. destruct HR as [R1 R2]. destruct q; [auto|].
    destruct R2 as (R2 & R3 & R4). specialize (IH (fun x' H' => Hx x' (or_intror H')) g1 sp1 R1 R2). destruct (rxy_grid N xs ys g1 sp1) as [g' sp']. destruct IH as [I1 I2]. split; [exact I1|].
    destruct I2 as [I2|(I2 & I3 & I4)]; [auto|]. right. splits; auto. intros x' y' [<-|Hx'] Hy'; auto. Qed.

Lemma grid_full g sp : (forall l, Permutation (shX l) l) -> (forall l, Permutation (shY l) l) -> RInv g sp -> (Z.of_nat (length sp) < N)%Z -> (1 <= X)%Z -> (1 <= Y)%Z ->
  let '(g', sp') := rxy_grid N (shX (range1 X)) (shY (range1 Y)) g sp in RInv g' sp' /\ Z.of_nat (length sp') = N.
Proof. intros PX PY HI Hl X1 Y1. pose proof (rxy_grid_inv (shY (range1 Y))) as HG.
  specialize (HG (fun y Hy => proj1 (In_range1 Y y) (Permutation_in _ (PY _) Hy)) (shX (range1 X)) (fun x Hx => proj1 (In_range1 X x) (Permutation_in _ (PX _) Hx)) g sp HI Hl).
  destruct (rxy_grid N (shX (range1 X)) (shY (range1 Y)) g sp) as [g' sp']. destruct HG as [G1 [G2|(G2 & _ & G3)]]; [auto|]. exfalso.
  assert (length (list_prod (shX (range1 X)) (shY (range1 Y))) <= length sp') as Hle.
  { apply NoDup_incl_length; [apply NoDup_list_prod; [rewrite PX|rewrite PY]; apply NoDup_range1|]. intros [x y] Hp. apply in_prod_iff in Hp. apply G3; tauto. }
  rewrite prod_length, (Permutation_length (PX _)), (Permutation_length (PY _)), !length_range1 in Hle. nia. Qed.

(** the edges *)
Lemma rxy_edges_spec ps : forall E c g, reachable g -> NoDup ps -> (0 <= c <= E)%Z -> (forall a b, In (a, b) ps -> edge g a b = None /\ In a (nodes g) /\ In b (nodes g)) ->
  exists g', rxy_edges xyd E c ps g = Ok g' /\ reachable g' /\ nodes g' = nodes g /\
    forall a b, edge g' a b = if In_dec' (a, b) (firstn (Z.to_nat (E - c)) ps) then Some (xyd a b) else edge g a b.
Proof. induction ps as [|[a b] ps IH]; intros E c g R HD Hc Hps; cbn [rxy_edges].
  - exists g. splits; auto. intros a b. rewrite firstn_nil. destruct (In_dec' (a, b) []) as [[]|]. reflexivity.
  - apply NoDup_cons_iff in HD. destruct HD as [Hab HD]. destruct (Z.eqb_spec c E) as [->|Hne].
    + exists g. splits; auto. intros x y. rewrite Z.sub_diag. cbn [Z.to_nat firstn]. destruct (In_dec' (x, y) []) as [[]|]. reflexivity.
    + destruct (Hps a b (or_introl eq_refl)) as (Eab & Ha & Hb). pose proof (reachable_wf _ R) as W. rewrite add_edge_eq by exact W. cbn [bind].
      assert (nodes (add_edge_result g a b (xyd a b) false) = nodes g) as En. { unfold add_edge_result. rewrite nodes_add_edge1_result, (sadd_in a) by exact Ha. apply sadd_in, Hb. }
      assert (forall x y, edge (add_edge_result g a b (xyd a b) false) x y = if eq_dec x a then if eq_dec y b then Some (xyd a b) else edge g x y else edge g x y) as Ee.
      { intros x y. unfold add_edge_result. rewrite edge_add_edge1_result. reflexivity. }
      destruct (IH E (c + 1)%Z (add_edge_result g a b (xyd a b) false)) as (g' & Hg & R' & N' & E'); auto.
      * apply (reachable_step g (OpAddEdge a b (xyd a b) false) _ R). apply (add_edge_eq g a b _ false W).
      * lia.
      * intros x y Hxy. rewrite En, Ee. destruct (Hps x y (or_intror Hxy)) as (K1 & K2 & K3). splits; auto. destruct (eq_dec x a) as [->|]; [destruct (eq_dec y b) as [->|]; [contradiction|]|]; exact K1.
      * exists g'. splits; auto; [congruence|]. intros x y. rewrite E', Ee. replace (Z.to_nat (E - c)) with (S (Z.to_nat (E - (c + 1)))) by lia. cbn [firstn].
        destruct (In_dec' (x, y) (firstn (Z.to_nat (E - (c + 1))) ps)) as [Hi|Hi]; destruct (In_dec' (x, y) ((a, b) :: firstn (Z.to_nat (E - (c + 1))) ps)) as [Hj|Hj].
        -- reflexivity.
        -- destruct Hj. right. exact Hi.
        -- destruct Hj as [Hj|Hj]; [inversion Hj; subst|contradiction]. destruct (eq_dec x x); [|congruence]. destruct (eq_dec y y); [reflexivity|congruence].
        -- destruct (eq_dec x a) as [->|]; [destruct (eq_dec y b) as [->|]; [destruct Hj; left; reflexivity|]|]; reflexivity. Qed.

Lemma edges_count (g : graph) ps : wf g -> NoDup ps -> (forall a b, (exists v, edge g a b = Some v) <-> In (a, b) ps) -> length (edges g) = length ps.
Proof. intros W HD HE. rewrite <- (map_length ekey (edges g)). apply Permutation_length, NoDup_Permutation; [apply NoDup_edges, W|exact HD|].
  intros [a b]. rewrite <- HE. split.
  - intros H. apply in_map_iff in H. destruct H as ([[x y] v] & E & Hi). cbn in E. inversion E; subst. exists v. apply (In_edges g a b v W), Hi.
  - intros [v Hv]. apply in_map_iff. exists (a, b, v). split; [reflexivity|]. apply (In_edges g a b v W), Hv. Qed.

Context (PX : forall l, Permutation (shX l) l) (PY : forall l, Permutation (shY l) l) (P1 : forall l, Permutation (sh1 l) l) (P2 : forall l, Permutation (sh2 l) l).
Lemma after_loop g sp E : SPost (Ok (g, sp)) -> (0 <= E <= N * N)%Z -> exists g',
  (let g := if (Z.of_nat (length (nodes g)) <? N)%Z then fst (rxy_grid N (shX (range1 X)) (shY (range1 Y)) g sp) else g in
   let n1s := sh1 (nodes g) in let n2s := sh2 n1s in rxy_edges xyd E 0 (list_prod n1s n2s) g) = Ok g' /\
  reachable g' /\ Z.of_nat (length (nodes g')) = N /\ (forall p, In p (nodes g') -> in_frame p) /\ Z.of_nat (length (edges g')) = E /\ forall a b v, edge g' a b = Some v -> v = xyd a b.
Proof. intros [HI HXY] HE. set (g1 := if (Z.of_nat (length (nodes g)) <? N)%Z then _ else _).
  assert (exists sp1, RInv g1 sp1 /\ Z.of_nat (length sp1) = N) as (sp1 & [R1 N1 F1 E1 L1 D1] & L2).
  { unfold g1. pose proof (r_n _ _ HI) as En. rewrite En. destruct (Z.ltb_spec (Z.of_nat (length sp)) N) as [Hl|Hl].
    - destruct HXY as [HXY|[X1 Y1]]; [lia|].
      pose proof (grid_full g sp PX PY HI Hl X1 Y1) as HG. destruct (rxy_grid N (shX (range1 X)) (shY (range1 Y)) g sp) as [g' sp']. exists sp'. exact HG.
    - exists sp. split; [exact HI|]. pose proof (r_l _ _ HI). lia. }
  cbn zeta. rewrite N1. set (ps := list_prod (sh1 sp1) (sh2 (sh1 sp1))).
  assert (NoDup ps) as HD by (apply NoDup_list_prod; [rewrite P1|rewrite P2, P1]; exact D1).
  destruct (rxy_edges_spec ps E 0%Z g1 R1 HD) as (g' & Hg & R' & N' & E'); [lia| |].
  { intros a b Hp. apply in_prod_iff in Hp. rewrite E1, N1. splits; [reflexivity|apply (Permutation_in _ (P1 _)); tauto|]. apply (Permutation_in _ (P1 _)), (Permutation_in _ (P2 _)). tauto. }
  exists g'. rewrite Z.sub_0_r in E'. splits; auto.
  - rewrite N', N1. exact L2.
  - rewrite N', N1. exact F1.
  - rewrite (edges_count g' (firstn (Z.to_nat E) ps)).
    + rewrite firstn_length. unfold ps. rewrite prod_length, (Permutation_length (P2 _)), (Permutation_length (P1 _)). nia.
    + apply reachable_wf, R'.
    + rewrite <- (firstn_skipn (Z.to_nat E) ps) in HD. apply NoDup_app_iff in HD. tauto.
    + intros a b. rewrite E', E1. destruct (In_dec' (a, b) (firstn (Z.to_nat E) ps)); split; try tauto; eauto. intros [v Hv]. discriminate.
  - intros a b v. rewrite E', E1. destruct (In_dec' (a, b) (firstn (Z.to_nat E) ps)); congruence. Qed.

(** termination when every cell of the frame is drawn again and again *)
Lemma free_cell (sp : list (Z * Z)) : (1 <= X)%Z -> (1 <= Y)%Z -> (Z.of_nat (length sp) < X * Y)%Z -> exists p, in_frame p /\ ~ In p sp.
Proof. intros X1 Y1 Hl. destruct (filter (fun p => negb (mem p sp)) (list_prod (range1 X) (range1 Y))) as [|p l] eqn:E.
  - exfalso. assert (length (list_prod (range1 X) (range1 Y)) <= length sp) as Hle.
    { apply NoDup_incl_length; [apply NoDup_list_prod; apply NoDup_range1|]. intros p Hp. destruct (mem_spec p sp) as [|Hn]; [assumption|]. exfalso.
      assert (In p (filter (fun p => negb (mem p sp)) (list_prod (range1 X) (range1 Y)))) as Hi; [|rewrite E in Hi; exact Hi]. apply filter_In. split; [exact Hp|]. apply mem_notIn in Hn. rewrite Hn. reflexivity. }
    rewrite prod_length, !length_range1 in Hle. nia.
  - assert (In p (filter (fun p => negb (mem p sp)) (list_prod (range1 X) (range1 Y)))) as Hi by (rewrite E; left; reflexivity). apply filter_In in Hi. destruct Hi as [Hp Hn].
    exists p. split; [|apply mem_notIn; destruct (mem p sp); [discriminate|reflexivity]]. destruct p as [x y]. apply in_prod_iff in Hp. rewrite !In_range1 in Hp. exact Hp. Qed.
Lemma fair_terminates : (forall p i, in_frame p -> exists j, i <= j /\ rnd j = p) -> forall st, SInv st -> exists n, loop n (rxy_step rnd N X Y) st <> OutOfFuel.
Proof. intros HF. assert (forall k i g sp, RInv g sp -> (N - Z.of_nat (length sp) <= Z.of_nat k)%Z -> exists n, loop n (rxy_step rnd N X Y) (i, g, sp, Z.of_nat (length sp)) <> OutOfFuel) as HK.
  2:{ intros [[[i g] sp] c] [HI ->]. apply (HK (Z.to_nat N)); [exact HI|lia]. }
  induction k as [|k IHk]; intros i g sp HI Hk.
  - exists 1. cbn [loop rxy_step]. destruct (Z.ltb_spec (Z.of_nat (length sp)) N); [lia|discriminate].
  - destruct (Z.ltb_spec (Z.of_nat (length sp)) N) as [Hl|Hl]; [|exists 1; cbn [loop rxy_step]; destruct (Z.ltb_spec (Z.of_nat (length sp)) N); [lia|discriminate]].
    destruct (Z.ltb_spec X 1) as [HX|HX]; [exists 1; cbn [loop rxy_step]; apply Z.ltb_lt in Hl, HX; rewrite Hl, HX; discriminate|].
    destruct (Z.ltb_spec Y 1) as [HY|HY]; [exists 1; cbn [loop rxy_step]; apply Z.ltb_lt in Hl, HY; rewrite Hl, HY, orb_true_r; discriminate|].
    destruct (free_cell sp) as (p & Hp & Hn); [lia|lia|lia|]. destruct (HF p i Hp) as (j & Hij & Ej).
    remember (j - i) as m eqn:Em. revert i Hij Em. induction m as [|m IHm]; intros i Hij Em.
    + assert (i = j) as -> by lia. destruct (rinv_add g sp p HI Hp Hn Hl) as [HI' El]. destruct (IHk (S j) _ _ HI') as [n Hr]; [lia|]. exists (S n). cbn [loop rxy_step].
      apply Z.ltb_lt in Hl. rewrite Hl. destruct (Z.ltb_spec X 1); [lia|]. destruct (Z.ltb_spec Y 1); [lia|]. cbn [orb]. rewrite Ej. apply mem_notIn in Hn. rewrite Hn. rewrite El, Nat2Z.inj_succ in Hr. exact Hr.
    + destruct (mem (rnd i) sp) eqn:Emm.
      * destruct (IHm (S i)) as [n Hr]; [lia|lia|]. destruct (X * Y <? 2 * Z.of_nat (length sp))%Z eqn:Eh.
        -- exists 1. cbn [loop rxy_step]. rewrite Emm, Eh. apply Z.ltb_lt in Hl. rewrite Hl. destruct ((X <? 1)%Z || (Y <? 1)%Z); discriminate.
        -- exists (S n). cbn [loop rxy_step]. apply Z.ltb_lt in Hl. rewrite Hl, Emm, Eh. destruct (Z.ltb_spec X 1); [lia|]. destruct (Z.ltb_spec Y 1); [lia|]. exact Hr.
      * pose proof Emm as Hn2. apply mem_notIn in Hn2. assert (in_frame (rnd i)) as Hfr by (apply Hrnd; lia). destruct (rinv_add g sp (rnd i) HI Hfr Hn2 Hl) as [HI' El].
        destruct (IHk (S i) _ _ HI') as [n Hr]; [lia|]. exists (S n). cbn [loop rxy_step]. apply Z.ltb_lt in Hl. rewrite Hl, Emm. destruct (Z.ltb_spec X 1); [lia|]. destruct (Z.ltb_spec Y 1); [lia|]. cbn [orb].
        rewrite El, Nat2Z.inj_succ in Hr. exact Hr. Qed.
Lemma loop_SPost n : loop n (rxy_step (V := V) rnd N X Y) (0, empty_graph, [], 0%Z) = OutOfFuel \/ SPost (loop n (rxy_step rnd N X Y) (0, empty_graph, [], 0%Z)).
Proof. apply (loop_partial (rxy_step rnd N X Y) SInv SPost rxy_step_inv n (0, empty_graph, [], 0%Z) _ sinv_init eq_refl). Qed.
End R.

Section Near.
Context {A O V D : Type} {EA : EqDec A} (dist : A -> A -> D) (srt : list (D * A) -> list (D * A)) (le : D -> D -> Prop).
Notation graph := (graph A O V).
Lemma StronglySorted_firstn {X} (R : X -> X -> Prop) l n : StronglySorted R l -> StronglySorted R (firstn n l) /\ forall a b, In a (firstn n l) -> In b (skipn n l) -> R a b.
Proof. intros S. revert n. induction S as [|x l S IH F]; intros [|n]; cbn.
  - split; [constructor|]. intros a b [].
  - split; [constructor|]. intros a b [].
  - split; [constructor|]. intros a b [].
  - destruct (IH n) as [I1 I2]. rewrite Forall_forall in F. split.
    + constructor; [exact I1|]. rewrite Forall_forall. intros y Hy. apply F. rewrite <- (firstn_skipn n l). apply in_app_iff. auto.
    + intros a b [<-|Ha] Hb; [|apply I2; auto]. apply F. rewrite <- (firstn_skipn n l). apply in_app_iff. auto. Qed.
Lemma StronglySorted_map {X Y} (R : Y -> Y -> Prop) (f : X -> Y) l : StronglySorted (fun a b => R (f a) (f b)) l -> StronglySorted R (map f l).
Proof. induction 1 as [|x l S IH F]; cbn; constructor; auto. rewrite Forall_forall in *. intros y Hy. apply in_map_iff in Hy. destruct Hy as (z & <- & Hz). auto. Qed.
Lemma nearest_spec (g : graph) x n : wf g -> (1 <= n)%Z -> (forall l, Permutation (srt l) l /\ StronglySorted (fun a b => le (fst a) (fst b)) (srt l)) ->
  let others := filter (fun m => negb (eqb m x)) (nodes g) in
  match n_nearest_neighbours dist srt g x n with
  | Ok None => others = []
  | Ok (Some r) => others <> [] /\ NoDup r /\ length r = Nat.min (Z.to_nat n) (length others) /\ (forall y, In y r -> In y others) /\
      StronglySorted (fun a b => le (dist x a) (dist x b)) r /\ (forall y z, In y r -> In z others -> ~ In z r -> le (dist x y) (dist x z))
  | _ => False
  end.
Proof. intros W Hn HS others. unfold n_nearest_neighbours. destruct (Z.ltb_spec n 1); [lia|]. fold others. destruct (HS (map (fun m => (dist x m, m)) others)) as [P S].
  remember (srt (map (fun m => (dist x m, m)) others)) as d eqn:Ed. assert (Permutation (map snd d) others) as P'. { rewrite (Permutation_map snd P), map_map, map_id. reflexivity. }
  assert (d = map (fun m => (dist x m, m)) (map snd d)) as Ed'.
  { clear - P. rewrite map_map. rewrite <- (map_id d) at 1. apply map_ext_in. intros [a m] Hi. apply (Permutation_in _ P) in Hi. apply in_map_iff in Hi. destruct Hi as (m' & E & _). inversion E. reflexivity. }
  assert (NoDup (map snd d)) as HD. { rewrite P'. apply NoDup_filter', W. }
  assert (StronglySorted (fun a b => le (dist x a) (dist x b)) (map snd d)) as S'.
  { apply (StronglySorted_map (fun a b => le (dist x a) (dist x b)) snd). clear - S P. assert (forall e, In e d -> fst e = dist x (snd e)) as HE.
    { intros e He. apply (Permutation_in _ P) in He. apply in_map_iff in He. destruct He as (m & <- & _). reflexivity. }
    clear P. induction S as [|e d S IH F]; constructor; [apply IH; intros; apply HE; right; assumption|]. rewrite Forall_forall in *. intros e' He'. rewrite <- (HE e), <- (HE e'); [apply F, He'|right; exact He'|left; reflexivity]. }
  clear Ed. destruct d as [|e d'] eqn:Ed0; [cbn in P'; apply Permutation_nil in P'; exact P'|]. rewrite <- Ed0 in *. 
  destruct (StronglySorted_firstn _ _ (Z.to_nat n) S') as [S1 S2]. splits; auto.
  - intros E. rewrite E in P'. apply Permutation_sym, Permutation_nil in P'. rewrite Ed0 in P'. discriminate.
  - rewrite <- (firstn_skipn (Z.to_nat n) (map snd d)) in HD. apply NoDup_app_iff in HD. tauto.
  - rewrite firstn_length, (Permutation_length P'). reflexivity.
  - intros y Hy. apply (Permutation_in _ P'). rewrite <- (firstn_skipn (Z.to_nat n) (map snd d)). apply in_app_iff. auto.
  - intros y z Hy Hz Hnz. apply S2; [exact Hy|]. apply (Permutation_in _ (Permutation_sym P')) in Hz. rewrite <- (firstn_skipn (Z.to_nat n) (map snd d)) in Hz. apply in_app_iff in Hz. tauto. Qed.
End Near.
