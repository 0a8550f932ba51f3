(** When additions are exact on the numbers that occur, the travelling salesman heuristics take the same steps as on integers. *)
From Verif Require Import Prelude PreludeFacts Base BaseFacts BaseFacts2 BaseFacts3 Spec SpecFacts Loop SearchFacts BaseAlgFacts Sp SpFacts Perms TspSpec Tsp TspFacts TspGreedy TspOpt GSp GTspSpec GTsp GTspFacts.
Open Scope nat_scope.

(** [rel w z]: the number w stands for z; operations are exact as long as the results stay in -M..M *)
Record exact_upto {W} (tar : tsp_arith W) (rel : W -> Z -> Prop) (M : Z) : Prop := mkExact {
  x_zero : rel (a_zero (ta tar)) 0%Z;
  x_add : forall x a y b, rel x a -> rel y b -> (Z.abs (a + b) <= M)%Z -> rel (a_add (ta tar) x y) (a + b)%Z;
  x_neg : forall x a, rel x a -> rel (ta_neg tar x) (- a)%Z;
  x_ltb : forall x a y b, rel x a -> rel y b -> a_ltb (ta tar) x y = (a <? b)%Z;
  x_eqb : forall x a y b, rel x a -> rel y b -> a_eqb (ta tar) x y = (a =? b)%Z;
  x_sum : forall vs zs, Forall2 rel vs zs -> (fold_right Z.add 0 (map Z.abs zs) <= M)%Z -> rel (ta_sum tar vs) (fold_right Z.add 0 zs)%Z }.

Lemma segments2_order n i j : In (i, j) (segments2 n) -> i <= j.
Proof. unfold segments2. intros H. apply in_flat_map in H. destruct H as (len & _ & H). apply in_map_iff in H. destruct H as (k & E & _). injection E as <- <-. lia. Qed.
Section Sim.
Context {A O W : Type} {EA : EqDec A} (tar : tsp_arith W) (rel : W -> Z -> Prop) (M V : Z) (X : exact_upto tar rel M).
Notation ar := (ta tar).
Context (g' : graph A O W) (g : graph A O Z) (Wf : wf g) (Hns : nodes g' = nodes g).
Context (He : forall x y, match edge g' x y, edge g x y with Some w, Some z => rel w z /\ (Z.abs z <= V)%Z | None, None => True | _, _ => False end).
Context (HC : complete g).
Notation n := (length (nodes g)).
Context (Hn : 2 <= n) (HV : (0 <= V)%Z) (HM : (6 * Z.of_nat n * Z.of_nat n * Z.of_nat n * V <= M)%Z).
Implicit Types t : list A.

Lemma nV k : (0 <= k <= 6 * Z.of_nat n * Z.of_nat n * Z.of_nat n)%Z -> (k * V <= M)%Z.
Proof. intros H. apply Z.le_trans with (6 * Z.of_nat n * Z.of_nat n * Z.of_nat n * V)%Z; [|exact HM]. apply Z.mul_le_mono_nonneg_r; lia. Qed.
Lemma n3 : (4 <= Z.of_nat n * Z.of_nat n /\ Z.of_nat n * 4 <= Z.of_nat n * Z.of_nat n * Z.of_nat n)%Z.
Proof. split; nia. Qed.

(** *** lengths *)
Lemma values_sim ps : match gvalues g' ps, esum g ps with
  | Ok vs, Ok z => exists zs, Forall2 rel vs zs /\ z = fold_right Z.add 0%Z zs /\ Forall (fun z => (Z.abs z <= V)%Z) zs /\ length zs = length ps
  | Err e, Err e' => e = e' | _, _ => False end.
Proof. rewrite esum_psum. induction ps as [|p ps IH]; cbn [gvalues psum]; [exists []; splits; [constructor|reflexivity|constructor|reflexivity]|].
  specialize (He (fst p) (snd p)). destruct (edge g' (fst p) (snd p)) as [w|], (edge g (fst p) (snd p)) as [z|]; try contradiction; [|reflexivity].
  destruct (gvalues g' ps) as [vs|e|], (psum g ps) as [s|]; cbn [bind]; try contradiction; [|exact IH]. destruct IH as (zs & H1 & -> & H2 & H3). destruct He as [K1 K2]. exists (z :: zs). splits; [constructor; assumption|reflexivity|constructor; assumption|cbn; lia]. Qed.
Lemma abs_sum zs : Forall (fun z => (Z.abs z <= V)%Z) zs -> (fold_right Z.add 0 (map Z.abs zs) <= Z.of_nat (length zs) * V /\ Z.abs (fold_right Z.add 0 zs) <= Z.of_nat (length zs) * V)%Z.
Proof. induction zs as [|z zs IH]; intros H; [cbn; lia|]. apply Forall_cons_iff in H. destruct H as [H1 H2]. destruct (IH H2) as [I1 I2]. cbn [map fold_right length]. rewrite Nat2Z.inj_succ. lia. Qed.
Lemma zipwalk_length t : length (zipwalk t) = length t.
Proof. destruct t as [|h r]; [reflexivity|]. cbn [zipwalk length]. rewrite combine_length. cbn [length]. lia. Qed.
Lemma dist_sim t : hamiltonian g t -> exists w z, gdistance tar g' t = Ok w /\ distance g t = Ok z /\ rel w z /\ (Z.abs z <= Z.of_nat n * V)%Z.
Proof. intros Ht. pose proof (dist_total g Wf HC Hn t Ht) as D. pose proof (values_sim (zipwalk t)) as K. unfold gdistance. unfold distance in *. rewrite D in K. destruct (gvalues g' (zipwalk t)) as [vs|e|]; try contradiction. destruct K as (zs & K1 & K2 & K3 & K4).
  destruct (abs_sum zs K3) as [S1 S2]. rewrite K4, zipwalk_length, (Permutation_length Ht) in S1, S2. cbn [bind]. do 2 eexists. splits; [reflexivity|exact D| |rewrite K2; exact S2]. rewrite K2. apply (x_sum _ _ _ X); [exact K1|]. eapply Z.le_trans; [exact S1|]. apply nV. pose proof n3. nia. Qed.
Lemma distret_sim t : hamiltonian g t -> exists w z, gdistance_ret tar g' t = Ok w /\ distance_ret g t = Ok z /\ rel w z.
Proof. intros Ht. destruct (dist_sim t Ht) as (w & z & D1 & D2 & D3 & D4). destruct (distret_total g Wf HC Hn t Ht) as [d E]. unfold gdistance_ret. unfold distance_ret in *. unfold distance in D2. rewrite D1. rewrite D2 in E |- *. cbn [bind] in E |- *. destruct t as [|h r]; [discriminate|].
  specialize (He (last (h :: r) h) h). destruct (edge g' (last (h :: r) h) h) as [w'|], (edge g (last (h :: r) h) h) as [z'|]; try contradiction; [|discriminate]. destruct He as [K1 K2]. do 2 eexists. splits; [reflexivity|reflexivity|]. apply (x_add _ _ _ X); auto. eapply Z.le_trans; [apply Z.abs_triangle|]. eapply Z.le_trans; [apply Z.add_le_mono; [exact D4|exact K2]|].
  replace (Z.of_nat n * V + V)%Z with ((Z.of_nat n + 1) * V)%Z by ring. apply nV. pose proof n3. nia. Qed.

(** *** relocation *)
Lemma opt1_sim t : hamiltonian g t -> gopt1 tar g' t = opt1 g t.
Proof. intros Ht. unfold gopt1, opt1. destruct (distret_sim t Ht) as (w & z & -> & -> & H3). cbn [bind].
  match goal with |- bind (foldM ?f _ _) _ = bind (foldM ?h _ _) _ => assert (forall l0 w z p, rel w z -> exists w' z' p', foldM f l0 (w, p) = Ok (w', p') /\ foldM h l0 (z, p) = Ok (z', p') /\ rel w' z') as K end.
  { clear w z H3. intros l; induction l as [|[i j] l IH]; intros w z p H; cbn [foldM]; [do 3 eexists; splits; eauto|]. cbn [fst snd].
    assert (hamiltonian g (relocate t i j)) as Hr by (unfold hamiltonian; rewrite relocate_perm; exact Ht). destruct (distret_sim _ Hr) as (w1 & z1 & -> & -> & H1). cbn [bind]. rewrite (x_ltb _ _ _ X w1 z1 w z H1 H). destruct (z1 <? z)%Z; apply IH; assumption. }
  destruct (K (list_prod (seq 0 (length t)) (seq 0 (length t))) w z t H3) as (w' & z' & p' & -> & -> & _). reflexivity. Qed.

(** *** 2-exchange *)
Lemma truthy_sim x y : match gtruthy ar (edge g' x y), truthy (edge g x y) with Some w, Some z => rel w z /\ (Z.abs z <= V)%Z | None, None => True | _, _ => False end.
Proof. specialize (He x y). destruct (edge g' x y) as [w|], (edge g x y) as [z|]; try contradiction; cbn [gtruthy truthy]; [|exact Logic.I]. rewrite (x_eqb _ _ _ X w z _ 0%Z (proj1 He) (x_zero _ _ _ X)). destruct (z =? 0)%Z; [exact Logic.I|exact He]. Qed.
Lemma opt2_try_sim st ij : gopt2_try tar g' st ij = opt2_try g st ij.
Proof. destruct st as [t any], ij as [i j]. unfold gopt2_try, opt2_try. destruct t as [|h r]; [reflexivity|]. set (t := h :: r). cbv zeta.
  set (a := nth (prev (length t) i) t h). set (b := nth i t h). set (c := nth (j - 1) t h). set (d := nth (j mod length t) t h).
  pose proof (truthy_sim a b) as K1. pose proof (truthy_sim c d) as K2. pose proof (truthy_sim a c) as K3. pose proof (truthy_sim b d) as K4.
  destruct (gtruthy ar (edge g' a b)) as [w1|], (truthy (edge g a b)) as [z1|]; try contradiction; [|reflexivity].
  destruct (gtruthy ar (edge g' c d)) as [w2|], (truthy (edge g c d)) as [z2|]; try contradiction; [|reflexivity].
  destruct (gtruthy ar (edge g' a c)) as [w3|], (truthy (edge g a c)) as [z3|]; try contradiction; [|reflexivity].
  destruct (gtruthy ar (edge g' b d)) as [w4|], (truthy (edge g b d)) as [z4|]; try contradiction; [|reflexivity].
  destruct K1 as [K1 B1], K2 as [K2 B2], K3 as [K3 B3], K4 as [K4 B4]. assert (2 * V <= M)%Z as H2 by (apply nV; pose proof n3; nia).
  rewrite (x_ltb _ _ _ X _ (z3 + z4)%Z _ (z1 + z2)%Z); [reflexivity| |]; apply (x_add _ _ _ X); auto; lia. Qed.
Lemma opt2_pass_sim l : forall st, fold_left (gopt2_try tar g') l st = fold_left (opt2_try g) l st.
Proof. induction l as [|ij l IH]; intros st; cbn [fold_left]; [reflexivity|]. rewrite opt2_try_sim. apply IH. Qed.
Lemma opt2_sim fuel t : hamiltonian g t -> gopt2 tar fuel g' t = opt2 fuel g t.
Proof. intros Ht. unfold gopt2, opt2. destruct (dist_sim t Ht) as (w & z & -> & -> & H3 & _). cbn [bind]. generalize [(t, 1)] as c, 0 as inc. assert (forall p t1, hamiltonian g t1 -> forall w z, rel w z -> forall c inc, loop fuel (gopt2_step tar g') (t1, p, w, c, inc) = loop fuel (opt2_step g) (t1, p, z, c, inc)) as K; [|intros; apply K; assumption].
  clear t w z Ht H3. induction fuel as [|fuel IH]; intros p t Ht w z H c inc; [reflexivity|]. cbn [loop]. unfold gopt2_step at 1, opt2_step at 1. rewrite opt2_pass_sim.
  pose proof (opt2_pass_perm g (segments2 (length t))) as HP. specialize (HP ltac:(intros [i j] H0; exact (segments2_order _ _ _ H0)) (t, false)).
  destruct (fold_left (opt2_try g) (segments2 (length t)) (t, false)) as [t2 any]. cbn [fst] in HP. assert (hamiltonian g t2) as Ht2 by (unfold hamiltonian; rewrite HP; exact Ht). destruct (dist_sim t2 Ht2) as (w2 & z2 & -> & -> & H2 & _).
  rewrite (x_ltb _ _ _ X w2 z2 w z H2 H). destruct (z2 <? z)%Z; destruct any; cbn [negb]; try reflexivity; destruct (_ && _); try reflexivity; apply IH; assumption. Qed.

(** *** 3-exchange *)
Lemma pair_sim t p q h : hamiltonian g t -> p < n -> q < n -> p <> q -> rel (gdmax tar g' (nth p t h) (nth q t h)) (dmax g (nth p t h) (nth q t h)) /\ (Z.abs (dmax g (nth p t h) (nth q t h)) <= V)%Z.
Proof. intros Ht Hp Hq Hpq. pose proof (Permutation_length Ht) as HL. pose proof (Permutation_NoDup (Permutation_sym Ht) (wf_nodes _ Wf)) as ND. assert (nth p t h <> nth q t h) as Hne. { intros C. apply Hpq. apply (proj1 (NoDup_nth t h) ND); [rewrite HL; exact Hp|rewrite HL; exact Hq|exact C]. }
  assert (forall k, k < n -> In (nth k t h) (nodes g)) as Hin by (intros k Hk; apply (Permutation_in _ Ht), nth_In; rewrite HL; exact Hk).
  destruct (HC _ _ (Hin p Hp) (Hin q Hq) Hne) as (v & E & _). specialize (He (nth p t h) (nth q t h)). unfold gdmax, dmax. rewrite E in *. destruct (edge g' (nth p t h) (nth q t h)) as [w|]; [exact He|contradiction]. Qed.
Lemma sum3_sim x a y b z c : rel x a -> rel y b -> rel z c -> (Z.abs a <= V)%Z -> (Z.abs b <= V)%Z -> (Z.abs c <= V)%Z -> rel (a_add ar (a_add ar x y) z) (a + b + c)%Z /\ (Z.abs (a + b + c) <= 3 * V)%Z.
Proof. intros H1 H2 H3 B1 B2 B3. assert (3 * V <= M)%Z as H by (apply nV; pose proof n3; nia). split; [|lia]. apply (x_add _ _ _ X); [apply (x_add _ _ _ X); auto; lia|exact H3|lia]. Qed.
Lemma opt3_try_sim t delta delta' i j k b : hamiltonian g t -> i + 2 <= j -> j + 2 <= k -> k <= n -> (i = 0 -> k < n) -> rel delta delta' -> (Z.abs delta' <= b)%Z -> (b + 6 * V <= M)%Z ->
  exists t2 w z, gopt3_try tar g' (t, delta) (i, j, k) = (t2, w) /\ opt3_try g (t, delta') (i, j, k) = (t2, z) /\ rel w z /\ (Z.abs z <= b + 6 * V)%Z /\ hamiltonian g t2.
Proof. intros Ht H1 H2 H3 H4 Hr Hb HB. pose proof (Permutation_length Ht) as HL. unfold gopt3_try, opt3_try. destruct t as [|h r]; [cbn in HL; lia|]. set (t := h :: r) in *. cbv zeta. rewrite HL.
  assert (i <= j /\ j <= k /\ k <= length t) as HO by (rewrite HL; clear - H1 H2 H3; lia). destruct HO as (HO1 & HO2 & HO3).
  assert (Permutation (rev_seg t i j) t) as Q1 by (apply rev_seg_perm; clear - HO1 HO2 HO3; lia). assert (Permutation (rev_seg t j k) t) as Q2 by (apply rev_seg_perm; clear - HO1 HO2 HO3; lia). assert (Permutation (rev_seg t i k) t) as Q4 by (apply rev_seg_perm; clear - HO1 HO2 HO3; lia).
  pose proof (exchange_perm g Hn t i j k HO1 HO2) as Q3.
  set (p1 := prev n i). set (p6 := k mod n). assert (p1 < n /\ p1 <> i /\ p1 <> j - 1 /\ p1 <> j /\ p1 <> k - 1) as P1 by (unfold p1, prev; destruct i; lia).
  assert (p6 < n /\ p6 <> k - 1 /\ p6 <> j /\ p6 <> j - 1 /\ p6 <> i) as P6. { unfold p6. destruct (Nat.eq_dec k n) as [E|E]; [rewrite E, Nat.mod_same by lia; lia|rewrite Nat.mod_small by lia; lia]. }
  clearbody p1 p6. pose proof (fun p q => pair_sim t p q h Ht) as K.
  assert (forall p1 q1 p2 q2 p3 q3, p1 < n -> q1 < n -> p1 <> q1 -> p2 < n -> q2 < n -> p2 <> q2 -> p3 < n -> q3 < n -> p3 <> q3 ->
    let N k := nth k t h in rel (a_add ar (a_add ar (gdmax tar g' (N p1) (N q1)) (gdmax tar g' (N p2) (N q2))) (gdmax tar g' (N p3) (N q3))) (dmax g (N p1) (N q1) + dmax g (N p2) (N q2) + dmax g (N p3) (N q3))%Z /\
      (Z.abs (dmax g (N p1) (N q1) + dmax g (N p2) (N q2) + dmax g (N p3) (N q3)) <= 3 * V)%Z) as KS.
  { intros. apply sum3_sim; apply K; assumption. }
  clear K. cbv zeta in KS.
  destruct (KS p1 i (j - 1) j (k - 1) p6) as [D0 B0]; try (clear - P1 P6 H1 H2 H3 H4; lia). destruct (KS p1 (j - 1) i j (k - 1) p6) as [D1 B1]; try (clear - P1 P6 H1 H2 H3 H4; lia). destruct (KS p1 i (j - 1) (k - 1) j p6) as [D2 B2]; try (clear - P1 P6 H1 H2 H3 H4; lia). destruct (KS p1 j (k - 1) i (j - 1) p6) as [D3 B3]; try (clear - P1 P6 H1 H2 H3 H4; lia). destruct (KS p6 i (j - 1) j (k - 1) p1) as [D4 B4]; try (clear - P1 P6 H1 H2 H3 H4; lia). clear KS.
  revert D0 D1 D2 D3 D4 B0 B1 B2 B3 B4.
  generalize (a_add ar (a_add ar (gdmax tar g' (nth p1 t h) (nth i t h)) (gdmax tar g' (nth (j - 1) t h) (nth j t h))) (gdmax tar g' (nth (k - 1) t h) (nth p6 t h))) as e0.
  generalize (a_add ar (a_add ar (gdmax tar g' (nth p1 t h) (nth (j - 1) t h)) (gdmax tar g' (nth i t h) (nth j t h))) (gdmax tar g' (nth (k - 1) t h) (nth p6 t h))) as e1.
  generalize (a_add ar (a_add ar (gdmax tar g' (nth p1 t h) (nth i t h)) (gdmax tar g' (nth (j - 1) t h) (nth (k - 1) t h))) (gdmax tar g' (nth j t h) (nth p6 t h))) as e2.
  generalize (a_add ar (a_add ar (gdmax tar g' (nth p1 t h) (nth j t h)) (gdmax tar g' (nth (k - 1) t h) (nth i t h))) (gdmax tar g' (nth (j - 1) t h) (nth p6 t h))) as e3.
  generalize (a_add ar (a_add ar (gdmax tar g' (nth p6 t h) (nth i t h)) (gdmax tar g' (nth (j - 1) t h) (nth j t h))) (gdmax tar g' (nth (k - 1) t h) (nth p1 t h))) as e4.
  generalize (dmax g (nth p1 t h) (nth i t h) + dmax g (nth (j - 1) t h) (nth j t h) + dmax g (nth (k - 1) t h) (nth p6 t h))%Z as z0.
  generalize (dmax g (nth p1 t h) (nth (j - 1) t h) + dmax g (nth i t h) (nth j t h) + dmax g (nth (k - 1) t h) (nth p6 t h))%Z as z1.
  generalize (dmax g (nth p1 t h) (nth i t h) + dmax g (nth (j - 1) t h) (nth (k - 1) t h) + dmax g (nth j t h) (nth p6 t h))%Z as z2.
  generalize (dmax g (nth p1 t h) (nth j t h) + dmax g (nth (k - 1) t h) (nth i t h) + dmax g (nth (j - 1) t h) (nth p6 t h))%Z as z3.
  generalize (dmax g (nth p6 t h) (nth i t h) + dmax g (nth (j - 1) t h) (nth j t h) + dmax g (nth (k - 1) t h) (nth p1 t h))%Z as z4.
  intros z4 z3 z2 z1 z0 e4 e3 e2 e1 e0 D0 D1 D2 D3 D4 B0 B1 B2 B3 B4.
  (* the choice so far: nothing, or a tour with its length *)
  set (R := fun (m' : W * option (list A)) (m : Z * list A) => rel (fst m') (fst m) /\ (Z.abs (fst m) <= 3 * V)%Z /\ match snd m' with None => snd m = t /\ fst m = z0 | Some t2 => snd m = t2 /\ hamiltonian g t2 end).
  assert (forall m' m e z t2, R m' m -> rel e z -> (Z.abs z <= 3 * V)%Z -> Permutation t2 t -> R (if a_ltb ar e (fst m') then (e, Some t2) else m') (if (z <? fst m)%Z then (z, t2) else m)) as Step.
  { intros m' m e z t2 (R1 & R2 & R3) Hez Hz Hp. rewrite (x_ltb _ _ _ X e z (fst m') (fst m) Hez R1). destruct (z <? fst m)%Z; unfold R; cbn [fst snd]; splits; auto. unfold hamiltonian. rewrite Hp. exact Ht. }
  assert (R (e0, None) (z0, t)) as S0 by (unfold R; cbn [fst snd]; splits; auto).
  pose proof (Step _ _ e1 z1 (rev_seg t i j) S0 D1 B1 Q1) as S1. pose proof (Step _ _ e2 z2 (rev_seg t j k) S1 D2 B2 Q2) as S2. pose proof (Step _ _ e3 z3 _ S2 D3 B3 Q3) as S3. pose proof (Step _ _ e4 z4 (rev_seg t i k) S3 D4 B4 Q4) as S4.
  match type of S4 with R ?x ?y => set (m' := x) in *; set (m := y) in * end. clearbody m' m. clear S0 S1 S2 S3 Step. destruct S4 as (R1 & R2 & R3). destruct m' as [e [t2|]], m as [z t3]; cbn [fst snd] in *.
  - destruct R3 as [-> R3]. do 3 eexists. splits; [reflexivity|reflexivity| |clear - R2 B0 Hb; lia|exact R3]. replace (z - z0)%Z with (- z0 + z)%Z by ring. apply (x_add _ _ _ X); [exact Hr| |clear - R2 B0 Hb HB; lia]. apply (x_add _ _ _ X); [apply (x_neg _ _ _ X), D0|exact R1|clear - R2 B0 Hb HB; lia].
  - destruct R3 as [-> ->]. do 3 eexists. splits; [reflexivity|reflexivity| |clear - R2 B0 Hb; lia|exact Ht]. replace (z0 - z0)%Z with 0%Z by ring. apply (x_add _ _ _ X); [exact Hr|apply (x_zero _ _ _ X)|clear - R2 B0 Hb HB; lia]. Qed.
Lemma opt3_pass_sim l : forall t delta delta' b, hamiltonian g t -> (forall i j k, In (i, j, k) l -> i + 2 <= j /\ j + 2 <= k /\ k <= n /\ (i = 0 -> k < n)) -> rel delta delta' -> (Z.abs delta' <= b)%Z -> (b + Z.of_nat (length l) * (6 * V) <= M)%Z ->
  exists t2 w z, fold_left (gopt3_try tar g') l (t, delta) = (t2, w) /\ fold_left (opt3_try g) l (t, delta') = (t2, z) /\ rel w z /\ hamiltonian g t2.
Proof. induction l as [|[[i j] k] l IH]; intros t delta delta' b Ht Hl Hr Hb HB; cbn [fold_left]; [exists t, delta, delta'; splits; auto|].
  destruct (Hl i j k (or_introl eq_refl)) as (L1 & L2 & L3 & L4). cbn [length] in HB. rewrite Nat2Z.inj_succ in HB. destruct (opt3_try_sim t delta delta' i j k b Ht L1 L2 L3 L4 Hr Hb) as (t2 & w & z & -> & -> & K1 & K2 & K3); [nia|].
  apply (IH t2 w z (b + 6 * V)%Z K3); auto; [intros; apply Hl; right; assumption|lia]. Qed.
Lemma segments3_len m : length (segments3 m) <= m * m * m.
Proof. unfold segments3. assert (forall (f : nat -> list (nat * nat * nat)) l b, (forall x, In x l -> length (f x) <= b) -> length (flat_map f l) <= length l * b) as F.
  { intros f l b. induction l as [|x l IH]; intros H; cbn [flat_map length]; [lia|]. rewrite app_length. specialize (H x (or_introl eq_refl)) as H0. assert (length (flat_map f l) <= length l * b) by (apply IH; intros; apply H; right; assumption). lia. }
  eapply Nat.le_trans; [apply (F _ _ (m * m))|rewrite seq_length; nia]. intros i _. eapply Nat.le_trans; [apply (F _ _ m)|rewrite seq_length; nia]. intros j _. rewrite map_length, seq_length. destruct (i =? 0); lia. Qed.
Lemma opt3_sim fuel t : hamiltonian g t -> gopt3 tar fuel g' t = opt3 fuel g t.
Proof. intros Ht. unfold gopt3, opt3. destruct (dist_sim t Ht) as (w & z & -> & -> & H3 & _). cbn [bind]. assert (forall p t1, hamiltonian g t1 -> forall w z, rel w z -> loop fuel (gopt3_step tar g') (t1, p, w) = loop fuel (opt3_step g) (t1, p, z)) as K; [|apply K; assumption].
  clear t w z Ht H3. induction fuel as [|fuel IH]; intros p t Ht w z H; [reflexivity|]. cbn [loop]. unfold gopt3_step at 1, opt3_step at 1.
  destruct (opt3_pass_sim (segments3 (length t)) t (a_zero ar) 0%Z 0%Z Ht) as (t2 & w2 & z2 & -> & -> & K1 & K2).
  - intros i j k Hi. pose proof (segments3_spec g Hn _ _ _ _ Hi) as S. rewrite (Permutation_length Ht) in S. exact S.
  - apply (x_zero _ _ _ X).
  - lia.
  - pose proof (segments3_len (length t)) as SL. rewrite (Permutation_length Ht) in SL at 2 3 4. rewrite Z.mul_assoc. cbn [Z.add]. apply nV. nia.
  - destruct (dist_sim t2 K2) as (w3 & z3 & -> & -> & K3 & _). rewrite (x_ltb _ _ _ X w3 z3 w z K3 H). unfold g_leb. rewrite (x_ltb _ _ _ X _ _ _ _ (x_zero _ _ _ X) K1), (x_eqb _ _ _ X _ _ _ _ (x_zero _ _ _ X) K1).
    replace ((0 <? z2)%Z || (0 =? z2)%Z) with (0 <=? z2)%Z by (destruct (Z.ltb_spec 0 z2), (Z.eqb_spec 0 z2), (Z.leb_spec 0 z2); cbn; try reflexivity; lia).
    destruct (z3 <? z)%Z; destruct (0 <=? z2)%Z; try reflexivity; apply IH; assumption. Qed.

Lemma opt3_tour fuel t : hamiltonian g t -> match opt3 fuel g t with Ok t' => hamiltonian g t' | Err _ => False | OutOfFuel => True end.
Proof. intros Ht. unfold opt3. destruct (dist_sim t Ht) as (w & z & _ & -> & _). cbn [bind]. assert (forall p t1 z, hamiltonian g p -> hamiltonian g t1 -> match loop fuel (opt3_step g) (t1, p, z) with Ok t' => hamiltonian g t' | Err _ => False | OutOfFuel => True end) as K; [|apply K; assumption].
  clear t w z Ht. induction fuel as [|fuel IH]; intros p t z Hp Ht; [exact Logic.I|]. cbn [loop]. unfold opt3_step at 1.
  destruct (opt3_pass_sim (segments3 (length t)) t (a_zero ar) 0%Z 0%Z Ht) as (t2 & w2 & z2 & _ & -> & K1 & K2).
  - intros i j k Hi. pose proof (segments3_spec g Hn _ _ _ _ Hi) as S. rewrite (Permutation_length Ht) in S. exact S.
  - apply (x_zero _ _ _ X).
  - lia.
  - pose proof (segments3_len (length t)) as SL. rewrite (Permutation_length Ht) in SL at 2 3 4. rewrite Z.mul_assoc. cbn [Z.add]. apply nV. nia.
  - destruct (dist_sim t2 K2) as (w3 & z3 & _ & -> & K3 & _). destruct (z3 <? z)%Z; destruct (0 <=? z2)%Z; try assumption; apply IH; assumption. Qed.

(** *** the greedy start and the whole functions *)
Context (srt' : list (W * (A * A)) -> list (W * (A * A))) (srt : list (Z * (A * A)) -> list (Z * (A * A))).
Context (Hsrt : forall l' l, Forall2 (fun x y => rel (fst x) (fst y) /\ snd x = snd y) l' l -> Forall2 (fun x y => rel (fst x) (fst y) /\ snd x = snd y) (srt' l') (srt l)).
Lemma greedy_loop_sim m l' : forall l, Forall2 (fun (x : W * (A * A)) (y : Z * (A * A)) => rel (fst x) (fst y) /\ snd x = snd y) l' l -> forall ep seg, ggreedy_loop m l' ep seg = greedy_loop m l ep seg.
Proof. induction l' as [|[w [a b]] l' IH]; intros l F; inversion F as [|x y q q' F1 F2]; subst; intros ep seg; [reflexivity|]. destruct y as [z ab]. destruct F1 as [_ F1]. cbn [snd] in F1. subst ab. cbn [ggreedy_loop greedy_loop]. specialize (IH _ F2). destruct (dget a ep) as [sa|]; [|apply IH]. destruct (dget b ep) as [sb|]; [|apply IH]. destruct (list_eq_dec eq_dec sa sb); [apply IH|]. destruct (join ep sa sb a b) as [ep' seg']. destruct (length seg' =? m); [reflexivity|apply IH]. Qed.
Lemma greedy_sim : ggreedy tar srt' g' = greedy srt g.
Proof. unfold ggreedy, greedy. rewrite Hns. rewrite (greedy_loop_sim n (srt' (ggreedy_pairs tar g')) (srt (greedy_pairs g))); [reflexivity|]. apply Hsrt. unfold ggreedy_pairs, greedy_pairs. rewrite Hns. induction (pairs_of (nodes g)) as [|p ps IH]; cbn [flat_map]; [constructor|].
  apply Forall2_app; [|exact IH]. pose proof (truthy_sim (fst p) (snd p)) as K. destruct (gtruthy ar (edge g' (fst p) (snd p))), (truthy (edge g (fst p) (snd p))); try contradiction; constructor; [|constructor]. cbn. tauto. Qed.
Definition res_rel (x : res (W * list A)) (y : res (Z * list A)) : Prop :=
  match x, y with Ok (w, t), Ok (z, s) => rel w z /\ t = s | Err e, Err f => e = f | OutOfFuel, OutOfFuel => True | _, _ => False end.
Lemma tsp_greedy_sim fuel : (forall l, Permutation (srt l) l) -> res_rel (gtsp_greedy tar srt' fuel g') (tsp_greedy srt fuel g).
Proof. intros Hp. unfold gtsp_greedy, tsp_greedy. rewrite greedy_sim. destruct (greedy_ok srt Hp g Wf HC Hn) as (t0 & -> & H0). cbn [bind]. destruct (dist_sim t0 H0) as (w0 & z0 & -> & -> & R0 & _). cbn [bind]. rewrite (opt2_sim fuel t0 H0). destruct (opt2_ok g Wf HC Hn t0 H0) as (t1 & (_ & _ & R1) & H1 & _). destruct (R1 fuel) as [-> | ->]; cbn [bind]; [exact Logic.I|].
  destruct (dist_sim t1 H1) as (w1 & z1 & -> & -> & R2 & _). cbn [bind]. unfold g_leb. rewrite (x_ltb _ _ _ X w1 z1 w0 z0 R2 R0), (x_eqb _ _ _ X w1 z1 w0 z0 R2 R0).
  replace ((z1 <? z0)%Z || (z1 =? z0)%Z) with (z1 <=? z0)%Z by (destruct (Z.ltb_spec z1 z0), (Z.eqb_spec z1 z0), (Z.leb_spec z1 z0); cbn; try reflexivity; lia). destruct (z1 <=? z0)%Z; cbn; auto. Qed.
Context (first' : list (W * list A) -> W * list A) (first : list (Z * list A) -> Z * list A).
Context (Hfirst : forall l' l, l <> [] -> Forall2 (fun x y => rel (fst x) (fst y) /\ snd x = snd y) l' l -> rel (fst (first' l')) (fst (first l)) /\ snd (first' l') = snd (first l)).
Lemma tsp_2023_sim fuel : (forall l, Permutation (srt l) l) -> 7 <= n -> res_rel (gtsp_2023 tar srt' first' fuel g') (tsp_2023 srt first fuel g).
Proof. intros Hp H7. unfold gtsp_2023, tsp_2023. rewrite Hns. replace (n <? 7) with false by (symmetry; apply Nat.ltb_ge; exact H7). rewrite greedy_sim. destruct (greedy_ok srt Hp g Wf HC Hn) as (t0 & -> & H0). cbn [bind]. destruct (dist_sim t0 H0) as (w0 & z0 & -> & -> & R0 & _). cbn [bind].
  rewrite (opt1_sim t0 H0). destruct (opt1_ok g Wf HC Hn t0 H0) as (t1 & -> & H1). cbn [bind]. destruct (dist_sim t1 H1) as (w1 & z1 & -> & -> & R1 & _). cbn [bind].
  rewrite (opt2_sim fuel t1 H1). destruct (opt2_ok g Wf HC Hn t1 H1) as (t2 & (_ & _ & Q2) & H2 & _). destruct (Q2 fuel) as [-> | ->]; cbn [bind]; [exact Logic.I|]. destruct (dist_sim t2 H2) as (w2 & z2 & -> & -> & R2 & _). cbn [bind].
  rewrite (opt3_sim fuel t2 H2). pose proof (opt3_tour fuel t2 H2) as H3. destruct (opt3 fuel g t2) as [t3|e|]; cbn [bind]; [|contradiction|exact Logic.I]. destruct (dist_sim t3 H3) as (w3 & z3 & -> & -> & R3 & _). cbn [bind].
  destruct (Hfirst [(w0, t0); (w1, t1); (w2, t2); (w3, t3)] [(z0, t0); (z1, t1); (z2, t2); (z3, t3)]) as [F1 F2]; [discriminate|repeat (constructor; [cbn; auto|]); constructor|].
  destruct (first' [(w0, t0); (w1, t1); (w2, t2); (w3, t3)]) as [w t], (first [(z0, t0); (z1, t1); (z2, t2); (z3, t3)]) as [z s]. cbn [res_rel fst snd] in *. auto. Qed.
End Sim.
