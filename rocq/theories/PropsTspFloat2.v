(** C91, continued: on floats that add up exactly (multiples of one power of two that are not too large, such as whole numbers),
    the travelling salesman heuristics take the same steps as on integers, so tsp_2023 ends and reports the exact length. *)
From Coq Require Import ZArith SpecFloat.
From Verif Require Import Prelude PreludeFacts Base BaseFacts BaseFacts2 BaseFacts3 Spec SpecFacts Loop SearchFacts BaseAlgFacts Sp SpFacts Perms TspSpec Tsp TspFacts TspGreedy TspOpt PropsTsp GSp GSpec Float64 GTspSpec GTsp GTspFacts PropsTspFloat GTspSim FloatExact GSpFacts PropsFloat.
Open Scope nat_scope.

(** the float v has the value z 2^(j - 1074) *)
Definition stands_for (j : Z) (v : spec_float) (z : Z) : Prop := valid_binary 53 1024 v = true /\ sval 53 1024 v = Some (z * 2 ^ j)%Z.
Definition sum_exact (l : list Z) : Z := fold_right Z.add 0%Z l.
(** every edge value is a multiple z 2^(j - 1074) with |z| <= V *)
Definition multiples_within {A O} {EA : EqDec A} (j V : Z) (g : graph A O spec_float) : Prop :=
  forall a b v, edge g a b = Some v -> exists z, stands_for j v z /\ (Z.abs z <= V)%Z.

Section Inst.
Context (j : Z) (Hj : (0 <= j <= 2045)%Z).
Notation rel := (stands_for j).
Notation M := (2 ^ 53 - 1)%Z.
Lemma pj : (0 < 2 ^ j)%Z. Proof. apply Z.pow_pos_nonneg; lia. Qed.
Lemma rel_zero : rel (S754_zero false) 0%Z. Proof. split; reflexivity. Qed.
Lemma rel_fits z : (Z.abs z <= M)%Z -> fits 53 1024 (z * 2 ^ j).
Proof. intros H. apply multiple_fits; try lia. change (1024 - SpecFloat.emin 53 1024)%Z with 2098%Z. lia. Qed.
Lemma rel_add x a y b : rel x a -> rel y b -> (Z.abs (a + b) <= M)%Z -> rel (SFadd 53 1024 x y) (a + b)%Z.
Proof. intros [V1 S1] [V2 S2] H. unfold stands_for. rewrite Z.mul_add_distr_r. apply sadd_spec; auto; try lia. rewrite <- Z.mul_add_distr_r. apply rel_fits, H. Qed.
Lemma rel_neg x a : rel x a -> rel (SFopp x) (- a)%Z.
Proof. intros [V1 S1]. split; [rewrite valid_opp; exact V1|]. rewrite sval_opp, S1. cbn [option_map]. f_equal. lia. Qed.
Lemma rel_sub x a y b : rel x a -> rel y b -> (Z.abs (a - b) <= M)%Z -> rel (SFsub 53 1024 x y) (a - b)%Z.
Proof. intros H1 H2 H. rewrite sub_opp. unfold Z.sub. apply rel_add; auto. apply rel_neg, H2. Qed.
Lemma rel_cmp x a y b : rel x a -> rel y b -> SFcompare x y = Some (Z.compare a b).
Proof. intros [V1 S1] [V2 S2]. rewrite (cmp_spec 53 1024 ltac:(lia) x y _ _ V1 V2 S1 S2). f_equal. symmetry. apply Zmult_compare_compat_r. pose proof pj. lia. Qed.
Lemma rel_ltb x a y b : rel x a -> rel y b -> SFltb x y = (a <? b)%Z.
Proof. intros H1 H2. unfold SFltb, Z.ltb. rewrite (rel_cmp x a y b H1 H2). reflexivity. Qed.
Lemma rel_eqb x a y b : rel x a -> rel y b -> SFeqb x y = (a =? b)%Z.
Proof. intros H1 H2. unfold SFeqb. rewrite (rel_cmp x a y b H1 H2), Z.eqb_compare. reflexivity. Qed.
Lemma left_rel vs : forall zs w a, Forall2 rel vs zs -> rel w a -> (Z.abs a + fold_right Z.add 0 (map Z.abs zs) <= M)%Z -> rel (fold_left (SFadd 53 1024) vs w) (a + sum_exact zs)%Z.
Proof. induction vs as [|v vs IH]; intros zs w a F H HM; inversion F as [|v' z vs' zs' F1 F2]; subst; cbn [fold_left sum_exact fold_right map] in *; [rewrite Z.add_0_r; exact H|]. assert (0 <= fold_right Z.add 0 (map Z.abs zs'))%Z as P by (clear; induction zs'; cbn [map fold_right]; lia).
  rewrite Z.add_assoc. apply IH; auto; [apply rel_add; auto; lia|lia]. Qed.
Lemma comp_rel vs : forall zs f c a, Forall2 rel vs zs -> rel f a -> rel c 0%Z -> (Z.abs a + fold_right Z.add 0 (map Z.abs zs) <= M)%Z ->
  let '(f', c') := fold_left comp_step vs (f, c) in rel f' (a + sum_exact zs)%Z /\ rel c' 0%Z.
Proof. induction vs as [|v vs IH]; intros zs f c a F H Hc HM; inversion F as [|v' z vs' zs' F1 F2]; subst; cbn [fold_left sum_exact fold_right map] in *; [rewrite Z.add_0_r; auto|]. assert (0 <= fold_right Z.add 0 (map Z.abs zs'))%Z as P by (clear; induction zs'; cbn [map fold_right]; lia).
  rewrite Z.add_assoc. unfold comp_step at 2. assert (rel (SFadd 53 1024 f v) (a + z)%Z) as Ht by (apply rel_add; auto; lia). apply IH; auto; [|lia].
  change 0%Z with (0 + 0)%Z. apply rel_add; [exact Hc| |cbn; lia]. destruct (SFleb (SFabs v) (SFabs f)).
  - replace 0%Z with ((a - (a + z)) + z)%Z by ring. apply rel_add; [apply rel_sub; auto; lia|exact F1|lia].
  - replace 0%Z with ((z - (a + z)) + a)%Z by ring. apply rel_add; [apply rel_sub; auto; lia|exact H|lia]. Qed.
Lemma sum_rel sum vs zs : In sum [sum_left; sum_compensated] -> Forall2 rel vs zs -> (fold_right Z.add 0 (map Z.abs zs) <= M)%Z -> rel (sum vs) (sum_exact zs).
Proof. intros Hs F HM. destruct Hs as [<-|[<-|[]]].
  - change (sum_exact zs) with (0 + sum_exact zs)%Z. apply left_rel; [exact F|apply rel_zero|lia].
  - pose proof (comp_rel vs zs (S754_zero false) (S754_zero false) 0%Z F rel_zero rel_zero ltac:(lia)) as K. unfold sum_compensated. destruct (fold_left comp_step vs (S754_zero false, S754_zero false)) as [f c]. destruct K as [K1 K2]. rewrite Z.add_0_l in K1. destruct (is_finite_nonzero c); [|exact K1]. rewrite <- (Z.add_0_r (sum_exact zs)). apply rel_add; auto. rewrite Z.add_0_r.
    eapply Z.le_trans; [|exact HM]. clear. unfold sum_exact. induction zs; cbn [fold_right map]; lia. Qed.
Lemma float_exact sum : In sum [sum_left; sum_compensated] -> exact_upto (f64_tsp sum) rel M.
Proof. intros Hs. split; cbn [ta f64_tsp ta_neg ta_sum].
  - exact rel_zero.
  - exact rel_add.
  - exact rel_neg.
  - exact rel_ltb.
  - exact rel_eqb.
  - intros. apply sum_rel; auto. Qed.
End Inst.

(** ** the graph with other values *)
Section Vmap.
Context {A O W Y : Type} {EA : EqDec A} (f : W -> Y).
Definition dmapv (d : dict A W) : dict A Y := map (fun p => (fst p, f (snd p))) d.
Definition nmapv (d : dict A (dict A W)) : dict A (dict A Y) := map (fun p => (fst p, dmapv (snd p))) d.
Definition vmap (g : graph A O W) : graph A O Y := mkG (g_nodes g) (nmapv (g_edges g)) (g_count g) (nmapv (g_rev g)) (g_indeg g) (g_outdeg g).
Lemma dget_dmapv k d : dget k (dmapv d) = option_map f (dget k d).
Proof. induction d as [|[k' v] d IH]; cbn; [reflexivity|]. destruct (eq_dec k k'); [reflexivity|exact IH]. Qed.
Lemma dget_nmapv k d : dget k (nmapv d) = option_map dmapv (dget k d).
Proof. induction d as [|[k' v] d IH]; cbn; [reflexivity|]. destruct (eq_dec k k'); [reflexivity|exact IH]. Qed.
Lemma keys_dmapv d : dkeys (dmapv d) = dkeys d.
Proof. unfold dkeys, dmapv. rewrite map_map. reflexivity. Qed.
Lemma keys_nmapv d : dkeys (nmapv d) = dkeys d.
Proof. unfold dkeys, nmapv. rewrite map_map. reflexivity. Qed.
Lemma eget_nmapv d a b : eget (nmapv d) a b = option_map f (eget d a b).
Proof. unfold eget. rewrite dget_nmapv. destruct (dget a d); cbn; [apply dget_dmapv|reflexivity]. Qed.
Lemma inner_nmapv d a : length (inner (nmapv d) a) = length (inner d a).
Proof. unfold inner. rewrite dget_nmapv. destruct (dget a d); cbn; [unfold dmapv; apply map_length|reflexivity]. Qed.
Lemma tot_nmapv d : tot (nmapv d) = tot d.
Proof. unfold tot. induction d as [|[k v] d IH]; cbn [nmapv map flat_map fst snd]; [reflexivity|]. rewrite !app_length. f_equal; [unfold dmapv; apply map_length|exact IH]. Qed.
Lemma nwf_nmapv d : nwf d -> nwf (nmapv d).
Proof. intros [H1 H2]. split; [rewrite keys_nmapv; exact H1|]. intros a o E. rewrite dget_nmapv in E. destruct (dget a d) as [o'|] eqn:E2; [|discriminate]. injection E as <-. destruct (H2 a o' E2) as [K1 K2]. rewrite keys_dmapv. split; [exact K1|]. destruct o'; [congruence|discriminate]. Qed.
Lemma wf_vmap g : wf g -> wf (vmap g).
Proof. intros []. split; cbn [vmap g_edges g_rev g_nodes g_outdeg g_indeg g_count]; auto.
  - apply nwf_nmapv, wf_e.
  - apply nwf_nmapv, wf_r.
  - intros a b. rewrite !eget_nmapv, wf_mirror. reflexivity.
  - intros a b v E. rewrite eget_nmapv in E. destruct (eget (g_edges g) a b) as [w|] eqn:E2; [|discriminate]. exact (wf_ends a b w E2).
  - intros n. rewrite inner_nmapv. apply wf_out.
  - intros n. rewrite inner_nmapv. apply wf_in.
  - rewrite tot_nmapv. exact wf_count. Qed.
Lemma edge_vmap g a b : edge (vmap g) a b = option_map f (edge g a b).
Proof. apply eget_nmapv. Qed.
End Vmap.

(** ** tsp_2023 ends *)
Lemma Forall2_len {X Y} (Q : X -> Y -> Prop) l l' : Forall2 Q l l' -> length l = length l'.
Proof. intros H. induction H; cbn; auto. Qed.
Definition zval (j : Z) (v : spec_float) : Z := match sval 53 1024 v with Some x => (x / 2 ^ j)%Z | None => 0%Z end.
Lemma zval_spec j v z : (0 <= j)%Z -> stands_for j v z -> zval j v = z.
Proof. intros Hj [_ S]. unfold zval. rewrite S. apply Z.div_mul. apply Z.pow_nonzero; lia. Qed.
Section Ends.
Context {A O : Type} {EA : EqDec A} (g : graph A O spec_float) (j V : Z) (sum : list spec_float -> spec_float).
Context (Hsum : In sum [sum_left; sum_compensated]) (Hj : (0 <= j <= 2045)%Z) (R : reachable g) (HC : gcomplete (fun v => SFeqb v (S754_zero false)) g).
Context (HM : multiples_within j V g).
Notation n := (length (nodes g)).
Context (Hn : 2 <= n) (HB : (6 * Z.of_nat n * Z.of_nat n * Z.of_nat n * V < 2 ^ 53)%Z).
Notation gz := (vmap (zval j) g).
Lemma V_pos : (0 <= V)%Z.
Proof. assert (exists x y, In x (nodes g) /\ In y (nodes g) /\ x <> y) as (x & y & H1 & H2 & H3). { pose proof (wf_nodes _ (reachable_wf _ R)) as ND. revert Hn ND. clear. destruct (nodes g) as [|x [|y l]]; cbn [length]; try lia. intros _ ND. exists x, y. splits; [left; reflexivity|right; left; reflexivity|]. apply NoDup_cons_iff in ND. intros ->. apply (proj1 ND). left. reflexivity. }
  destruct (HC x y H1 H2 H3) as (v & E & _). destruct (HM x y v E) as (z & _ & Hz). lia. Qed.
Lemma edges_rel x y : match edge g x y, edge gz x y with Some w, Some z => stands_for j w z /\ (Z.abs z <= V)%Z | None, None => True | _, _ => False end.
Proof. rewrite edge_vmap. destruct (edge g x y) as [w|] eqn:E; cbn [option_map]; [|exact Logic.I]. destruct (HM x y w E) as (z & H1 & H2). rewrite (zval_spec j w z); [auto|lia|exact H1]. Qed.
Lemma gz_complete : complete gz.
Proof. intros x y Hx Hy Hne. destruct (HC x y Hx Hy Hne) as (v & E & Hv). destruct (HM x y v E) as (z & H1 & _). exists z. rewrite edge_vmap, E. cbn [option_map]. rewrite (zval_spec j v z); [|lia|exact H1]. split; [reflexivity|]. rewrite (rel_eqb j Hj v z (S754_zero false) 0%Z H1 (rel_zero j)) in Hv. apply Z.eqb_neq in Hv. exact Hv. Qed.
Lemma gz_symmetric : gsymmetric g -> symmetric gz.
Proof. intros H x y. rewrite !edge_vmap. f_equal. apply H. Qed.
Lemma gopt3_ends t : gsymmetric g -> ghamiltonian g t -> exists t', returns (fun m => gopt3 (f64_tsp sum) m g t) (Ok t') /\ ghamiltonian g t'.
Proof. intros HS Ht. pose proof (wf_vmap (zval j) g (reachable_wf _ R)) as W. destruct (opt3_ok gz W gz_complete Hn (gz_symmetric HS) t Ht) as (t' & H1 & H2 & _). exists t'. split; [|exact H2]. refine (returns_ext _ _ _ _ H1). intros m. symmetry.
  apply (opt3_sim (f64_tsp sum) (stands_for j) (2 ^ 53 - 1) V (float_exact j Hj sum Hsum) g gz W edges_rel gz_complete Hn V_pos); [|exact Ht]. change (nodes gz) with (nodes g). lia. Qed.
Lemma exact_sum_of t vs : ghamiltonian g t -> tour_values g t vs -> exists zs, Forall2 (stands_for j) vs zs /\ stands_for j (sum vs) (sum_exact zs).
Proof. intros Ht Hv. assert (exists zs, Forall2 (stands_for j) vs zs /\ Forall (fun z => (Z.abs z <= V)%Z) zs) as (zs & F & B).
  { unfold tour_values in Hv. revert vs Hv. generalize (closed_steps t). induction l as [|p l IH]; intros vs F; inversion F as [|x v l' vs' F1 F2]; subst; [exists []; split; constructor|]. destruct (IH _ F2) as (zs & K1 & K2). destruct (HM _ _ _ F1) as (z & H1 & H2). exists (z :: zs). split; constructor; auto. }
  exists zs. split; [exact F|]. apply sum_rel; auto. assert (length zs = n) as L. { rewrite <- (Forall2_len _ _ _ F). unfold tour_values in Hv. rewrite <- (Forall2_len _ _ _ Hv). unfold closed_steps. rewrite <- (Permutation_length Ht). destruct t as [|h r]; [reflexivity|]. rewrite combine_length. cbn [length]. lia. }
  assert (fold_right Z.add 0 (map Z.abs zs) <= Z.of_nat (length zs) * V)%Z as K. { clear - B. induction B as [|z zs H B IH]; [cbn; lia|]. cbn [map fold_right length]. rewrite Nat2Z.inj_succ. lia. }
  rewrite L in K. pose proof V_pos. assert (Z.of_nat n * V <= 6 * Z.of_nat n * Z.of_nat n * Z.of_nat n * V)%Z by (apply Z.mul_le_mono_nonneg_r; nia). lia. Qed.
End Ends.

(** on a complete symmetric float graph of 7 nodes or more whose values are multiples z 2^(j-1074), |z| <= V, with 6 n^3 V < 2^53
    (whole numbers are the case j = 1074), tsp_2023 ends; the number it reports is exactly the length of the tour it returns *)
Theorem C91_2023_exact {A O} {EA : EqDec A} sum srt first (g : graph A O spec_float) j V :
  In sum [sum_left; sum_compensated] -> reorders_w srt -> picks_first (f64_tsp sum) first -> reachable g -> gcomplete (fun v => SFeqb v (S754_zero false)) g -> gsymmetric g -> 7 <= length (nodes g) ->
  multiples_within j V g -> (0 <= j <= 2045)%Z -> (6 * Z.of_nat (length (nodes g)) ^ 3 * V < 2 ^ 53)%Z ->
  exists d t vs zs, returns (fun n => gtsp_2023 (f64_tsp sum) srt first n g) (Ok (d, t)) /\ ghamiltonian g t /\ tour_values g t vs /\ Forall2 (stands_for j) vs zs /\ stands_for j d (sum_exact zs).
Proof. intros Hsum Hs Hf R HC HS Hn7 HM Hj HB. assert (2 <= length (nodes g)) as Hn by lia. pose proof (reachable_wf _ R) as W0. replace (6 * Z.of_nat (length (nodes g)) ^ 3 * V)%Z with (6 * Z.of_nat (length (nodes g)) * Z.of_nat (length (nodes g)) * Z.of_nat (length (nodes g)) * V)%Z in HB by ring.
  destruct (ggreedy_ok (f64_tsp sum) srt Hs g W0 HC Hn) as (t0 & E0 & H0). destruct (gdist_total (f64_tsp sum) g W0 HC Hn t0 H0) as (vs0 & V0 & D0).
  destruct (gopt1_ok (f64_tsp sum) g W0 HC Hn t0 H0) as (t1 & E1 & H1). destruct (gdist_total (f64_tsp sum) g W0 HC Hn t1 H1) as (vs1 & V1 & D1).
  destruct (gopt2_ok (f64_tsp sum) g W0 HC Hn t1 H1) as (t2 & R2 & H2). destruct (gdist_total (f64_tsp sum) g W0 HC Hn t2 H2) as (vs2 & V2 & D2).
  destruct (gopt3_ends g j V sum Hsum Hj R HC HM Hn HB t2 HS H2) as (t3 & R3 & H3). destruct (gdist_total (f64_tsp sum) g W0 HC Hn t3 H3) as (vs3 & V3 & D3).
  set (l := [(sum vs0, t0); (sum vs1, t1); (sum vs2, t2); (sum vs3, t3)]). destruct (Hf l) as [F1 _]; [discriminate|].
  assert (returns (fun n => gtsp_2023 (f64_tsp sum) srt first n g) (Ok (first l))) as Hr.
  { unfold gtsp_2023. replace (length (nodes g) <? 7) with false by (symmetry; apply Nat.ltb_ge; exact Hn7). rewrite E0. cbn [bind]. rewrite D0. cbn [bind]. rewrite E1. cbn [bind]. rewrite D1. cbn [bind].
    refine (returns_bind _ (fun n r => _) t2 _ R2 _). rewrite D2. cbn [bind]. refine (returns_bind _ (fun n r => _) t3 _ R3 _). rewrite D3. cbn [bind]. apply returns_const. discriminate. }
  destruct (first l) as [d t]. assert (exists vs, ghamiltonian g t /\ tour_values g t vs /\ d = sum vs) as (vs & K1 & K2 & K3) by (destruct F1 as [F|[F|[F|[F|[]]]]]; injection F as <- <-; eauto).
  destruct (exact_sum_of g j V sum Hsum Hj R HC HM Hn HB t vs K1 K2) as (zs & Z1 & Z2). exists d, t, vs, zs. splits; auto. rewrite K3. exact Z2. Qed.
(** the same for tsp_greedy, on 2 nodes or more; the graph need not be symmetric *)
Theorem C91_greedy_exact {A O} {EA : EqDec A} sum srt (g : graph A O spec_float) j V :
  In sum [sum_left; sum_compensated] -> reorders_w srt -> reachable g -> gcomplete (fun v => SFeqb v (S754_zero false)) g -> 2 <= length (nodes g) ->
  multiples_within j V g -> (0 <= j <= 2045)%Z -> (6 * Z.of_nat (length (nodes g)) ^ 3 * V < 2 ^ 53)%Z ->
  exists d t vs zs, returns (fun n => gtsp_greedy (f64_tsp sum) srt n g) (Ok (d, t)) /\ ghamiltonian g t /\ tour_values g t vs /\ Forall2 (stands_for j) vs zs /\ stands_for j d (sum_exact zs).
Proof. intros Hsum Hs R HC Hn HM Hj HB. replace (6 * Z.of_nat (length (nodes g)) ^ 3 * V)%Z with (6 * Z.of_nat (length (nodes g)) * Z.of_nat (length (nodes g)) * Z.of_nat (length (nodes g)) * V)%Z in HB by ring.
  destruct (C91_greedy_floats sum srt g Hs R HC Hn) as (d & t & vs & K0 & K1 & K2 & K3 & _). destruct (exact_sum_of g j V sum Hsum Hj R HC HM Hn HB t vs K1 K2) as (zs & Z1 & Z2). exists d, t, vs, zs. splits; auto. rewrite K3. exact Z2. Qed.

(** ** the same answer as on integers *)
Definition lstepf (b x : spec_float * list nat) := if SFltb (fst x) (fst b) then x else b.
(** the first of the shortest *)
Definition leastf (l : list (spec_float * list nat)) := fold_left lstepf l (hd (S754_zero false, []) l).
Lemma fkey_trans (e1 e2 e3 : Z) (m1 m2 m3 : positive) :
  let lt e m f k := match Z.compare e f with Lt => true | Gt => false | Eq => match Pos.compare m k with Lt => true | _ => false end end in
  lt e1 m1 e2 m2 = true -> lt e2 m2 e3 m3 = true -> lt e1 m1 e3 m3 = true.
Proof. cbv beta zeta. intros H1 H2. destruct (Z.compare_spec e1 e2); destruct (Z.compare_spec e2 e3); destruct (Z.compare_spec e1 e3); try discriminate; try reflexivity; try (exfalso; lia). destruct (Pos.compare_spec m1 m2); destruct (Pos.compare_spec m2 m3); destruct (Pos.compare_spec m1 m3); try discriminate; try reflexivity; exfalso; lia. Qed.
Lemma SFltb_trans x y z : SFltb x y = true -> SFltb y z = true -> SFltb x z = true.
Proof. unfold SFltb, SFcompare. destruct x as [[]|[]| |[] mx ex], y as [[]|[]| |[] my ey], z as [[]|[]| |[] mz ez]; try discriminate; try reflexivity; intros H1 H2.
  - pose proof (fkey_trans ez ey ex mz my mx) as K. cbv beta zeta in K. rewrite (Z.compare_antisym ex ey), (Pos.compare_antisym mx my) in K. rewrite (Z.compare_antisym ey ez), (Pos.compare_antisym my mz) in K. rewrite (Z.compare_antisym ex ez), (Pos.compare_antisym mx mz) in K.
    unfold Pos.compare in *. destruct (Z.compare ex ey), (Z.compare ey ez), (Z.compare ex ez); cbn [CompOpp] in *; try discriminate; try reflexivity; destruct (Pos.compare_cont Eq mx my), (Pos.compare_cont Eq my mz), (Pos.compare_cont Eq mx mz); cbn [CompOpp] in *; try discriminate; try reflexivity; specialize (K eq_refl eq_refl); discriminate.
  - pose proof (fkey_trans ex ey ez mx my mz) as K. cbv beta zeta in K. unfold Pos.compare in *. destruct (Z.compare ex ey), (Z.compare ey ez), (Z.compare ex ez); try discriminate; try reflexivity; destruct (Pos.compare_cont Eq mx my), (Pos.compare_cont Eq my mz), (Pos.compare_cont Eq mx mz); try discriminate; try reflexivity; specialize (K eq_refl eq_refl); discriminate. Qed.
Lemma SFltb_irrefl x : SFltb x x = false.
Proof. unfold SFltb, SFcompare. destruct x as [[]|[]| |[] m e]; try reflexivity; rewrite Z.compare_refl; change (Pos.compare_cont Eq m m) with (Pos.compare m m); rewrite Pos.compare_refl; reflexivity. Qed.
Lemma leastf_picks sum : picks_first (f64_tsp sum) leastf.
Proof. intros l Hne. destruct l as [|x0 l]; [congruence|]. clear Hne. unfold leastf. cbn [hd]. change (a_ltb (ta (f64_tsp sum))) with SFltb.
  assert (forall l b, (fold_left lstepf l b = b \/ In (fold_left lstepf l b) l) /\ (forall x, SFltb x (fst b) = false -> SFltb x (fst (fold_left lstepf l b)) = false) /\ forall y, In y l -> SFltb (fst y) (fst (fold_left lstepf l b)) = false) as K.
  { clear. intros l; induction l as [|z l IH]; intros b; cbn [fold_left]; [splits; auto; intros y []|]. unfold lstepf at 2 4 6 8. destruct (SFltb (fst z) (fst b)) eqn:E.
    - destruct (IH z) as (I1 & I2 & I3). assert (forall x, SFltb x (fst b) = false -> SFltb x (fst z) = false) as T by (intros x Hx; destruct (SFltb x (fst z)) eqn:E2; [|reflexivity]; rewrite (SFltb_trans _ _ _ E2 E) in Hx; exact Hx).
      splits; [right; destruct I1 as [->|I1]; [left; reflexivity|right; exact I1]|intros x Hx; apply I2, T, Hx|]. intros y [<-|Hy]; [apply I2, SFltb_irrefl|apply I3, Hy].
    - destruct (IH b) as (I1 & I2 & I3). splits; [destruct I1 as [->|I1]; [left; reflexivity|right; right; exact I1]|exact I2|]. intros y [<-|Hy]; [apply I2, E|apply I3, Hy]. }
  destruct (K (x0 :: l) x0) as (K1 & _ & K3). split; [destruct K1 as [->|K1]; [left; reflexivity|exact K1]|exact K3]. Qed.
Section Agree.
Context {O : Type} (gf : graph nat O spec_float) (gi : graph nat O Z) (j V : Z) (sum : list spec_float -> spec_float).
Context (Hsum : In sum [sum_left; sum_compensated]) (Hj : (0 <= j <= 2045)%Z).
Notation pr := (fun (x : spec_float * (nat * nat)) (y : Z * (nat * nat)) => stands_for j (fst x) (fst y) /\ snd x = snd y).
Lemma le3_rel x y x' y' : pr x x' -> pr y y' -> le3f x y = le3 x' y'.
Proof. destruct x as [d [a b]], y as [e [p q]], x' as [d' ab], y' as [e' pq]. cbn [fst snd]. intros [H1 <-] [H2 <-]. unfold le3f, le3. rewrite (rel_ltb j Hj d d' e e' H1 H2), (rel_eqb j Hj d d' e e' H1 H2). reflexivity. Qed.
Lemma ins3_rel x x' l : forall l', pr x x' -> Forall2 pr l l' -> Forall2 pr (ins3f x l) (ins3 x' l').
Proof. induction l as [|y l IH]; intros l' Hx F; inversion F as [|y1 y' l1 l1' F1 F2]; subst; cbn [ins3f ins3]; [constructor; [exact Hx|constructor]|]. rewrite (le3_rel x y x' y' Hx F1). destruct (le3 x' y'); constructor; [exact Hx|exact F|exact F1|apply IH; assumption]. Qed.
Lemma sort3_rel l : forall l', Forall2 pr l l' -> Forall2 pr (sort3f l) (sort3 l').
Proof. induction l as [|x l IH]; intros l' F; inversion F as [|y1 y' l1 l1' F1 F2]; subst; cbn [sort3f sort3 fold_right]; [constructor|]. apply ins3_rel; [exact F1|apply IH, F2]. Qed.
Lemma least_rel l : forall l', l' <> [] -> Forall2 (fun x y => stands_for j (fst x) (fst y) /\ snd x = snd y) l l' -> stands_for j (fst (leastf l)) (fst (least l')) /\ snd (leastf l) = snd (least l').
Proof. intros l' Hne F. unfold leastf, least. assert (forall l l' b b', Forall2 (fun x y => stands_for j (fst x) (fst y) /\ snd x = snd y) l l' -> stands_for j (fst b) (fst b') /\ snd b = snd b' -> stands_for j (fst (fold_left lstepf l b)) (fst (fold_left lstep l' b')) /\ snd (fold_left lstepf l b) = snd (fold_left lstep l' b')) as K.
  { clear - Hj. intros l; induction l as [|x l IH]; intros l' b b' F H; inversion F as [|y1 y' l1 l1' F1 F2]; subst; cbn [fold_left]; [exact H|]. apply IH; [exact F2|]. unfold lstepf, lstep. rewrite (rel_ltb j Hj _ _ _ _ (proj1 F1) (proj1 H)). destruct (fst y' <? fst b')%Z; assumption. }
  apply K; [exact F|]. destruct F as [|x y l l' F1 F2]; [congruence|exact F1]. Qed.
End Agree.
(** a float graph and an int graph with the same nodes and the same distances (up to the unit 2^(j-1074)): the same tour, and
    lengths that stand for the same number; on 7 nodes or more for tsp_2023 (which also runs forever on the same graphs) *)
Definition same_distances {O} (j V : Z) (gf : graph nat O spec_float) (gi : graph nat O Z) : Prop :=
  nodes gf = nodes gi /\ forall a b, match edge gf a b, edge gi a b with Some v, Some z => stands_for j v z /\ (Z.abs z <= V)%Z | None, None => True | _, _ => False end.
Definition same_answer (j : Z) (x : res (spec_float * list nat)) (y : res (Z * list nat)) : Prop :=
  match x, y with Ok (w, t), Ok (z, s) => stands_for j w z /\ t = s | Err e, Err f => e = f | OutOfFuel, OutOfFuel => True | _, _ => False end.
Theorem C91_integers_agree {O} sum (gf : graph nat O spec_float) (gi : graph nat O Z) j V n :
  In sum [sum_left; sum_compensated] -> reachable gi -> complete gi -> 2 <= length (nodes gi) -> same_distances j V gf gi -> (0 <= j <= 2045)%Z -> (0 <= V)%Z -> (6 * Z.of_nat (length (nodes gi)) ^ 3 * V < 2 ^ 53)%Z ->
  same_answer j (gtsp_greedy (f64_tsp sum) sort3f n gf) (tsp_greedy sort3 n gi) /\
  (7 <= length (nodes gi) -> same_answer j (gtsp_2023 (f64_tsp sum) sort3f leastf n gf) (tsp_2023 sort3 least n gi)).
Proof. intros Hsum R HC Hn [Hns He] Hj HV HB. pose proof (reachable_wf _ R) as W.
  assert (6 * Z.of_nat (length (nodes gi)) * Z.of_nat (length (nodes gi)) * Z.of_nat (length (nodes gi)) * V <= 2 ^ 53 - 1)%Z as HB2 by (replace (6 * Z.of_nat (length (nodes gi)) ^ 3 * V)%Z with (6 * Z.of_nat (length (nodes gi)) * Z.of_nat (length (nodes gi)) * Z.of_nat (length (nodes gi)) * V)%Z in HB by ring; lia).
  split.
  - exact (tsp_greedy_sim (f64_tsp sum) (stands_for j) _ V (float_exact j Hj sum Hsum) gf gi W Hns He HC Hn HV HB2 sort3f sort3 (sort3_rel j Hj) n sort3_reorders).
  - intros H7. exact (tsp_2023_sim (f64_tsp sum) (stands_for j) _ V (float_exact j Hj sum Hsum) gf gi W Hns He HC Hn HV HB2 sort3f sort3 (sort3_rel j Hj) leastf least (fun l => least_rel j Hj l) n sort3_reorders H7). Qed.

(** ** fewer than 7 nodes: brute force *)
Section Brute.
Context {A O : Type} {EA : EqDec A} (g : graph A O spec_float) (R : reachable g) (G : good_edges f64_good g) (HC : gcomplete (fun v => SFeqb v (S754_zero false)) g).
Notation E := (edge g).
Lemma walk_on h l : forall pre b acc, lpath f64 E h pre b acc -> NoDup (b :: l) -> incl (b :: l) (nodes g) -> exists d, lpath f64 E h (pre ++ l) (last (b :: l) b) d.
Proof. induction l as [|c l IH]; intros pre b acc H ND I; [exists acc; rewrite app_nil_r; exact H|]. apply NoDup_cons_iff in ND. destruct ND as [N1 N2]. destruct (HC b c) as (w & Ew & _); [apply I; left; reflexivity|apply I; right; left; reflexivity|intros ->; apply N1; left; reflexivity|].
  replace (pre ++ c :: l) with ((pre ++ [c]) ++ l) by (rewrite <- app_assoc; reflexivity). replace (last (b :: c :: l) b) with (last (c :: l) c) by (change (last (b :: c :: l) b) with (last (c :: l) b); apply last_indep). apply (IH _ c (a_add f64 acc w)); [apply lpath_snoc with b; assumption|exact N2|intros x Hx; apply I; right; exact Hx]. Qed.
Lemma round_trip h p : Permutation (h :: p) (nodes g) -> p <> [] -> exists d, lpath f64 E h ((h :: p) ++ [h]) h d.
Proof. intros Hp Hne. pose proof (Permutation_NoDup (Permutation_sym Hp) (wf_nodes _ (reachable_wf _ R))) as ND. destruct (walk_on h p [h] h _ (lpath_one f64 E h) ND) as [d Hd]; [intros x Hx; apply (Permutation_in _ Hp), Hx|].
  assert (In (last (h :: p) h) p) as Hl. { destruct p as [|c p]; [congruence|]. change (last (h :: c :: p) h) with (last (c :: p) h). destruct (exists_last (l := c :: p)) as (l' & a & ->); [discriminate|]. rewrite last_last. apply in_app_iff. right. left. reflexivity. }
  destruct (HC (last (h :: p) h) h) as (w & Ew & _); [apply (Permutation_in _ Hp); right; exact Hl|apply (Permutation_in _ Hp); left; reflexivity|intros C; apply NoDup_cons_iff in ND; apply (proj1 ND); rewrite C in Hl; exact Hl|].
  exists (a_add f64 d w). cbn [app] in Hd. apply lpath_snoc with (last (h :: p) h); assumption. Qed.
Context (sum : list spec_float -> spec_float).
Lemma gbf_spec h others : (forall r, In r others -> exists x r', r = x :: r' /\ x <> h) -> forall ps st, (forall p, In p ps -> Permutation (h :: p) (nodes g) /\ p <> []) ->
  exists st', returns (fun n => gbf_loop (f64_tsp sum) n g h (map (cons h) ps ++ others) st) (Ok st') /\ (forall x, SFltb x (fst st) = false -> SFltb x (fst st') = false) /\
    (forall p d, In p ps -> lpath f64 E h ((h :: p) ++ [h]) h d -> SFltb d (fst st') = false) /\
    (st' = st \/ exists p, In p ps /\ snd st' = Some (h :: p) /\ lpath f64 E h ((h :: p) ++ [h]) h (fst st')).
Proof. intros Ho. induction ps as [|p ps IH]; intros st Hp; cbn [map app].
  - exists st. splits; auto; [|intros p d []]. destruct others as [|r others]; [apply returns_const; discriminate|]. destruct (Ho r (or_introl eq_refl)) as (x & r' & -> & Hx). cbn [gbf_loop]. destruct (eq_dec x h); [contradiction|]. apply returns_const. discriminate.
  - destruct (Hp p (or_introl eq_refl)) as [P1 P2]. destruct (round_trip h p P1 P2) as [d Hd]. pose proof (C86_distance_from_path g h _ h d R G Hd) as Hr.
    set (st1 := if SFltb d (fst st) then (d, Some (h :: p)) else st). destruct (IH st1) as (st' & R1 & R2 & R3 & R4). { intros q Hq. apply Hp. right. exact Hq. }
    exists st'. splits.
    + cbn [gbf_loop]. destruct (eq_dec h h); [|congruence]. refine (returns_bind _ (fun n d => gbf_loop (f64_tsp sum) n g h (map (cons h) ps ++ others) (if SFltb d (fst st) then (d, Some (h :: p)) else st)) d _ Hr R1).
    + intros x Hx. apply R2. unfold st1. destruct (SFltb d (fst st)) eqn:Ed; cbn [fst]; [|exact Hx]. destruct (SFltb x d) eqn:Exd; [|reflexivity]. rewrite (SFltb_trans _ _ _ Exd Ed) in Hx. discriminate Hx.
    + intros q e [<-|Hq] He; [|apply (R3 q e Hq He)]. destruct (lpath_fun f64 E _ _ _ _ He _ _ Hd) as [_ ->]. apply R2. unfold st1. destruct (SFltb d (fst st)) eqn:Ed; cbn [fst]; [apply SFltb_irrefl|exact Ed].
    + destruct R4 as [->|(q & Q1 & Q2 & Q3)]; [|right; exists q; splits; auto; right; exact Q1]. unfold st1. destruct (SFltb d (fst st)); [|auto]. right. exists p. cbn [fst snd]. splits; auto. left. reflexivity. Qed.
End Brute.
(** d is the sum, from left to right, of the edge values along the closed tour t from its first node on *)
Definition round_length {A O} {EA : EqDec A} (g : graph A O spec_float) (t : list A) (d : spec_float) : Prop := match t with [] => False | h :: _ => lpath f64 (edge g) h (t ++ [h]) h d end.
(** on 2 to 6 nodes, with edge values that are neither negative nor NaN, tsp_2023 returns a tour whose computed length, reported
    exactly, is least among the tours that begin with the same node, if that length is below float(sys.maxsize) = 2^63 *)
Theorem C91_small_floats {A O} {EA : EqDec A} sum srt first (g : graph A O spec_float) h rest : reachable g -> good_edges f64_good g -> gcomplete (fun v => SFeqb v (S754_zero false)) g -> nodes g = h :: rest -> 2 <= length (nodes g) < 7 ->
  (exists t z, ghamiltonian g (h :: t) /\ round_length g (h :: t) z /\ SFltb z (float_of_Z (2 ^ 63)) = true) ->
  exists d t, returns (fun n => gtsp_2023 (f64_tsp sum) srt first n g) (Ok (d, h :: t)) /\ ghamiltonian g (h :: t) /\ round_length g (h :: t) d /\
    forall t' d', ghamiltonian g (h :: t') -> round_length g (h :: t') d' -> SFltb d' d = false.
Proof. intros R G HC Hns [Hn1 Hn2] (t0 & z & T1 & T2 & T3). rewrite Hns in Hn1. cbn [length] in Hn1. pose proof (wf_nodes _ (reachable_wf _ R)) as ND. rewrite Hns in ND. apply NoDup_cons_iff in ND. destruct ND as [Hh ND]. destruct (perms_split h rest Hh) as (others & Ep & Ho).
  assert (forall p, Permutation p rest -> Permutation (h :: p) (nodes g) /\ p <> []) as HP. { intros p Hp. rewrite Hns. split; [constructor; exact Hp|]. intros ->. apply Permutation_length in Hp. cbn in Hp. lia. }
  destruct (gbf_spec g R G HC sum h others Ho (permutations rest) (float_of_Z (2 ^ 63), None)) as (st & R1 & R2 & R3 & R4); [intros p Hp; apply HP, In_permutations, Hp|].
  assert (forall p, ghamiltonian g (h :: p) -> In p (permutations rest)) as HI. { intros p Hp. apply In_permutations. unfold ghamiltonian in Hp. rewrite Hns in Hp. apply (Permutation_cons_inv (a := h)), Hp. }
  destruct R4 as [->|(p & P1 & P2 & P3)].
  - specialize (R3 t0 z (HI t0 T1) T2). cbn [fst] in R3. rewrite T3 in R3. discriminate R3.
  - exists (fst st), p. splits.
    + unfold gtsp_2023. apply Nat.ltb_lt in Hn2. rewrite Hn2. unfold gbrute_force. rewrite Hns, Ep. refine (returns_bind _ (fun n st => match snd st with None => Err UnboundLocalError | Some p => Ok (fst st, p) end) st _ R1 _). rewrite P2. apply returns_const. discriminate.
    + apply HP, In_permutations, P1.
    + exact P3.
    + intros t' d' H1 H2. apply (R3 t' d'); [apply HI, H1|exact H2]. Qed.

(** *** concrete graphs: the whole numbers of m_sym as floats, and three nodes with the distances 0.1, 0.2 and 0.3 *)
Definition fmatrix_ops (m : list (list Z)) : list (op nat unit spec_float) :=
  flat_map (fun i => flat_map (fun k => if i =? k then [] else [OpAddEdge i k (float_of_Z (nth k (nth i m []) 0%Z)) false]) (seq 0 (length m))) (seq 0 (length m)).
Definition g_symf : graph nat unit spec_float := ok_or empty_graph (run (fmatrix_ops m_sym)).
Lemma g_symf_reachable : reachable g_symf.
Proof. exists (fmatrix_ops m_sym). vm_compute. reflexivity. Qed.
Definition stands_b (v : spec_float) (z : Z) : bool := valid_binary 53 1024 v && match sval 53 1024 v with Some x => Z.eqb x (z * 2 ^ 1074) | None => false end.
Lemma stands_b_ok v z : stands_b v z = true -> stands_for 1074 v z.
Proof. unfold stands_b, stands_for. intros H. apply andb_true_iff in H. destruct H as [H1 H2]. split; [exact H1|]. destruct (sval 53 1024 v); [|discriminate]. apply Z.eqb_eq in H2. rewrite H2. reflexivity. Qed.
Lemma same_check (gf : graph nat unit spec_float) gi : reachable gf -> reachable gi -> nodes gf = nodes gi ->
  forallb (fun a => forallb (fun b => match edge gf a b, edge gi a b with Some v, Some z => stands_b v z && Z.leb (Z.abs z) 9 | None, None => true | _, _ => false end) (nodes gi)) (nodes gi) = true -> same_distances 1074 9 gf gi.
Proof. intros R1 R2 Hns H. split; [exact Hns|]. intros a b. rewrite forallb_forall in H. destruct (in_dec Nat.eq_dec a (nodes gi)) as [Ha|Ha]; [destruct (in_dec Nat.eq_dec b (nodes gi)) as [Hb|Hb]|].
  - specialize (H a Ha). rewrite forallb_forall in H. specialize (H b Hb). destruct (edge gf a b), (edge gi a b); try discriminate; [|exact Logic.I]. apply andb_true_iff in H. destruct H as [H1 H2]. split; [apply stands_b_ok, H1|apply Z.leb_le, H2].
  - destruct (edge gf a b) eqn:E1; [exfalso; apply Hb; rewrite <- Hns; exact (proj2 (wf_ends _ (reachable_wf _ R1) _ _ _ E1))|]. destruct (edge gi a b) eqn:E2; [exfalso; apply Hb; exact (proj2 (wf_ends _ (reachable_wf _ R2) _ _ _ E2))|exact Logic.I].
  - destruct (edge gf a b) eqn:E1; [exfalso; apply Ha; rewrite <- Hns; exact (proj1 (wf_ends _ (reachable_wf _ R1) _ _ _ E1))|]. destruct (edge gi a b) eqn:E2; [exfalso; apply Ha; exact (proj1 (wf_ends _ (reachable_wf _ R2) _ _ _ E2))|exact Logic.I]. Qed.
Lemma symf_same : same_distances 1074 9 g_symf g_sym.
Proof. apply same_check; [apply g_symf_reachable|apply g_sym_reachable|vm_compute; reflexivity|vm_compute; reflexivity]. Qed.
Lemma symf_bound : (6 * Z.of_nat (length (nodes g_symf)) ^ 3 * 9 < 2 ^ 53)%Z.
Proof. vm_compute. reflexivity. Qed.
(** tsp_2023 ends on it and reports 15.0 *)
Example ex_2023_exact : exists d t vs zs, returns (fun n => gtsp_2023 (f64_tsp sum_compensated) sort3f leastf n g_symf) (Ok (d, t)) /\ ghamiltonian g_symf t /\ tour_values g_symf t vs /\ Forall2 (stands_for 1074) vs zs /\ stands_for 1074 d (sum_exact zs) /\ d = float_of_Z 15.
Proof. destruct (C91_2023_exact sum_compensated sort3f leastf g_symf 1074 9) as (d & t & vs & zs & H1 & H2 & H3 & H4 & H5); auto.
  - right. left. reflexivity.
  - exact sort3f_reorders.
  - apply leastf_picks.
  - apply g_symf_reachable.
  - apply gcomplete_check. vm_compute. reflexivity.
  - apply gsymmetric_check; [apply g_symf_reachable|vm_compute; reflexivity].
  - intros a b v E. pose proof (proj2 symf_same a b) as K. rewrite E in K. destruct (edge g_sym a b) as [z|]; [|contradiction]. exists z. exact K.
  - lia.
  - apply symf_bound.
  - exists d, t, vs, zs. splits; auto. assert (Ok (d, t) = gtsp_2023 (f64_tsp sum_compensated) sort3f leastf 100 g_symf) as E by (symmetry; apply (returns_of _ _ 100 H1); vm_compute; discriminate).
    assert (d = fst (ok_or (S754_zero false, []) (gtsp_2023 (f64_tsp sum_compensated) sort3f leastf 100 g_symf))) as -> by (rewrite <- E; reflexivity). vm_compute. reflexivity. Qed.
Example ex_agree n : same_answer 1074 (gtsp_2023 (f64_tsp sum_left) sort3f leastf n g_symf) (tsp_2023 sort3 least n g_sym).
Proof. apply (C91_integers_agree sum_left g_symf g_sym 1074 9 n); [left; reflexivity|apply g_sym_reachable|apply complete_check; vm_compute; reflexivity|vm_compute; lia|apply symf_same|lia|lia|vm_compute; reflexivity|vm_compute; lia]. Qed.
Definition ops_tri : list (op nat unit spec_float) := [OpAddEdge 0 1 f01 true; OpAddEdge 1 2 f02 true; OpAddEdge 2 0 f03 true].
Definition g_trif : graph nat unit spec_float := ok_or empty_graph (run ops_tri).
Example ex_small_floats sum srt first : exists d t, returns (fun n => gtsp_2023 (f64_tsp sum) srt first n g_trif) (Ok (d, 0 :: t)) /\ ghamiltonian g_trif (0 :: t) /\ round_length g_trif (0 :: t) d /\
    forall t' d', ghamiltonian g_trif (0 :: t') -> round_length g_trif (0 :: t') d' -> SFltb d' d = false.
Proof. assert (reachable g_trif) as R by (exists ops_tri; vm_compute; reflexivity). assert (nodes g_trif = [0; 1; 2]) as Hns by (vm_compute; reflexivity). apply C91_small_floats with (rest := [1; 2]); [exact R|apply good_check; [apply reachable_wf, R|vm_compute; reflexivity]|apply gcomplete_check; vm_compute; reflexivity|exact Hns|rewrite Hns; cbn; lia|].
  exists [1; 2]. exists (a_add f64 (a_add f64 (a_add f64 (a_zero f64) f01) f02) f03). splits; [unfold ghamiltonian; rewrite Hns; reflexivity| |vm_compute; reflexivity].
  apply (lpath_snoc f64 (edge g_trif) 0 [0; 1; 2] 2); [|vm_compute; reflexivity]. apply (lpath_snoc f64 (edge g_trif) 0 [0; 1] 1); [|vm_compute; reflexivity]. apply (lpath_snoc f64 (edge g_trif) 0 [0] 0); [|vm_compute; reflexivity]. apply lpath_one. Qed.
