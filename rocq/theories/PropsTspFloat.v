(** C91: the travelling salesman heuristics on floats. *)
From Coq Require Import SpecFloat.
From Verif Require Import Prelude PreludeFacts Base BaseFacts BaseFacts2 BaseFacts3 Spec SpecFacts Loop BaseAlgFacts MaxFlowFacts Sp SpFacts Perms Tsp TspFacts TspGreedy TspOpt GSp GSpec GSpFacts Float64 PropsFloat GTspSpec GTsp GTspFacts PropsTsp.
Open Scope nat_scope.

(** ** for numbers of any kind *)
Section Any.
Context {A O W : Type} {EA : EqDec A} (tar : tsp_arith W).
Notation ar := (ta tar).
Notation zero v := (a_eqb ar v (a_zero ar)).
(** list.sort() only reorders *)
Definition reorders_w (srt : list (W * (A * A)) -> list (W * (A * A))) : Prop := forall l, Permutation (srt l) l.
(** the first element of a sorted list is an element to which no element is smaller *)
Definition picks_first (first : list (W * list A) -> W * list A) : Prop := forall l, l <> [] -> In (first l) l /\ forall x, In x l -> a_ltb ar (fst x) (fst (first l)) = false.

(** tsp_greedy ends on every complete graph whatever + and < do, visits every node once, reports sum() of the edge values along
    the tour, and the tour is the greedy start tour or not longer than it *)
Theorem C91_greedy_any srt (g : graph A O W) : reorders_w srt -> reachable g -> gcomplete (fun v => zero v) g -> 2 <= length (nodes g) ->
  exists d t vs, returns (fun n => gtsp_greedy tar srt n g) (Ok (d, t)) /\ ghamiltonian g t /\ tour_values g t vs /\ d = ta_sum tar vs /\
    exists t0 vs0, ggreedy tar srt g = Ok t0 /\ ghamiltonian g t0 /\ tour_values g t0 vs0 /\
      (t = t0 \/ a_ltb ar d (ta_sum tar vs0) = true \/ a_eqb ar d (ta_sum tar vs0) = true).
Proof. intros Hs R HC Hn. pose proof (reachable_wf _ R) as W0. destruct (ggreedy_ok tar srt Hs g W0 HC Hn) as (t0 & E0 & H0). destruct (gdist_total tar g W0 HC Hn t0 H0) as (vs0 & V0 & D0).
  destruct (gopt2_ok tar g W0 HC Hn t0 H0) as (t1 & R1 & H1). destruct (gdist_total tar g W0 HC Hn t1 H1) as (vs1 & V1 & D1).
  set (b := g_leb tar (ta_sum tar vs1) (ta_sum tar vs0)). assert (returns (fun n => gtsp_greedy tar srt n g) (Ok (if b then (ta_sum tar vs1, t1) else (ta_sum tar vs0, t0)))) as Hr.
  { unfold gtsp_greedy. rewrite E0. cbn [bind]. rewrite D0. cbn [bind]. refine (returns_bind _ (fun n r => _) t1 _ R1 _). rewrite D1. cbn [bind]. apply returns_const. discriminate. }
  destruct b eqn:Eb; unfold b in Eb.
  - exists (ta_sum tar vs1), t1, vs1. splits; auto. exists t0, vs0. splits; auto. right. unfold g_leb in Eb. apply orb_true_iff in Eb. exact Eb.
  - exists (ta_sum tar vs0), t0, vs0. splits; auto. exists t0, vs0. splits; auto. Qed.
(** tsp_2023 on 7 nodes or more.  Partial: it need not end (below); it never raises, and what it returns is a tour with its sum()
    that is not longer than the greedy start tour *)
Theorem C91_2023_any_partial srt first (g : graph A O W) n : reorders_w srt -> picks_first first -> reachable g -> gcomplete (fun v => zero v) g -> 7 <= length (nodes g) ->
  match gtsp_2023 tar srt first n g with
  | Ok (d, t) => exists vs t0 vs0, ghamiltonian g t /\ tour_values g t vs /\ d = ta_sum tar vs /\
      ggreedy tar srt g = Ok t0 /\ ghamiltonian g t0 /\ tour_values g t0 vs0 /\ a_ltb ar (ta_sum tar vs0) d = false
  | Err _ => False
  | OutOfFuel => True
  end.
Proof. intros Hs Hf R HC Hn7. assert (2 <= length (nodes g)) as Hn by lia. pose proof (reachable_wf _ R) as W0. destruct (ggreedy_ok tar srt Hs g W0 HC Hn) as (t0 & E0 & H0). destruct (gdist_total tar g W0 HC Hn t0 H0) as (vs0 & V0 & D0).
  destruct (gopt1_ok tar g W0 HC Hn t0 H0) as (t1 & E1 & H1). destruct (gdist_total tar g W0 HC Hn t1 H1) as (vs1 & V1 & D1).
  destruct (gopt2_ok tar g W0 HC Hn t1 H1) as (t2 & R2 & H2). destruct (gdist_total tar g W0 HC Hn t2 H2) as (vs2 & V2 & D2).
  unfold gtsp_2023. replace (length (nodes g) <? 7) with false by (symmetry; apply Nat.ltb_ge; exact Hn7). rewrite E0. cbn [bind]. rewrite D0. cbn [bind]. rewrite E1. cbn [bind]. rewrite D1. cbn [bind].
  destruct R2 as (_ & _ & R2). destruct (R2 n) as [-> | ->]; cbn [bind]; [exact Logic.I|]. rewrite D2. cbn [bind]. pose proof (gopt3_tour tar g W0 HC Hn t2 H2 n) as H3. destruct (gopt3 tar n g t2) as [t3|e|]; cbn [bind]; [|exact H3|exact Logic.I].
  destruct (gdist_total tar g W0 HC Hn t3 H3) as (vs3 & V3 & D3). rewrite D3. cbn [bind].
  set (l := [(ta_sum tar vs0, t0); (ta_sum tar vs1, t1); (ta_sum tar vs2, t2); (ta_sum tar vs3, t3)]). destruct (Hf l) as [F1 F2]; [discriminate|]. specialize (F2 (ta_sum tar vs0, t0) (or_introl eq_refl)). cbn [fst] in F2.
  destruct (first l) as [d t]. cbn [fst] in F2.
  assert (exists vs, ghamiltonian g t /\ tour_values g t vs /\ d = ta_sum tar vs) as (vs & K1 & K2 & K3) by (destruct F1 as [F|[F|[F|[F|[]]]]]; injection F as <- <-; eauto).
  exists vs, t0, vs0. splits; auto. Qed.
End Any.

(** ** floats *)
(** sum() of floats before Python 3.12: from left to right, each partial sum rounded *)
Definition sum_left (vs : list spec_float) : spec_float := fold_left (SFadd 53 1024) vs (S754_zero false).
(** ... and since: Neumaier's compensated summation *)
Definition comp_step (st : spec_float * spec_float) (x : spec_float) : spec_float * spec_float :=
  let '(f, c) := st in
  let t := SFadd 53 1024 f x in
  (t, SFadd 53 1024 c (if SFleb (SFabs x) (SFabs f) then SFadd 53 1024 (SFsub 53 1024 f t) x else SFadd 53 1024 (SFsub 53 1024 x t) f)).
Definition is_finite_nonzero (x : spec_float) : bool := match x with S754_finite _ _ _ => true | _ => false end.
Definition sum_compensated (vs : list spec_float) : spec_float :=
  let '(f, c) := fold_left comp_step vs (S754_zero false, S754_zero false) in if is_finite_nonzero c then SFadd 53 1024 f c else f.
(** the floats, with a way to sum; float(sys.maxsize) = 2^63 *)
Definition float_of_Z (z : Z) : spec_float := binary_normalize 53 1024 z 0 false.
Definition f64_tsp (sum : list spec_float -> spec_float) : tsp_arith spec_float := mkTA f64 SFopp (float_of_Z (2 ^ 63)) sum.

(** tsp_greedy on floats: edge values may even be negative, infinite or NaN *)
Theorem C91_greedy_floats {A O} {EA : EqDec A} sum srt (g : graph A O spec_float) : reorders_w srt -> reachable g -> gcomplete (fun v => SFeqb v (S754_zero false)) g -> 2 <= length (nodes g) ->
  exists d t vs, returns (fun n => gtsp_greedy (f64_tsp sum) srt n g) (Ok (d, t)) /\ ghamiltonian g t /\ tour_values g t vs /\ d = sum vs /\
    exists t0 vs0, ggreedy (f64_tsp sum) srt g = Ok t0 /\ ghamiltonian g t0 /\ tour_values g t0 vs0 /\ (t = t0 \/ SFleb d (sum vs0) = true).
Proof. intros Hs R HC Hn. destruct (C91_greedy_any (f64_tsp sum) srt g Hs R HC Hn) as (d & t & vs & H1 & H2 & H3 & H4 & t0 & vs0 & H5 & H6 & H7 & H8). exists d, t, vs. splits; auto. exists t0, vs0. splits; auto.
  destruct H8 as [H8|H8]; [left; exact H8|right]. unfold SFleb. change (SFltb d (sum vs0) = true \/ SFeqb d (sum vs0) = true) in H8. unfold SFltb, SFeqb in H8. destruct (SFcompare d (sum vs0)) as [[]|]; destruct H8; congruence. Qed.

(** *** the reported number is the exact length of the tour up to rounding *)
Lemma steps_lpath {A W} {ar : arith W} (E : A -> A -> option W) a l : forall p b vs d, lpath ar E a p b d ->
  Forall2 (fun s v => E (fst s) (snd s) = Some v) (combine (b :: l) l) vs -> lpath ar E a (p ++ l) (last (b :: l) b) (fold_left (a_add ar) vs d).
Proof. induction l as [|c l IH]; intros p b vs d H F; [inversion F; subst; cbn; rewrite app_nil_r; exact H|]. change (combine (b :: c :: l) (c :: l)) with ((b, c) :: combine (c :: l) l) in F. inversion F as [|x v ps ws F1 F2]; subst. cbn [fst snd] in F1. cbn [fold_left].
  replace (p ++ c :: l) with ((p ++ [c]) ++ l) by (rewrite <- app_assoc; reflexivity). assert (last (b :: c :: l) b = last (c :: l) c) as -> by (change (last (b :: c :: l) b) with (last (c :: l) b); apply last_indep). apply IH; [|exact F2]. apply lpath_snoc with b; assumption. Qed.
(** the exact sum of floats, in units of 2^-1074 *)
Definition exact_sum (vs : list spec_float) : ext := fold_left (fun acc v => ext_add acc (ival 53 1024 v)) vs (Fin 0).
Lemma sum_near {A O} {EA : EqDec A} (g : graph A O spec_float) t vs : good_edges f64_good g -> tour_values g t vs -> t <> [] ->
  match exact_sum vs with
  | Inf => ival 53 1024 (sum_left vs) = Inf
  | Fin x => (0 <= x)%Z /\ match ival 53 1024 (sum_left vs) with
             | Fin D => (x * (P - 1) ^ Z.of_nat (length t) <= D * P ^ Z.of_nat (length t) <= x * (P + 1) ^ Z.of_nat (length t))%Z
             | Inf => (B * P ^ Z.of_nat (length t) <= x * (P + 1) ^ Z.of_nat (length t))%Z
             end
  end.
Proof. intros G V Hne. destruct t as [|h r]; [congruence|]. clear Hne. unfold tour_values, closed_steps in V. set (t := h :: r) in *. set (a := last t h) in *.
  assert (lpath f64 (edge g) a ([a] ++ t) (last (a :: t) a) (sum_left vs)) as L by (apply (steps_lpath (ar := f64) (edge g) a t [a] a vs (a_zero f64)); [apply lpath_one|exact V]).
  assert (lpath exact (fun u v => option_map (ival 53 1024) (edge g u v)) a ([a] ++ t) (last (a :: t) a) (fold_left ext_add (map (ival 53 1024) vs) (Fin 0))) as L2.
  { apply (steps_lpath (ar := exact)); [apply (lpath_one exact)|]. clear L. clearbody a t. revert vs V. generalize (combine (a :: t) t) as ps. induction ps as [|p ps IH]; intros vs V; inversion V as [|x v l l' V1 V2]; subst; cbn [map]; constructor; auto. rewrite V1. reflexivity. }
  destruct (near g a _ _ _ G L) as (X & HX & Hb). destruct (lpath_fun exact _ _ _ _ _ HX _ _ L2) as [_ ->].
  assert (fold_left ext_add (map (ival 53 1024) vs) (Fin 0) = exact_sum vs) as Es. { unfold exact_sum. generalize (Fin 0). clear. induction vs as [|v vs IH]; intros e; cbn [map fold_left]; auto. }
  rewrite Es in Hb. replace (length ([a] ++ t) - 1) with (length t) in Hb by (cbn [app length]; lia). exact Hb. Qed.
(** for edge values that are neither negative nor NaN, and k nodes, the reported number d and the exact length x of the returned
    tour satisfy x (1 - 2^-53)^k <= d <= x (1 + 2^-53)^k, unless the sum overflows to infinity (x (1 + 2^-53)^k >= 2^1024) *)
Theorem C91_greedy_length_near {A O} {EA : EqDec A} srt (g : graph A O spec_float) : reorders_w srt -> reachable g -> good_edges f64_good g -> gcomplete (fun v => SFeqb v (S754_zero false)) g -> 2 <= length (nodes g) ->
  exists d t vs, returns (fun n => gtsp_greedy (f64_tsp sum_left) srt n g) (Ok (d, t)) /\ ghamiltonian g t /\ tour_values g t vs /\
    let k := Z.of_nat (length (nodes g)) in
    match exact_sum vs with
    | Inf => ival 53 1024 d = Inf
    | Fin x => match ival 53 1024 d with
               | Fin D => (x * (2 ^ 53 - 1) ^ k <= D * (2 ^ 53) ^ k <= x * (2 ^ 53 + 1) ^ k)%Z
               | Inf => (2 ^ (1024 + 1074) * (2 ^ 53) ^ k <= x * (2 ^ 53 + 1) ^ k)%Z
               end
    end.
Proof. intros Hs R G HC Hn. destruct (C91_greedy_floats sum_left srt g Hs R HC Hn) as (d & t & vs & H1 & H2 & H3 & -> & _). exists (sum_left vs), t, vs. splits; auto.
  cbv zeta. rewrite <- (Permutation_length H2). assert (t <> []) as Hne. { intros ->. apply Permutation_length in H2. cbn in H2. lia. }
  pose proof (sum_near g t vs G H3 Hne) as K. change (2 ^ (1024 - SpecFloat.emin 53 1024))%Z with (2 ^ (1024 + 1074))%Z in K. destruct (exact_sum vs) as [x|]; [|exact K]. destruct K as [_ K]. exact K. Qed.

(** *** tsp_2023 need not end *)
(** 7 points with whole coordinates, and their Euclidean distances, correctly rounded *)
Definition grid_points : list (Z * Z) := [(4, 4); (1, 2); (0, 5); (2, 6); (0, 4); (2, 4); (1, 3)]%Z.
Definition float_dist (p q : Z * Z) : spec_float := SFsqrt 53 1024 (float_of_Z ((fst p - fst q) ^ 2 + (snd p - snd q) ^ 2)).
Definition points_ops (ps : list (Z * Z)) : list (op nat unit spec_float) :=
  flat_map (fun i => flat_map (fun j => if i =? j then [] else [OpAddEdge i j (float_dist (nth i ps (0, 0)%Z) (nth j ps (0, 0)%Z)) false]) (seq 0 (length ps))) (seq 0 (length ps)).
Definition g_points : graph nat unit spec_float := ok_or empty_graph (run (points_ops grid_points)).
Lemma g_points_reachable : reachable g_points.
Proof. exists (points_ops grid_points). vm_compute. reflexivity. Qed.
Definition sfe (x y : spec_float) : bool :=
  match x, y with
  | S754_zero a, S754_zero b => Bool.eqb a b
  | S754_infinity a, S754_infinity b => Bool.eqb a b
  | S754_nan, S754_nan => true
  | S754_finite a m e, S754_finite b n f => Bool.eqb a b && Pos.eqb m n && Z.eqb e f
  | _, _ => false
  end.
Lemma sfe_eq x y : sfe x y = true -> x = y.
Proof. destruct x, y; cbn; try discriminate; auto; rewrite ?andb_true_iff, ?Bool.eqb_true_iff, ?Pos.eqb_eq, ?Z.eqb_eq; [congruence|congruence|]. intros [[-> ->] ->]. reflexivity. Qed.
(** Python's order of (distance, a, b) triples, and insertion sort by it *)
Definition le3f (x y : spec_float * (nat * nat)) : bool :=
  let '(d, (a, b)) := x in let '(e, (p, q)) := y in SFltb d e || (SFeqb d e && ((a <? p) || ((a =? p) && (b <=? q)))).
Fixpoint ins3f x l := match l with [] => [x] | y :: r => if le3f x y then x :: y :: r else y :: ins3f x r end.
Definition sort3f l := fold_right ins3f [] l.
Lemma sort3f_reorders : reorders_w sort3f.
Proof. intros l. induction l as [|x l IH]; [reflexivity|]. cbn [sort3f fold_right]. fold (sort3f l). rewrite <- IH at 2. generalize (sort3f l). clear. intros l. induction l as [|y l IH]; [reflexivity|]. cbn [ins3f]. destruct (le3f x y); [reflexivity|]. rewrite IH. apply perm_swap. Qed.
Definition gcomplete_b (g : graph nat unit spec_float) : bool := forallb (fun x => forallb (fun y => (x =? y) || match edge g x y with Some v => negb (SFeqb v (S754_zero false)) | None => false end) (nodes g)) (nodes g).
Lemma gcomplete_check g : gcomplete_b g = true -> gcomplete (fun v => SFeqb v (S754_zero false)) g.
Proof. intros H x y Hx Hy Hne. unfold gcomplete_b in H. rewrite forallb_forall in H. specialize (H x Hx). rewrite forallb_forall in H. specialize (H y Hy). apply orb_true_iff in H. destruct H as [H|H]; [apply Nat.eqb_eq in H; contradiction|]. destruct (edge g x y) as [v|]; [|discriminate]. exists v. split; [reflexivity|]. apply negb_true_iff in H. exact H. Qed.
Definition gsymmetric_b (g : graph nat unit spec_float) : bool := forallb (fun e => match edge g (snd (fst e)) (fst (fst e)) with Some v => sfe v (snd e) | None => false end) (edges g).
Lemma gsymmetric_check g : reachable g -> gsymmetric_b g = true -> gsymmetric g.
Proof. intros R H. pose proof (reachable_wf _ R) as W. unfold gsymmetric_b in H. rewrite forallb_forall in H. assert (forall x y v, edge g x y = Some v -> edge g y x = Some v) as K.
  { intros x y v E. specialize (H (x, y, v) (proj2 (In_edges g x y v W) E)). cbn in H. destruct (edge g y x); [|discriminate]. apply sfe_eq in H. subst. reflexivity. }
  intros x y. destruct (edge g x y) as [v|] eqn:E; [symmetry; apply K, E|]. destruct (edge g y x) as [v|] eqn:E2; [|reflexivity]. apply K in E2. congruence. Qed.
Definition stf_eqb (x y : list nat * list nat * spec_float) : bool := if eq_dec (fst (fst x)) (fst (fst y)) then if eq_dec (snd (fst x)) (snd (fst y)) then sfe (snd x) (snd y) else false else false.
Lemma stf_eqb_eq x y : stf_eqb x y = true -> x = y.
Proof. unfold stf_eqb. destruct x as [[a b] c], y as [[d e] f]. cbn [fst snd]. destruct (eq_dec a d); [|discriminate]. destruct (eq_dec b e); [|discriminate]. intros H. apply sfe_eq in H. subst. reflexivity. Qed.
Definition okb {X} (r : res X) : bool := match r with Ok _ => true | _ => false end.
(** tsp_2023 up to _opt3 *)
Definition before3 sum (g : graph nat unit spec_float) : list nat := ok_or [] (t <- ggreedy (f64_tsp sum) sort3f g ;; t1 <- gopt1 (f64_tsp sum) g t ;; gopt2 (f64_tsp sum) 50 g t1).
Definition cycles_b sum (g : graph nat unit spec_float) : bool :=
  let t := before3 sum g in
  (2 <=? length t) &&
  match gdistance (f64_tsp sum) g t with
  | Ok d => let l := orbit (gopt3_step (f64_tsp sum) g) 40 (t, t, d) in forallb (fun s => match gopt3_step (f64_tsp sum) g s with inl s' => existsb (stf_eqb s') l | inr _ => false end) l
  | _ => false
  end.
Lemma cycles_diverge sum (g : graph nat unit spec_float) : reachable g -> gcomplete (fun v => SFeqb v (S754_zero false)) g -> 7 <= length (nodes g) -> cycles_b sum g = true ->
  forall first, diverges (fun n => gtsp_2023 (f64_tsp sum) sort3f first n g).
Proof. intros R HC Hn7 HB first n. assert (2 <= length (nodes g)) as Hn by lia. pose proof (reachable_wf _ R) as W0. set (tar := f64_tsp sum) in *. assert (gcomplete (fun v => a_eqb (ta tar) v (a_zero (ta tar))) g) as HC' by exact HC. clear HC.
  destruct (ggreedy_ok tar sort3f sort3f_reorders g W0 HC' Hn) as (t0 & E0 & H0). destruct (gdist_total tar g W0 HC' Hn t0 H0) as (vs0 & V0 & D0).
  destruct (gopt1_ok tar g W0 HC' Hn t0 H0) as (t1 & E1 & H1). destruct (gdist_total tar g W0 HC' Hn t1 H1) as (vs1 & V1 & D1).
  destruct (gopt2_ok tar g W0 HC' Hn t1 H1) as (t2 & R2 & H2). destruct (gdist_total tar g W0 HC' Hn t2 H2) as (vs2 & V2 & D2).
  unfold gtsp_2023. replace (length (nodes g) <? 7) with false by (symmetry; apply Nat.ltb_ge; exact Hn7). rewrite E0. cbn [bind]. rewrite D0. cbn [bind]. rewrite E1. cbn [bind]. rewrite D1. cbn [bind].
  unfold cycles_b in HB. fold tar in HB. assert (before3 sum g = ok_or [] (gopt2 tar 50 g t1)) as Eb by (unfold before3; fold tar; rewrite E0; cbn [bind]; rewrite E1; reflexivity). cbv zeta in HB. apply andb_true_iff in HB. destruct HB as [HL HB].
  assert (before3 sum g = t2) as Et. { pose proof (returns_of _ _ 50 R2) as E3. cbv beta in E3. rewrite Eb. rewrite E3; [reflexivity|]. intros C. rewrite Eb, C in HL. cbn in HL. discriminate HL. }
  rewrite Et in HB. clear Eb HL Et. rewrite D2 in HB. destruct R2 as (_ & _ & R2). destruct (R2 n) as [-> | ->]; [reflexivity|]. cbn [bind]. rewrite D2. cbn [bind]. assert (gopt3 tar n g t2 = OutOfFuel) as ->; [|reflexivity].
  unfold gopt3. rewrite D2. cbn [bind]. apply (cycle_diverges (gopt3_step tar g) stf_eqb _ stf_eqb_eq HB). left. reflexivity. Qed.
(** the distances between 7 points of a grid are a complete, symmetric graph with positive float values on which tsp_2023, the
    default of solve_tsp, never ends, however sum() adds; tsp_greedy ends on it *)
Theorem C91_2023_floats_refuted : reachable g_points /\ gcomplete (fun v => SFeqb v (S754_zero false)) g_points /\ gsymmetric g_points /\ length (nodes g_points) = 7 /\
  (forall a b v, edge g_points a b = Some v -> SFltb (S754_zero false) v = true /\ SFltb v (S754_infinity false) = true) /\
  (forall first, diverges (fun n => gtsp_2023 (f64_tsp sum_left) sort3f first n g_points)) /\
  (forall first, diverges (fun n => gtsp_2023 (f64_tsp sum_compensated) sort3f first n g_points)).
Proof. pose proof g_points_reachable as R. assert (gcomplete (fun v => SFeqb v (S754_zero false)) g_points) as HC by (apply gcomplete_check; vm_compute; reflexivity). assert (length (nodes g_points) = 7) as Hn by (vm_compute; reflexivity).
  splits; [exact R|exact HC|apply gsymmetric_check; [exact R|vm_compute; reflexivity]|exact Hn| | |].
  - intros a b v E. assert (forallb (fun e => SFltb (S754_zero false) (snd e) && SFltb (snd e) (S754_infinity false)) (edges g_points) = true) as K by (vm_compute; reflexivity). rewrite forallb_forall in K. specialize (K (a, b, v) (proj2 (In_edges _ a b v (reachable_wf _ R)) E)). apply andb_true_iff in K. exact K.
  - apply cycles_diverge; [exact R|exact HC|rewrite Hn; lia|vm_compute; reflexivity].
  - apply cycles_diverge; [exact R|exact HC|rewrite Hn; lia|vm_compute; reflexivity]. Qed.
