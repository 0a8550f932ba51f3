(** C42, C43, C44 with the search that maximum_flow really does: shortest_path on the floats 1 / c. *)
From Coq Require Import SpecFloat.
From Verif Require Import Prelude PreludeFacts Base BaseFacts BaseFacts2 BaseFacts3 Spec SpecFacts Loop SearchFacts
  BaseAlgFacts Sp SpFacts FlowSpec Flow FlowFacts MaxFlowFacts GSp GSpec GSpFacts Float64 PropsFloat PropsFlow.
Local Open Scope Z_scope.

Section Simple.
Context {A O W : Type} {EA : EqDec A} (ar : arith W).
Notation graph := (graph A O W).
Implicit Types (g : graph) (s e : A).
Lemma ghmin_perm {P} (q : list (W * nat * P)) : forall x m r, ghmin ar x q = (m, r) -> Permutation (x :: q) (m :: r).
Proof. induction q as [|y q IH]; intros x m r E; cbn in E; [inv E; reflexivity|]. destruct (ghlt ar y x).
  - destruct (ghmin ar y q) as [m' r'] eqn:E'. inv E. etransitivity; [apply perm_skip, IH, E'|]. apply perm_swap.
  - destruct (ghmin ar x q) as [m' r'] eqn:E'. inv E. etransitivity; [apply perm_swap|]. etransitivity; [apply perm_skip, IH, E'|]. apply perm_swap. Qed.
Lemma grelax_paths cost (path V : list A) es : forall q M i q' M' i', fold_left (gsp_relax ar cost path V) es (q, M, i) = (q', M', i') ->
  forall x, In x q' -> In x q \/ snd (snd x) = path.
Proof. induction es as [|[[u v2] d] es IH]; intros q M i q' M' i' E x Hx; cbn [fold_left] in E; [inv E; auto|].
  cbn [gsp_relax] in E. destruct (mem v2 V); [eapply IH; eauto|].
  destruct (match dget v2 M with None => true | Some prev => a_ltb ar (a_add ar cost d) prev end); [|eapply IH; eauto].
  destruct (IH _ _ _ _ _ _ E x Hx) as [[<-|H]|H]; auto. Qed.
Lemma gshortest_path_simple n g s e S0 d p : gshortest_path ar n g s e S0 = Ok (d, p) -> NoDup p.
Proof. unfold gshortest_path. destruct (negb (contains g s)); [discriminate|]. destruct (negb (contains g e)); [discriminate|]. intros EL.
  destruct (loop_partial (gsp_step ar g e) (fun st => forall x, In x (fst (fst (fst st))) -> NoDup (snd (snd x)) /\ incl (snd (snd x)) (snd st))
    (fun r => match r with Ok (d, p) => NoDup p | _ => True end)) with (n := n) (s := ([(a_zero ar, 0%nat, (s, @nil A))], [(s, a_zero ar)], 1%nat, set_of S0)) (r := Ok (d, p)) as [C|H]; [| |exact EL|discriminate|exact H].
  - intros [[[q M] i] V] H. cbn [fst snd] in H. unfold gsp_step. destruct q as [|x0 q]; [constructor|]. cbn [gheappop].
    destruct (ghmin ar x0 q) as [m r] eqn:Em. pose proof (ghmin_perm q x0 m r Em) as HP.
    destruct m as [[cost j] [v1 path]].
    assert (forall x, In x r -> NoDup (snd (snd x)) /\ incl (snd (snd x)) V) as Hr by (intros x Hx; apply H; eapply Permutation_in; [symmetry; exact HP|cbn; auto]).
    destruct (mem_spec v1 V) as [h|h]; [exact Hr|].
    destruct (H (cost, j, (v1, path))) as [H1 H2]; [eapply Permutation_in; [symmetry; exact HP|cbn; auto]|]. cbn [snd] in H1, H2.
    assert (NoDup (v1 :: path)) as Hn by (constructor; [intros C; apply h, H2, C|exact H1]).
    destruct (eq_dec v1 e) as [E|E]; [apply NoDup_rev, Hn|].
    destruct (fold_left (gsp_relax ar cost (v1 :: path) (sadd v1 V)) (edges_from g v1) (r, M, i)) as [[q' M'] i'] eqn:Ef. cbn [fst snd].
    intros x Hx. destruct (grelax_paths _ _ _ _ _ _ _ _ _ _ Ef x Hx) as [Hq| ->].
    + destruct (Hr x Hq) as [K1 K2]. split; [exact K1|]. intros z Hz. apply In_sadd. right. apply K2, Hz.
    + split; [exact Hn|]. intros z [<-|Hz]; apply In_sadd; [auto|]. right. apply H2, Hz.
  - cbn [fst snd]. intros x [<-|[]]. cbn. split; [constructor|intros z []]. Qed.
Lemma lpath_path (E : A -> A -> option W) a p b d : lpath ar E a p b d -> path (fun x y => E x y <> None) a p b.
Proof. intros H. induction H as [|p b c w d H IH Hw]; [constructor|]. apply path_snoc with b; [exact IH|congruence]. Qed.
End Simple.

(** shortest_path.py on floats as the path finder; max_flow.py:56 tests d == float("inf") *)
Definition float_dijkstra {A O} {EA : EqDec A} (fuel : nat) (h : graph A O spec_float) (s e : A) : res (option (list A)) :=
  r <- gshortest_path f64 fuel h s e [] ;; Ok (if SFeqb (fst r) (S754_infinity false) then None else Some (snd r)).
(** 1.0 *)
Definition f1 : spec_float := S754_finite false 4503599627370496 (-52).
(** a float between 0.0 and 1.0 *)
Definition unit_float (w : spec_float) : Prop := f64_good w /\ SFltb f1 w = false.
Lemma f1_good : f64_good f1.
Proof. split; vm_compute; reflexivity. Qed.
Lemma unit_val w : unit_float w -> exists z, ival 53 1024 w = Fin z /\ 0 <= z <= 2 ^ 1074.
Proof. intros [G H]. rewrite (ltb_spec 53 1024 ltac:(lia) f1 w f1_good G) in H. pose proof (ival_rep 53 1024 ltac:(lia) ltac:(lia) w G) as R.
  assert (ival 53 1024 f1 = Fin (2 ^ 1074)) as E1 by (vm_compute; reflexivity). rewrite E1 in H.
  destruct (ival 53 1024 w) as [z|]; [|discriminate]. exists z. split; [reflexivity|]. cbn [ext_ltb] in H. apply Z.ltb_ge in H. destruct R as [R _]. split; assumption. Qed.
(** sums of floats below 1.0 never exceed 2^53: there, adding 1.0 changes nothing *)
Lemma unit_sum {A O} {EA : EqDec A} (h : graph A O spec_float) a p b d : (forall x y w, edge h x y = Some w -> unit_float w) -> lpath f64 (edge h) a p b d ->
  exists z, ival 53 1024 d = Fin z /\ 0 <= z <= 2 ^ 1127.
Proof. intros U H. assert (good_edges f64_good h) as G by (intros x y w E; apply (U x y w E)).
  induction H as [|p b c w d H IH Hw]; [exists 0; split; [reflexivity|split; [lia|apply Z.pow_nonneg; lia]]|].
  destruct IH as (z & Ez & Hz). destruct (unit_val w (U _ _ _ Hw)) as (y & Ey & Hy).
  destruct (add_spec 53 1024 ltac:(lia) ltac:(lia) d w) as [_ Ea]; [eapply (lpath_good f64 f64_good f64_lawful); eauto|eapply G; eauto|].
  change (a_add f64 d w) with (SFadd 53 1024 d w). rewrite Ea, Ez, Ey. cbn [iadd].
  pose proof (rnd_mono 53 ltac:(lia) 0 (z + y) ltac:(lia) ltac:(lia)) as M0. rewrite (rnd_0 53) in M0 by lia.
  assert (z + y <= 2 ^ 1127 + 2 ^ 1074) as Hle by (apply Z.add_le_mono; [apply Hz|apply Hy]).
  pose proof (rnd_mono 53 ltac:(lia) (z + y) _ ltac:(lia) Hle) as M.
  assert (rnd 53 (2 ^ 1127 + 2 ^ 1074) = 2 ^ 1127) as Er by (vm_compute; reflexivity). rewrite Er in M.
  exists (rnd 53 (z + y)). split; [|split; assumption]. unfold ovf.
  destruct (Z.ltb_spec (rnd 53 (z + y)) (2 ^ (1024 - SpecFloat.emin 53 1024))) as [|C]; [reflexivity|exfalso].
  assert (2 ^ (1024 - SpecFloat.emin 53 1024) <= 2 ^ 1127) as C' by (eapply Z.le_trans; eauto). revert C'. vm_compute. intros C'. apply C'. reflexivity. Qed.
Lemma path_lpath {A O} {EA : EqDec A} (h : graph A O spec_float) a p b : path (has_edge h) a p b -> exists d, lpath f64 (edge h) a p b d.
Proof. revert b. induction p as [|c p IH] using rev_ind; intros b H; [inversion H|].
  destruct p as [|x p]; [cbn in *|].
  - apply path_inv1 in H. destruct H as [<- <-]. eexists. constructor.
  - apply path_snoc_inv in H; [|discriminate]. destruct H as [-> (y & Hp & v & Hv)]. destruct (IH y Hp) as [d Hd]. eexists. eapply lpath_snoc; eauto. Qed.
Lemma lpath_has {A O} {EA : EqDec A} (h : graph A O spec_float) a p b d : lpath f64 (edge h) a p b d -> path (has_edge h) a p b.
Proof. intros H. induction H as [|p b c w d H IH Hw]; [constructor|]. apply path_snoc with b; [exact IH|exists w; exact Hw]. Qed.
Theorem float_finds_paths {A O} {EA : EqDec A} : finds_paths unit_float (@float_dijkstra A O EA).
Proof. intros h s e R U Hs He. assert (good_edges f64_good h) as G by (intros x y w E; apply (U x y w E)).
  destruct (C86_shortest_path_floats h s e [] R G Hs He) as (d & p & Hr & Hp).
  exists (if SFeqb d (S754_infinity false) then None else Some p). split.
  { apply (returns_bind_ok _ (fun r => if SFeqb (fst r) (S754_infinity false) then None else Some (snd r)) (d, p) Hr). }
  destruct Hp as [(Hp & _ & _)|(-> & _ & Hno)].
  - destruct (unit_sum h s p e d U Hp) as (z & Ez & _). destruct d as [sg|sg| |sg m k]; try discriminate; cbn [SFeqb SFcompare].
    + split; [eapply lpath_has; eauto|]. destruct Hr as (_ & [N HN] & _). eapply (gshortest_path_simple f64). apply (HN N (le_n N)).
    + destruct sg; (split; [eapply lpath_has; eauto|]); destruct Hr as (_ & [N HN] & _); eapply (gshortest_path_simple f64); apply (HN N (le_n N)).
  - intros [p' Hp']. destruct (path_lpath h s p' e Hp') as [d' Hd']. apply (Hno p' d' Hd'). intros ? _ []. Qed.

(** ** 1 / c, the quotient correctly rounded (int / int in Python), is a float between 0.0 and 1.0 *)
Definition inv64 (c : Z) : spec_float :=
  let '(mz, ez, lz) := SFdiv_core_binary 53 1024 1 0 c 0 in binary_round_aux 53 1024 false mz ez lz.
Lemma rnd_le_one n : 0 <= n <= 2 ^ 1074 -> rnd 53 n <= 2 ^ 1074.
Proof. intros [H1 H2]. pose proof (rnd_mono 53 ltac:(lia) n _ H1 H2) as M. assert (rnd 53 (2 ^ 1074) = 2 ^ 1074) as E by (vm_compute; reflexivity). rewrite E in M. exact M. Qed.
Lemma unit_of x n : f64_good x -> ival 53 1024 x = ovf 53 1024 (rnd 53 n) -> 0 <= n <= 2 ^ 1074 -> unit_float x.
Proof. intros G E Hn. split; [exact G|]. rewrite (ltb_spec 53 1024 ltac:(lia) f1 x f1_good G), E.
  assert (ival 53 1024 f1 = Fin (2 ^ 1074)) as -> by (vm_compute; reflexivity). pose proof (rnd_le_one n Hn) as Hle. unfold ovf.
  destruct (Z.ltb_spec (rnd 53 n) (2 ^ (1024 - SpecFloat.emin 53 1024))) as [|C]; [apply Z.ltb_ge; exact Hle|exfalso].
  assert (2 ^ (1024 - SpecFloat.emin 53 1024) <= 2 ^ 1074) as C' by (eapply Z.le_trans; eauto). revert C'. vm_compute. intros C'. apply C'. reflexivity. Qed.
(** rounding twice is rounding once, when the mantissa needs no left shift *)
Lemma aux_exact m e : 0 < m -> -1074 <= e -> e <= SpecFloat.fexp 53 1024 (Zdigits2 m + e) -> Zdigits2 m <= 54 -> (Zdigits2 m = 54 -> m = 2 ^ 53) ->
  (let '(mrs, e') := shr_fexp 53 1024 m e loc_Exact in
   match shr_m mrs with Z0 => S754_zero false | Zpos m => if Zle_bool e' (1024 - 53) then S754_finite false m e' else S754_infinity false | _ => S754_nan end)
  = binary_round_aux 53 1024 false m e loc_Exact.
Proof. intros Hm He Hf Hd H54. unfold binary_round_aux, shr_fexp. cbn [shr_record_of_loc].
  destruct (Z.eq_dec (SpecFloat.fexp 53 1024 (Zdigits2 m + e)) e) as [E|E].
  - replace (SpecFloat.fexp 53 1024 (Zdigits2 m + e) - e) with 0 by lia. cbn [shr shr_m loc_of_shr_record round_nearest_even].
    replace (SpecFloat.fexp 53 1024 (Zdigits2 m + e) - e) with 0 by lia. reflexivity.
  - change (SpecFloat.fexp 53 1024 (Zdigits2 m + e)) with (Z.max (Zdigits2 m + e - 53) (-1074)) in *.
    assert (Zdigits2 m = 54) as D by lia. rewrite D. replace (Z.max (54 + e - 53) (-1074) - e) with 1 by lia. rewrite (H54 D).
    assert (forall e, shr {| shr_m := 2 ^ 53; shr_r := false; shr_s := false |} e 1 = ({| shr_m := 2 ^ 52; shr_r := false; shr_s := false |}, e + 1)) as Es by (intros; reflexivity).
    rewrite Es. cbn [shr_m loc_of_shr_record round_nearest_even].
    assert (Zdigits2 (2 ^ 52) = 53) as -> by reflexivity.
    replace (SpecFloat.fexp 53 1024 (53 + (e + 1)) - (e + 1)) with 0 by (unfold SpecFloat.fexp, SpecFloat.emin; lia). reflexivity. Qed.
Theorem inv64_unit c : 0 < c -> unit_float (inv64 c).
Proof. intros Hc. destruct (Zdigits_bounds c Hc) as [[B1 B2] B3]. set (d := Zdigits2 c) in *. unfold inv64, SFdiv_core_binary.
  change (Zdigits2 1) with 1. fold d. replace (1 + 0 - (d + 0)) with (1 - d) by lia. change (0 - 0) with 0.
  set (s := Z.min (d + 52) 1074).
  assert (Z.min (SpecFloat.fexp 53 1024 (1 - d)) 0 = - s) as -> by (unfold SpecFloat.fexp, SpecFloat.emin; lia).
  assert (0 < s) as Hs by lia. replace (0 - - s) with s by lia.
  assert (match s with Z0 => 1 | Zpos _ => Z.shiftl 1 s | Zneg _ => 0 end = 2 ^ s) as Em.
  { destruct s; try lia. rewrite Z.shiftl_1_l. reflexivity. }
  rewrite Em. clear Em. destruct (Z.div_eucl (2 ^ s) c) as [q r] eqn:Eq.
  assert (q = 2 ^ s / c) as Hq by (unfold Z.div; rewrite Eq; reflexivity). assert (r = 2 ^ s mod c) as Hr by (unfold Z.modulo; rewrite Eq; reflexivity).
  pose proof (Z.div_mod (2 ^ s) c ltac:(lia)) as Hdm. pose proof (Z.mod_pos_bound (2 ^ s) c Hc) as Hb. rewrite <- Hq, <- Hr in Hdm. rewrite <- Hr in Hb.
  assert (0 < 2 ^ s) as Hps by (apply Z.pow_pos_nonneg; lia).
  assert (0 <= q) as Hq0 by (rewrite Hq; apply Z.div_pos; lia).
  assert (2 ^ s * 2 ^ (1074 - s) = 2 ^ 1074) as Epow by (rewrite <- Z.pow_add_r by lia; f_equal; lia).
  assert (0 < 2 ^ (1074 - s)) as Hp2 by (apply Z.pow_pos_nonneg; lia).
  (* the size of the quotient *)
  assert (s = d + 52 -> 2 ^ 52 <= q) as Q52.
  { intros Es. rewrite Hq. apply Z.div_le_lower_bound; [lia|]. apply Z.le_trans with (2 ^ d * 2 ^ 52); [apply Z.mul_le_mono_nonneg_r; [apply Z.pow_nonneg; lia|lia]|].
    rewrite <- Z.pow_add_r by lia. apply Z.pow_le_mono_r; lia. }
  assert (q <= 2 ^ 53) as Q53.
  { rewrite Hq. apply Z.le_trans with (2 ^ s / 2 ^ (d - 1)).
    - apply Z.div_le_compat_l; [lia|]. split; [apply Z.pow_pos_nonneg; lia|exact B1].
    - apply Z.div_le_upper_bound; [apply Z.pow_pos_nonneg; lia|]. rewrite <- Z.pow_add_r by lia. apply Z.pow_le_mono_r; lia. }
  assert (r <> 0 -> q < 2 ^ 53) as Q53'.
  { intros Hr0. destruct (Z.eq_dec q 0) as [->|Hq1]; [lia|]. assert (c <= 2 ^ s) as Hcs by nia.
    assert (d - 1 <= s) as Hds. { destruct (Z.le_gt_cases (d - 1) s) as [|C]; [assumption|]. assert (2 ^ s < 2 ^ (d - 1)) by (apply Z.pow_lt_mono_r; lia). lia. }
    assert (2 ^ s < c * 2 ^ 53); [|nia]. apply Z.le_lt_trans with (2 ^ (d - 1) * 2 ^ 53); [rewrite <- Z.pow_add_r by lia; apply Z.pow_le_mono_r; lia|].
    apply Z.mul_lt_mono_pos_r; [apply Z.pow_pos_nonneg; lia|]. destruct (Z.eq_dec c (2 ^ (d - 1))) as [Ec|]; [|lia]. exfalso. apply Hr0. rewrite Hr, Ec.
    replace s with (s - (d - 1) + (d - 1)) at 1 by lia. rewrite Z.pow_add_r by lia. apply Z.mod_mul. pose proof (Z.pow_pos_nonneg 2 (d - 1)). lia. }
  assert (forall m, 0 < m -> q <= m -> - s <= SpecFloat.fexp 53 1024 (Zdigits2 m + - s)) as Hfe.
  { intros m Hm Hqm. change (SpecFloat.fexp 53 1024 (Zdigits2 m + - s)) with (Z.max (Zdigits2 m + - s - 53) (-1074)).
    destruct (Z.eq_dec s 1074) as [->|Hs']; [lia|]. assert (2 ^ 52 <= m) by (specialize (Q52 ltac:(lia)); lia).
    pose proof (Zdigits_mono (2 ^ 52) m ltac:(lia) ltac:(lia)) as Hm'. change (Zdigits2 (2 ^ 52)) with 53 in Hm'. lia. }
  assert (forall m, 0 < m -> q <= m -> m <= 2 ^ s -> unit_float (binary_round_aux 53 1024 false m (- s) loc_Exact)) as Hround.
  { intros m Hm Hqm Hms. destruct (round_aux_spec 53 1024 ltac:(lia) ltac:(lia) m (- s) Hm) as [G E]; [unfold SpecFloat.emin; lia|apply Hfe; lia|].
    eapply unit_of; [exact G|exact E|]. replace (- s - SpecFloat.emin 53 1024) with (1074 - s) by (unfold SpecFloat.emin; lia).
    split; [apply Z.mul_nonneg_nonneg; lia|]. rewrite <- Epow. apply Z.mul_le_mono_nonneg_r; lia. }
  destruct (Z.eq_dec r 0) as [Hr0|Hr0].
  - assert (new_location c r = loc_Exact) as ->. { rewrite Hr0. unfold new_location, new_location_even, new_location_odd. destruct (Z.even c); reflexivity. }
    apply Hround; nia.
  - specialize (Q53' Hr0). set (l := new_location c r).
    assert (exists m1, round_nearest_even (shr_m (shr_record_of_loc q l)) (loc_of_shr_record (shr_record_of_loc q l)) = m1 /\ (m1 = q \/ m1 = q + 1)) as (m1 & Em1 & Hm1).
    { eexists. split; [reflexivity|]. destruct l as [|[]]; cbn; auto. destruct (Z.even q); auto. }
    assert (binary_round_aux 53 1024 false q (- s) l =
      let '(mrs, e') := shr_fexp 53 1024 m1 (- s) loc_Exact in
      match shr_m mrs with Z0 => S754_zero false | Zpos m => if Zle_bool e' (1024 - 53) then S754_finite false m e' else S754_infinity false | _ => S754_nan end) as ->.
    { unfold binary_round_aux, shr_fexp at 1.
      assert (shr (shr_record_of_loc q l) (- s) (SpecFloat.fexp 53 1024 (Zdigits2 q + - s) - - s) = (shr_record_of_loc q l, - s)) as ->.
      { assert (SpecFloat.fexp 53 1024 (Zdigits2 q + - s) - - s <= 0) as Hn.
        { change (SpecFloat.fexp 53 1024 (Zdigits2 q + - s)) with (Z.max (Zdigits2 q + - s - 53) (-1074)).
          assert (Zdigits2 q <= 53); [|lia]. destruct (Z.eq_dec q 0) as [->|]; [cbn; lia|].
          pose proof (Zdigits_mono q (2 ^ 53 - 1) ltac:(lia) ltac:(lia)) as Hm'. change (Zdigits2 (2 ^ 53 - 1)) with 53 in Hm'. exact Hm'. }
        destruct (SpecFloat.fexp 53 1024 (Zdigits2 q + - s) - - s); [reflexivity|lia|reflexivity]. }
      rewrite Em1. reflexivity. }
    destruct (Z.eq_dec m1 0) as [Hz|Hz].
    + rewrite Hz. assert (s = 1074) as Es. { destruct (Z.eq_dec s 1074); [assumption|]. specialize (Q52 ltac:(lia)). lia. }
      rewrite Es. split; [split; [reflexivity|exact Logic.I]|reflexivity].
    + assert (m1 <= 2 ^ 53) by lia. rewrite aux_exact.
      * apply Hround; [lia|lia|]. nia.
      * lia.
      * lia.
      * apply Hfe; lia.
      * pose proof (Zdigits_mono m1 (2 ^ 53) ltac:(lia) ltac:(lia)) as Hm'. change (Zdigits2 (2 ^ 53)) with 54 in Hm'. exact Hm'.
      * intros D. destruct (Zdigits_bounds m1 ltac:(lia)) as [[D1 _] _]. rewrite D in D1. change (54 - 1) with 53 in D1. lia. Qed.
(** C42-C44 for the function as it runs on integer capacities: 1 / c rounded, and shortest_path on floats *)
Theorem C42_maximum_flow_feasible_floats {A O} {EA : EqDec A} (g : graph A O Z) s e :
  reachable g -> nonneg g -> contains g s = true -> contains g e = true -> s <> e ->
  exists total fg, returns (fun n => maximum_flow inv64 float_dijkstra n g s e) (Ok (total, fg)) /\
    is_flow g s e (amount fg) total /\ 0 <= total /\ reachable fg /\ (forall x y v, edge fg x y = Some v -> 0 < v) /\
    (forall S, S s = true -> S e = false -> total <= cut_capacity g S) /\
    ((total = Z.min (outflow g (amount g) s) (inflow g (amount g) e) /\ forall f v, is_flow g s e f v -> v <= total) \/
     ~ reach (unsaturated g (amount fg)) s e).
Proof. intros R Hn Hs He Hse. destruct (C42_maximum_flow_feasible inv64 unit_float float_dijkstra g s e inv64_unit float_finds_paths R Hn Hs He Hse) as (t & fg & Hr & H1 & H2 & H3 & H4 & H5).
  exists t, fg. splits; auto. exact (C43_blocking_flow_partial inv64 unit_float float_dijkstra g s e t fg inv64_unit float_finds_paths R Hn Hs He Hse Hr). Qed.
Theorem C44_min_cut_edges_floats_partial {A O} {EA : EqDec A} (g : graph A O Z) s e :
  reachable g -> nonneg g -> contains g s = true -> contains g e = true -> s <> e ->
  exists total fg, returns (fun n => maximum_flow inv64 float_dijkstra n g s e) (Ok (total, fg)) /\
   ((total = 0 /\ returns (fun n => maximum_flow_min_cut inv64 float_dijkstra n g s e) (Ok [])) \/
    (total <> 0 /\ exists walk cut, returns (fun n => Bfs.breadth_first_walk n fg s (Some e) false) (Ok walk) /\
       returns (fun n => maximum_flow_min_cut inv64 float_dijkstra n g s e) (Ok cut) /\ NoDup cut /\
       forall x y, In (x, y) cut <-> In x walk /\ has_edge fg x y /\ forall z v, edge fg x z = Some v -> edge g x z = Some v)).
Proof. intros R Hn Hs He Hse. exact (C44_min_cut_edges_partial inv64 unit_float float_dijkstra g s e inv64_unit float_finds_paths R Hn Hs He Hse). Qed.
Example ex_inv64 : inv64 1 = f1 /\ inv64 10 = f01 /\ inv64 (10 ^ 400) = S754_zero false.
Proof. splits; vm_compute; reflexivity. Qed.
(** the flow that the function finds on the graph of C43: total 1 where 2 is possible, also with the real floats *)
Theorem C43_not_maximal_floats_refuted : reachable mf_bad /\ nonneg mf_bad /\
  (exists fg, maximum_flow inv64 float_dijkstra 100 mf_bad 0%nat 3%nat = Ok (1, fg)) /\
  is_flow mf_bad 0%nat 3%nat (amount mf_better) 2.
Proof. destruct C43_not_maximal_refuted as (R & N & _). splits; auto.
  - eexists. vm_compute. reflexivity.
  - apply C43_not_maximal_refuted. Qed.
