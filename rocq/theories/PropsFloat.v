(** C86: shortest paths when edge values are floats. *)
From Coq Require Import SpecFloat.
From Verif Require Import Prelude PreludeFacts Base BaseFacts BaseFacts2 BaseFacts3 Spec SpecFacts Loop Sp SpFacts GSp GSpec GSpFacts Float64.
Open Scope nat_scope.

(** Python's ints together with float("inf"): exact addition *)
Definition exact : arith ext := mkArith (Fin 0) Inf ext_add ext_ltb ext_eqb.
Definition exact_good (x : ext) : Prop := match x with Fin z => (0 <= z)%Z | Inf => True end.
Lemma exact_lawful : lawful exact exact_good.
Proof. constructor; cbn [a_zero a_add a_ltb a_eqb exact].
  - cbn. lia.
  - intros [x|] [w|]; cbn; auto. lia.
  - intros [x|] [y|]; cbn; try discriminate; auto. intros _ _. rewrite Z.ltb_lt, Z.ltb_ge. lia.
  - intros [x|] [y|]; cbn; try discriminate; auto. intros _ _. rewrite Z.eqb_eq, Z.ltb_ge. lia.
  - intros [x|] [y|] [z|]; cbn; try discriminate; auto. intros _ _ _. rewrite !Z.ltb_ge. lia.
  - intros [x|] [y|] [w|]; cbn; try discriminate; auto. intros _ _ _. rewrite !Z.ltb_ge. lia.
  - intros [x|] [w|]; cbn; auto. intros _ H. apply Z.ltb_ge. lia. Qed.

Section Same.
Context {A O : Type} {EA : EqDec A}.
Notation fz := (fun e : A * A * Z => (fst e, Fin (snd e))).
Definition hq {P} (q : list (Z * nat * P)) : list (ext * nat * P) := map (fun x => (Fin (fst (fst x)), snd (fst x), snd x)) q.
Definition hM (M : dict A Z) : dict A ext := map (fun x => (fst x, Fin (snd x))) M.
Lemma ghmin_h {P} (q : list (Z * nat * P)) : forall x,
  ghmin exact (Fin (fst (fst x)), snd (fst x), snd x) (hq q) = let '(m, r) := hmin x q in ((Fin (fst (fst m)), snd (fst m), snd m), hq r).
Proof. induction q as [|y q IH]; intros x; [reflexivity|]. cbn [hq map ghmin hmin].
  assert (ghlt exact (Fin (fst (fst y)), snd (fst y), snd y) (Fin (fst (fst x)), snd (fst x), snd x) = hlt y x) as ->.
  { destruct x as [[c i] p], y as [[c' i'] p']. reflexivity. }
  destruct (hlt y x).
  - specialize (IH y). unfold hq in IH. rewrite IH. destruct (hmin y q). reflexivity.
  - specialize (IH x). unfold hq in IH. rewrite IH. destruct (hmin x q). reflexivity. Qed.
Lemma dget_h (M : dict A Z) k : dget k (hM M) = option_map Fin (dget k M).
Proof. induction M as [|[k' v] M IH]; [reflexivity|]. cbn. destruct (eq_dec k k'); [reflexivity|exact IH]. Qed.
Lemma dset_h (M : dict A Z) k v : dset k (Fin v) (hM M) = hM (dset k v M).
Proof. induction M as [|[k' v'] M IH]; [reflexivity|]. cbn. destruct (eq_dec k k'); [reflexivity|]. cbn. f_equal. exact IH. Qed.
Lemma relax_h c p V es : forall q M i,
  fold_left (gsp_relax exact (Fin c) p V) (map fz es) (hq q, hM M, i) =
  let '(q', M', i') := fold_left (sp_relax c p V) es (q, M, i) in (hq q', hM M', i').
Proof. induction es as [|[[x y] d] es IH]; intros q M i; [reflexivity|]. cbn [map fold_left fst snd].
  unfold gsp_relax at 2, sp_relax at 2. destruct (mem y V); [apply IH|]. rewrite dget_h. cbn [a_add a_ltb exact ext_add].
  destruct (dget y M) as [prev|]; cbn [option_map].
  - cbn [ext_ltb]. destruct (c + d <? prev)%Z; [|apply IH]. rewrite dset_h. exact (IH (((c + d)%Z, i, (y, p)) :: q) _ _).
  - rewrite dset_h. exact (IH (((c + d)%Z, i, (y, p)) :: q) _ _). Qed.
(** On integer edge values the generic model with exact addition is the model [Sp.shortest_path]. *)
Theorem gsp_exact (g : graph A O Z) (g' : graph A O ext) s e S n : nodes g' = nodes g ->
  (forall v, edges_from g' v = map fz (edges_from g v)) -> gshortest_path exact n g' s e S = shortest_path n g s e S.
Proof. intros Hn He. unfold gshortest_path, shortest_path. change (contains g' s) with (mem s (nodes g')). change (contains g' e) with (mem e (nodes g')).
  rewrite Hn. change (mem s (nodes g)) with (contains g s). change (mem e (nodes g)) with (contains g e).
  destruct (negb (contains g s)); [reflexivity|]. destruct (negb (contains g e)); [reflexivity|].
  change [(a_zero exact, 0, (s, @nil A))] with (hq [(0%Z, 0, (s, @nil A))]). change [(s, a_zero exact)] with (hM [(s, 0%Z)]).
  generalize [(0%Z, 0, (s, @nil A))] as q, [(s, 0%Z)] as M, 1 as i, (set_of S) as V. induction n as [|n IH]; intros q M i V; [reflexivity|].
  cbn [loop]. unfold gsp_step at 1, sp_step at 1. destruct q as [|x q]; [reflexivity|]. cbn [hq map gheappop heappop].
  pose proof (ghmin_h q x) as Hm. unfold hq in Hm. rewrite Hm. clear Hm. destruct (hmin x q) as [[[c k] [v1 path]] r]. cbn [fst snd].
  destruct (mem v1 V); [apply IH|]. destruct (eq_dec v1 e); [reflexivity|]. rewrite He. fold (@hq (A * list A) r). rewrite relax_h.
  destruct (fold_left (sp_relax c (v1 :: path) (sadd v1 V)) (edges_from g v1) (r, M, i)) as [[q' M'] i']. apply IH. Qed.
End Same.

(** ** C86.  The optimum over any arithmetic that is ordered, monotone and inflationary *)
Theorem C86_shortest_path_rounded {A O W} {EA : EqDec A} (ar : arith W) (good : W -> Prop) (g : graph A O W) s e S :
  lawful ar good -> reachable g -> good_edges good g -> contains g s = true -> contains g e = true ->
  exists d p, returns (fun n => gshortest_path ar n g s e S) (Ok (d, p)) /\
    ((lpath ar (edge g) s p e d /\ clear_of S p /\ NoDup p /\
      forall p' d', lpath ar (edge g) s p' e d' -> clear_of S p' -> a_ltb ar d' d = false) \/
     (d = a_inf ar /\ p = [] /\ forall p' d', lpath ar (edge g) s p' e d' -> ~ clear_of S p')).
Proof. intros L R G Hs He. apply contains_In in Hs, He. destruct (gshortest_path_spec ar good L g s e S (reachable_wf _ R) G Hs He) as ([d p] & Hr & Hp).
  exists d, p. split; [exact Hr|exact Hp]. Qed.
(** ... and so over IEEE-754 binary64, for every graph whose edge values are neither negative nor NaN
    (infinite edge values are allowed) *)
Theorem C86_shortest_path_floats {A O} {EA : EqDec A} (g : graph A O spec_float) s e S :
  reachable g -> good_edges f64_good g -> contains g s = true -> contains g e = true ->
  exists d p, returns (fun n => gshortest_path f64 n g s e S) (Ok (d, p)) /\
    ((lpath f64 (edge g) s p e d /\ clear_of S p /\ NoDup p /\
      forall p' d', lpath f64 (edge g) s p' e d' -> clear_of S p' -> SFltb d' d = false) \/
     (d = S754_infinity false /\ p = [] /\ forall p' d', lpath f64 (edge g) s p' e d' -> ~ clear_of S p')).
Proof. intros R G Hs He. exact (C86_shortest_path_rounded f64 f64_good g s e S f64_lawful R G Hs He). Qed.
(** on integers (exact addition) the generic model is the model of C23 *)
Theorem C86_exact_is_C23 {A O} {EA : EqDec A} (g : graph A O Z) (g' : graph A O ext) s e S n : nodes g' = nodes g ->
  (forall v, edges_from g' v = map (fun x => (fst x, Fin (snd x))) (edges_from g v)) ->
  gshortest_path exact n g' s e S = shortest_path n g s e S.
Proof. apply gsp_exact. Qed.

(** *** how far a float answer can be from the exact optimum *)
(** the exact length of a path with float edge values, in units of 2^-1074 *)
Definition exact_length {A O} {EA : EqDec A} (g : graph A O spec_float) (a : A) (p : list A) (b : A) (x : ext) : Prop :=
  lpath exact (fun u v => option_map (ival 53 1024) (edge g u v)) a p b x.
Lemma step_up P Q Q1 D w s r : (0 < P -> 0 < Q -> Q <= Q1 -> 0 <= w -> 0 <= s -> 0 <= D ->
  D * Q <= s * Q1 -> P * (r - (D + w)) <= D + w -> r * (P * Q) <= (s + w) * ((P + 1) * Q1))%Z.
Proof. intros HP HQ HQ1 Hw Hs HD H1 H2. assert (r * P <= (D + w) * (P + 1))%Z as H3 by nia.
  assert ((D + w) * Q <= (s + w) * Q1)%Z as H4 by nia.
  apply Z.le_trans with ((D + w) * (P + 1) * Q)%Z; [nia|]. nia. Qed.
Lemma step_down P Q Q2 D w s r : (1 <= P -> 0 < Q -> 0 <= Q2 -> Q2 <= Q -> 0 <= w -> 0 <= s -> 0 <= D ->
  s * Q2 <= D * Q -> - (D + w) <= P * (r - (D + w)) -> (s + w) * ((P - 1) * Q2) <= r * (P * Q))%Z.
Proof. intros HP HQ HQ2 HQ3 Hw Hs HD H1 H2. assert ((D + w) * (P - 1) <= r * P)%Z as H3 by nia.
  assert ((s + w) * Q2 <= (D + w) * Q)%Z as H4 by nia.
  apply Z.le_trans with ((D + w) * (P - 1) * Q)%Z; [nia|nia]. Qed.
Lemma step_inf P Q Q1 B w s : (0 < P -> 0 < Q -> Q <= Q1 -> 0 <= w -> 0 <= s -> B * Q <= s * Q1 -> B * (P * Q) <= (s + w) * ((P + 1) * Q1))%Z.
Proof. intros HP HQ HQ1 Hw Hs H1. replace (B * (P * Q))%Z with (P * (B * Q))%Z by ring. replace ((s + w) * ((P + 1) * Q1))%Z with (P * (s * Q1) + (s * Q1 + w * ((P + 1) * Q1)))%Z by ring.
  assert (P * (B * Q) <= P * (s * Q1))%Z by (apply Z.mul_le_mono_nonneg_l; lia). assert (0 <= s * Q1)%Z by (apply Z.mul_nonneg_nonneg; lia).
  assert (0 <= w * ((P + 1) * Q1))%Z by (apply Z.mul_nonneg_nonneg; [lia|apply Z.mul_nonneg_nonneg; lia]). lia. Qed.

(** rounding errors: with k = number of edges of p, the float length d and the exact length X satisfy
    X (1 - u)^k <= d <= X (1 + u)^k, u = 2^-53; written with integers, P = 2^53. *)
Notation P := (2 ^ 53)%Z.
Notation B := (2 ^ (1024 - SpecFloat.emin 53 1024))%Z.
Lemma near {A O} {EA : EqDec A} (g : graph A O spec_float) a p b d : good_edges f64_good g -> lpath f64 (edge g) a p b d ->
  exists X, exact_length g a p b X /\
  match X with
  | Inf => ival 53 1024 d = Inf
  | Fin x => (0 <= x)%Z /\ match ival 53 1024 d with
             | Fin D => (x * (P - 1) ^ Z.of_nat (length p - 1) <= D * P ^ Z.of_nat (length p - 1) <= x * (P + 1) ^ Z.of_nat (length p - 1))%Z
             | Inf => (B * P ^ Z.of_nat (length p - 1) <= x * (P + 1) ^ Z.of_nat (length p - 1))%Z
             end
  end.
Proof. intros G H. induction H as [|p b c w d H IH Hw].
  - exists (Fin 0). split; [constructor|]. split; [lia|]. cbn [length Nat.sub]. change (ival 53 1024 (a_zero f64)) with (Fin 0). cbv beta iota. rewrite !Z.mul_0_l. lia.
  - destruct IH as (X & HX & Hb). pose proof (lpath_good f64 f64_good f64_lawful g a p b d G H) as Gd. pose proof (G _ _ _ Hw) as Gw.
    exists (ext_add X (ival 53 1024 w)). split; [apply (lpath_snoc exact _ a p b c (ival 53 1024 w) X HX); rewrite Hw; reflexivity|].
    destruct (add_spec 53 1024 ltac:(lia) ltac:(lia) d w Gd Gw) as [_ Ea]. change (a_add f64 d w) with (SFadd 53 1024 d w). rewrite Ea. clear Ea.
    assert (length (p ++ [c]) - 1 = Datatypes.S (length p - 1)) as -> .
    { rewrite app_length. cbn [length]. assert (In b p) as Hin by (eapply lpath_end; eauto). destruct p; [destruct Hin|]. cbn [length]. lia. }
    rewrite Nat2Z.inj_succ. set (k := Z.of_nat (length p - 1)) in *. assert (0 <= k)%Z as Hk by lia.
    rewrite !Z.pow_succ_r by exact Hk.
    pose proof (ival_rep 53 1024 ltac:(lia) ltac:(lia) d Gd) as Rd. pose proof (ival_rep 53 1024 ltac:(lia) ltac:(lia) w Gw) as Rw.
    assert (0 < P ^ k)%Z as P1 by (apply Z.pow_pos_nonneg; lia). assert (0 <= (P - 1) ^ k)%Z as P2 by (apply Z.pow_nonneg; lia).
    assert (P ^ k <= (P + 1) ^ k)%Z as P3 by (apply Z.pow_le_mono_l; lia). assert ((P - 1) ^ k <= P ^ k)%Z as P4 by (apply Z.pow_le_mono_l; lia).
    destruct (ival 53 1024 w) as [z|]; [|destruct X; cbn [ext_add]; destruct (ival 53 1024 d); reflexivity].
    destruct X as [x|]; cbn [ext_add]; [|rewrite Hb; reflexivity]. destruct Hb as [Hx Hb]. destruct Rw as [Rw _]. split; [lia|].
    destruct (ival 53 1024 d) as [D|]; cbn [iadd].
    + destruct Rd as [Rd _]. pose proof (rnd_error 53 ltac:(lia) (D + z) ltac:(lia)) as [E1 E2]. unfold ovf.
      destruct (Z.ltb_spec (rnd 53 (D + z)) B) as [Hlt|Hge].
      * split; [apply step_down with D; try assumption; lia|apply step_up with D; try assumption; lia].
      * apply Z.le_trans with (rnd 53 (D + z) * (P * P ^ k))%Z; [apply Z.mul_le_mono_nonneg_r; [apply Z.mul_nonneg_nonneg; lia|exact Hge]|].
        apply step_up with D; try assumption; lia.
    + apply step_inf; try assumption; lia. Qed.
Lemma lpath_ne {A W} (ar : arith W) (E : A -> A -> option W) a p b d : lpath ar E a p b d -> p <> [].
Proof. intros H. destruct H; [discriminate|]. intros C. apply app_eq_nil in C. destruct C; discriminate. Qed.
Lemma lpath_fun {A W} (ar : arith W) (E : A -> A -> option W) a p b d : lpath ar E a p b d -> forall b' d', lpath ar E a p b' d' -> b = b' /\ d = d'.
Proof. intros H. induction H as [|p b c w d H IH Hw]; intros b' d' H'.
  - inversion H' as [|p0 b0 c0 w0 d0 H0 Hw0 Ep]; [auto|]. exfalso. apply (f_equal (@length A)) in Ep. rewrite app_length in Ep. apply lpath_ne in H0. destruct p0; [congruence|cbn in Ep; lia].
  - inversion H' as [Ep|p0 b0 c0 w0 d0 H0 Hw0 Ep].
    + exfalso. apply (f_equal (@length A)) in Ep. rewrite app_length in Ep. apply lpath_ne in H. destruct p; [congruence|cbn in Ep; lia].
    + apply app_inj_tail in Ep. destruct Ep as [-> ->]. subst. destruct (IH _ _ H0) as [-> ->]. rewrite Hw in Hw0. inv Hw0. auto. Qed.
Lemma exact_lift {A O} {EA : EqDec A} (g : graph A O spec_float) a p b X : exact_length g a p b X -> exists d, lpath f64 (edge g) a p b d.
Proof. intros H. induction H as [|p b c w d H [d' IH] Hw]; [eexists; constructor|]. destruct (edge g b c) as [z|] eqn:E; [|discriminate]. eexists. eapply lpath_snoc; eauto. Qed.
(** The path that shortest_path returns on floats is nearly shortest in exact arithmetic: if it has k edges
    and exact length X, and another path avoiding S has k' edges and exact length X', then
    X (1 - u)^k <= X' (1 + u)^k' with u = 2^-53. *)
Theorem C86_nearly_shortest {A O} {EA : EqDec A} (g : graph A O spec_float) s e S d p n : reachable g -> good_edges f64_good g ->
  gshortest_path f64 n g s e S = Ok (d, p) -> ival 53 1024 d <> Inf ->
  exists x, exact_length g s p e (Fin x) /\ clear_of S p /\
  forall p' x', exact_length g s p' e (Fin x') -> clear_of S p' ->
    (x * (P - 1) ^ Z.of_nat (length p - 1) * P ^ Z.of_nat (length p' - 1) <= x' * (P + 1) ^ Z.of_nat (length p' - 1) * P ^ Z.of_nat (length p - 1))%Z.
Proof. intros R G Hrun Hd.
  assert (contains g s = true) as Hs. { destruct (contains g s) eqn:E; [reflexivity|]. unfold gshortest_path in Hrun. rewrite E in Hrun. discriminate. }
  assert (contains g e = true) as He. { destruct (contains g e) eqn:E; [reflexivity|]. unfold gshortest_path in Hrun. rewrite Hs, E in Hrun. discriminate. }
  destruct (C86_shortest_path_floats g s e S R G Hs He) as (d0 & p0 & Hr & Hp).
  assert (Ok (d, p) = Ok (d0, p0)) as Eq by (rewrite <- Hrun; apply (returns_of _ _ n Hr); rewrite Hrun; discriminate).
  injection Eq as <- <-. clear Hr. destruct Hp as [(Hp & Hc & _ & Hopt)|(-> & _)]; [|destruct Hd; reflexivity].
  destruct (near g s p e d G Hp) as (X & HX & HN). destruct X as [x|]; [|congruence]. destruct HN as [Hx HN].
  destruct (ival 53 1024 d) as [D|] eqn:ED; [|congruence]. exists x. splits; auto. intros p' x' HX' Hc'.
  destruct (exact_lift g s p' e _ HX') as [d' Hd']. destruct (near g s p' e d' G Hd') as (X2 & HX2 & HN').
  destruct (lpath_fun _ _ _ _ _ _ HX' _ _ HX2) as [_ <-]. destruct HN' as [Hx' HN'].
  specialize (Hopt p' d' Hd' Hc'). pose proof (lpath_good f64 f64_good f64_lawful g _ _ _ _ G Hp) as Gd.
  pose proof (lpath_good f64 f64_good f64_lawful g _ _ _ _ G Hd') as Gd'.
  rewrite (ltb_spec 53 1024 ltac:(lia) d' d Gd' Gd), ED in Hopt. apply ext_ltb_ge in Hopt.
  pose proof (ival_rep 53 1024 ltac:(lia) ltac:(lia) d Gd) as Rd. rewrite ED in Rd. destruct Rd as (Rd1 & _ & Rd2).
  set (k := Z.of_nat (length p - 1)) in *. set (k' := Z.of_nat (length p' - 1)) in *.
  assert (0 < P ^ k)%Z as P1 by (apply Z.pow_pos_nonneg; lia). assert (0 < P ^ k')%Z as P2 by (apply Z.pow_pos_nonneg; lia).
  assert (D * P ^ k' <= x' * (P + 1) ^ k')%Z as HD.
  { destruct (ival 53 1024 d') as [D'|].
    - apply Z.le_trans with (D' * P ^ k')%Z; [apply Z.mul_le_mono_nonneg_r; lia|apply HN'].
    - apply Z.le_trans with (B * P ^ k')%Z; [|exact HN']. apply Z.mul_le_mono_nonneg_r; [lia|].
      unfold ovf in Rd2. destruct (Z.ltb_spec D B) as [Hlt|]; [exact (Z.lt_le_incl _ _ Hlt)|discriminate]. }
  destruct HN as [HN _]. generalize dependent ((P - 1) ^ k)%Z. generalize dependent ((P + 1) ^ k')%Z. generalize dependent (P ^ k)%Z. generalize dependent (P ^ k')%Z.
  intros Q' HQ' Q HQ Q1 HD HN' Q2 HN. apply Z.le_trans with (D * Q * Q')%Z; [apply Z.mul_le_mono_nonneg_r; lia|].
  replace (D * Q * Q')%Z with (D * Q' * Q)%Z by ring. apply Z.mul_le_mono_nonneg_r; lia. Qed.

(** *** distance_from_path adds up in the same order, so it returns the distance of the path.  An edge value
    of 0.0 is falsy and sends it to shortest_path, which then finds a distance of 0.0. *)
Lemma good_zero_add x w : f64_good x -> x <> S754_zero true -> SFeqb w (S754_zero false) = true -> SFadd 53 1024 x w = x.
Proof. intros _ Hx Hw. destruct w as [s|s| |s m e]; try (cbn in Hw; discriminate); [|destruct s; cbn in Hw; discriminate|destruct s; cbn in Hw; discriminate].
  destruct x as [s'|s'| |s' m e]; try reflexivity. destruct s'; [congruence|]. destruct s; reflexivity. Qed.
Lemma not_minus_zero x w : f64_good x -> f64_good w -> x <> S754_zero true -> SFadd 53 1024 x w <> S754_zero true.
Proof. intros Gx Gw Hx. destruct x as [s'|s'| |s' m e].
  - destruct s'; [congruence|]. destruct w as [s|s| |s m e]; try (cbn; discriminate). destruct s; discriminate.
  - destruct w as [s|s| |s m e]; try (cbn; discriminate). cbn. destruct (Bool.eqb s' s); discriminate.
  - exfalso. exact (proj2 Gx).
  - intros C. destruct (add_spec 53 1024 ltac:(lia) ltac:(lia) _ w Gx Gw) as [_ E]. rewrite C in E.
    pose proof (l_infl _ _ f64_lawful _ w Gx Gw) as HI. change (a_add f64) with (SFadd 53 1024) in HI. rewrite C in HI.
    destruct Gx as [_ Gs]. cbn in Gs. subst s'. cbn in HI. discriminate. Qed.
Section Dfp.
Context {A O : Type} {EA : EqDec A} (g : graph A O spec_float) (R : reachable g) (G : good_edges f64_good g).
Notation E := (edge g).
Lemma lpath_nmz a p b d : lpath f64 E a p b d -> f64_good d /\ d <> S754_zero true.
Proof. intros H. split; [eapply (lpath_good f64 f64_good f64_lawful); eauto|]. induction H as [|p b c w d H IH Hw]; [discriminate|].
  apply not_minus_zero; auto; [eapply (lpath_good f64 f64_good f64_lawful); eauto|eapply G; eauto]. Qed.
Lemma dfp_sum : forall t a n1 h acc cache,
  lpath f64 E a (h ++ [n1]) n1 acc -> (forall k v, dget k cache = Some v -> SFeqb v (S754_zero false) = true) ->
  forall b d, lpath f64 E a ((h ++ [n1]) ++ t) b d ->
  returns (fun n => gdfp_loop f64 n g n1 t cache acc) (Ok d).
Proof. induction t as [|n2 t IH]; intros a n1 h acc cache H Hcache b d Hd.
  - rewrite app_nil_r in Hd. destruct (lpath_fun _ _ _ _ _ _ H _ _ Hd) as [_ ->]. apply returns_const. discriminate.
  - assert (exists w, edge g n1 n2 = Some w) as [w Hw].
    { clear IH H acc. revert b d Hd. induction t as [|z t IHt] using rev_ind; intros b d Hd.
      - inversion Hd as [Ep|p0 b0 c0 w0 d0 H0 Hw0 Ep].
        + exfalso. apply (f_equal (@length A)) in Ep. rewrite !app_length in Ep. cbn in Ep. lia.
        + apply app_inj_tail in Ep. destruct Ep as [-> ->]. assert (b0 = n1) as Eb; [|subst; eauto].
          inversion H0 as [Ep|p1 b1 c1 w1 d1 Hx1 Hw1 Ep].
          * destruct h; [cbn in Ep; congruence|]. apply (f_equal (@length A)) in Ep. cbn in Ep. rewrite app_length in Ep. cbn in Ep. lia.
          * apply app_inj_tail in Ep. destruct Ep as [_ ->]. congruence.
      - inversion Hd as [Ep|p0 b0 c0 w0 d0 H0 Hw0 Ep].
        + exfalso. apply (f_equal (@length A)) in Ep. rewrite !app_length in Ep. cbn in Ep. rewrite app_length in Ep. cbn in Ep. lia.
        + rewrite app_comm_cons, app_assoc in Ep. apply app_inj_tail in Ep. destruct Ep as [-> ->]. eapply IHt; eauto. }
    assert (lpath f64 E a ((h ++ [n1]) ++ [n2]) n2 (SFadd 53 1024 acc w)) as H' by (apply (lpath_snoc f64 E a _ n1 n2 w acc H Hw)).
    assert (lpath f64 E a (((h ++ [n1]) ++ [n2]) ++ t) b d) as Hd' by (rewrite <- (app_assoc (h ++ [n1])); exact Hd).
    cbn [gdfp_loop]. rewrite Hw. cbn [gtruthy]. change (a_eqb f64 w (a_zero f64)) with (SFeqb w (S754_zero false)).
    destruct (SFeqb w (S754_zero false)) eqn:Ez.
    2:{ exact (IH a n2 (h ++ [n1]) _ cache H' Hcache b d Hd'). }
    assert (gtruthy f64 (dget (n1, n2) cache) = None) as ->.
    { destruct (dget (n1, n2) cache) as [v|] eqn:Ev; [|reflexivity]. cbn. rewrite (Hcache _ _ Ev). reflexivity. }
    destruct (edge_nodes g n1 n2 w (reachable_wf _ R) Hw) as [N1 N2].
    destruct (C86_shortest_path_floats g n1 n2 [] R G) as (d' & p' & Hr & Hp); [apply contains_In, N1|apply contains_In, N2|].
    destruct (lpath_nmz _ _ _ _ H) as [Gacc Nacc]. pose proof (G _ _ _ Hw) as Gw.
    assert (SFeqb d' (S754_zero false) = true) as Ed'.
    { assert (lpath f64 E n1 ([n1] ++ [n2]) n2 (SFadd 53 1024 (S754_zero false) w)) as Hone by (apply (lpath_snoc f64 E n1 [n1] n1 n2 w (S754_zero false) (lpath_one _ _ _) Hw)).
      rewrite (good_zero_add (S754_zero false) w) in Hone; [|split; [reflexivity|exact Logic.I]|discriminate|exact Ez].
      destruct Hp as [(Hp & _ & _ & Hopt)|(_ & _ & Hno)]; [|destruct (Hno _ _ Hone); intros ? _ []].
      specialize (Hopt _ _ Hone ltac:(intros ? _ [])). destruct (lpath_nmz _ _ _ _ Hp) as [Gd' Nd'].
      destruct d' as [s|s| |s m e]; try reflexivity; destruct Gd' as [_ Gs]; cbn in Gs; try subst s; try destruct Gs; cbn in Hopt; discriminate. }
    assert (SFadd 53 1024 acc w = acc) as Ea by (apply good_zero_add; auto).
    assert (SFadd 53 1024 acc d' = acc) as Ea' by (apply good_zero_add; auto).
    refine (returns_bind _ (fun n r => _) (d', p') _ Hr _). cbn [fst].
    assert (a_eqb f64 d' (a_inf f64) = false) as ->. { destruct d' as [s|s| |s m e]; try reflexivity; try destruct s; cbn in Ed'; discriminate. }
    change (a_add f64 acc d') with (SFadd 53 1024 acc d'). rewrite Ea'. rewrite Ea in H'.
    apply (IH a n2 (h ++ [n1]) acc) with b; auto.
    intros k v. rewrite dget_dset. destruct (eq_dec k (n1, n2)) as [->|]; [intros Eq; inv Eq; exact Ed'|apply Hcache]. Qed.
End Dfp.
Lemma lpath_start {A W} (ar : arith W) (E : A -> A -> option W) a p b d : lpath ar E a p b d -> exists t, p = a :: t.
Proof. intros H. induction H as [|p b c w d H [t ->] Hw]; eexists; reflexivity. Qed.
(** for every path along edges (in particular the one that shortest_path returns), distance_from_path is the
    left-to-right sum *)
Theorem C86_distance_from_path {A O} {EA : EqDec A} (g : graph A O spec_float) a p b d : reachable g -> good_edges f64_good g ->
  lpath f64 (edge g) a p b d -> returns (fun n => gdistance_from_path f64 n g p) (Ok d).
Proof. intros R G H. destruct (lpath_start _ _ _ _ _ _ H) as [t ->]. cbn [gdistance_from_path].
  apply (dfp_sum g R G t a a [] (a_zero f64) [] (lpath_one _ _ _)) with b; [discriminate|exact H]. Qed.

(** *** concrete graphs: 0.1, 0.2, 0.3 and 0.6 as floats *)
Definition f01 : spec_float := S754_finite false 7205759403792794 (-56).
Definition f02 : spec_float := S754_finite false 7205759403792794 (-55).
Definition f03 : spec_float := S754_finite false 5404319552844595 (-54).
Definition f06 : spec_float := S754_finite false 5404319552844595 (-53).       (* 0.6 *)
Definition f06' : spec_float := S754_finite false 5404319552844596 (-53).      (* 0.6000000000000001 *)
Definition f64_leb (x y : spec_float) : bool := negb (SFltb y x).
(** sorted() on (distance, node) pairs *)
Fixpoint ins_wa (x : spec_float * nat) (l : list (spec_float * nat)) : list (spec_float * nat) :=
  match l with
  | [] => [x]
  | y :: t => if SFltb (fst x) (fst y) || (SFeqb (fst x) (fst y) && (snd x <? snd y)) then x :: l else y :: ins_wa x t
  end.
Definition sort_wa (l : list (spec_float * nat)) : list (spec_float * nat) := fold_right ins_wa [] l.
Definition ops_line : list (op nat unit spec_float) := [OpAddNode 3 None; OpAddEdge 1 2 f01 false; OpAddEdge 2 3 f02 false; OpAddEdge 3 4 f03 false].
Definition g_line : graph nat unit spec_float := ok_or empty_graph (run ops_line).
Definition good_b (x : spec_float) : bool :=
  valid_binary 53 1024 x && match x with S754_nan => false | S754_zero _ => true | S754_infinity s => negb s | S754_finite s _ _ => negb s end.
Lemma good_check {A O} {EA : EqDec A} (g : graph A O spec_float) : wf g -> forallb (fun e => good_b (snd e)) (edges g) = true -> good_edges f64_good g.
Proof. intros Wf H a b w Hw. rewrite forallb_forall in H. specialize (H (a, b, w)). cbn [snd] in H.
  assert (good_b w = true) as Hg by (apply H, In_edges; auto). unfold good_b in Hg. apply andb_true_iff in Hg. destruct Hg as [H1 H2]. split; [exact H1|].
  destruct w; cbn in *; auto; try discriminate; destruct s; auto; discriminate. Qed.
Lemma line_ok : reachable g_line /\ good_edges f64_good g_line.
Proof. assert (reachable g_line) as R by (exists ops_line; vm_compute; reflexivity). split; [exact R|]. apply good_check; [apply reachable_wf, R|vm_compute; reflexivity]. Qed.
(** C86 on the line 1 -0.1-> 2 -0.2-> 3 -0.3-> 4: the distance is 0.6000000000000001 = (0.1 + 0.2) + 0.3 *)
Example ex_line : contains g_line 1 = true /\ contains g_line 4 = true /\ gshortest_path f64 50 g_line 1 4 [] = Ok (f06', [1; 2; 3; 4]) /\
  a_add f64 (a_add f64 (a_add f64 (a_zero f64) f01) f02) f03 = f06' /\ ival 53 1024 f06' <> Inf /\
  gdistance_from_path f64 50 g_line [1; 2; 3; 4] = Ok f06'.
Proof. splits; try (vm_compute; reflexivity). vm_compute. discriminate. Qed.
(** addition of floats is not associative, so the laws of C86 do not hide exactness *)
Example ex_not_assoc : a_add f64 f01 (a_add f64 f02 f03) = f06 /\ a_add f64 (a_add f64 f01 f02) f03 = f06'.
Proof. split; vm_compute; reflexivity. Qed.
(** overflow and infinite edge values are covered *)
Example ex_overflow : let big := S754_finite false 9007199254740991 971 in f64_good big /\ a_add f64 big big = S754_infinity false /\ f64_good (S754_infinity false).
Proof. cbn zeta. splits; [split; vm_compute; reflexivity|vm_compute; reflexivity|split; reflexivity]. Qed.

(** ** C87.  The other entry points add up in a different order and disagree with shortest_path *)
Theorem C87_entry_points_disagree_refuted : reachable g_line /\ good_edges f64_good g_line /\
  gshortest_path f64 50 g_line 1 4 [] = Ok (f06', [1; 2; 3; 4]) /\
  gshortest_path_bidirectional f64 sort_wa 50 g_line 1 4 [] = Ok (f06, [1; 2; 3; 4]) /\
  eget (gall_pairs_shortest_paths f64 g_line) 1 4 = Some f06 /\ SFeqb f06 f06' = false.
Proof. destruct line_ok as [R G]. splits; auto; vm_compute; reflexivity. Qed.
Definition ops_tri : list (op nat unit spec_float) := [OpAddEdge 1 2 f01 false; OpAddEdge 2 3 f02 false; OpAddEdge 3 4 f03 false; OpAddEdge 1 4 f06 false].
Definition g_tri : graph nat unit spec_float := ok_or empty_graph (run ops_tri).
(** the bidirectional search reports a distance that distance_from_path does not give to the path it reports,
    and misses the path 1 -> 4 which is shorter than the reported one by distance_from_path *)
Theorem C87_bidirectional_reports_other_length_refuted : reachable g_tri /\ good_edges f64_good g_tri /\
  gshortest_path_bidirectional f64 sort_wa 50 g_tri 1 4 [] = Ok (f06, [1; 2; 3; 4]) /\
  gdistance_from_path f64 50 g_tri [1; 2; 3; 4] = Ok f06' /\ gdistance_from_path f64 50 g_tri [1; 4] = Ok f06 /\ SFltb f06 f06' = true.
Proof. assert (reachable g_tri) as R by (exists ops_tri; vm_compute; reflexivity).
  splits; auto; try (vm_compute; reflexivity). apply good_check; [apply reachable_wf, R|vm_compute; reflexivity]. Qed.
