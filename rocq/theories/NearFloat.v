(** Dijkstra and bidirectional Dijkstra on floats against the exact distances. *)
From Coq Require Import SpecFloat.
From Verif Require Import Prelude PreludeFacts Base BaseFacts BaseFacts2 BaseFacts3 Spec SpecFacts Loop SpFacts Fw FwFacts GSp GSpec GSpFacts GBidirFacts Float64 FloatSpec FwFloat.
Local Open Scope Z_scope.
Notation fgood := (Float64.fgood 53 1024).

(** *** the laws of floats which the bidirectional search needs *)
Definition frk (x : spec_float) : nat := match iv x with Fin z => Z.to_nat z | Inf => Z.to_nat BB end.
Lemma add_comm_float x y : fgood x -> fgood y -> SFadd 53 1024 x y = SFadd 53 1024 y x.
Proof. intros Gx Gy. destruct x as [sx|sx| |sx mx ex], y as [sy|sy| |sy my ey]; try reflexivity.
  - cbn [SFadd]. destruct sx, sy; reflexivity.
  - cbn [SFadd]. destruct Gx as [_ Gx], Gy as [_ Gy]. cbn in Gx, Gy. subst. reflexivity.
  - cbn [SFadd]. rewrite (Z.min_comm ey ex). f_equal. apply Z.add_comm. Qed.
Lemma f64_lawful2 : lawful2 f64 f64_good frk.
Proof. constructor.
  - intros x y. apply add_comm_float.
  - split; reflexivity.
  - intros x Gx. change (SFltb (S754_infinity false) x = false). rewrite (ltb_spec 53 1024 ltac:(lia) (S754_infinity false) x); [reflexivity|split; reflexivity|exact Gx].
  - intros x y Gx Gy Hlt. change (SFltb x y = true) in Hlt. rewrite (ltb_spec 53 1024 ltac:(lia) x y Gx Gy) in Hlt. pose proof (iv_rep x Gx) as Rx. pose proof (iv_rep y Gy) as Ry.
    unfold frk. destruct (iv x) as [a|], (iv y) as [b|]; cbn [ext_ltb repd] in *; try discriminate.
    + apply Z.ltb_lt in Hlt. apply Z2Nat.inj_lt; lia.
    + apply Z2Nat.inj_lt; lia. Qed.
Lemma le_iv x y : fgood x -> fgood y -> a_ltb f64 y x = false -> ext_le (iv x) (iv y).
Proof. intros Gx Gy H. change (SFltb y x = false) in H. rewrite (ltb_spec 53 1024 ltac:(lia) y x Gy Gx) in H. apply ext_ltb_ge in H. destruct (iv x), (iv y); cbn; auto. Qed.

Section N.
Context {A : Type} {EA : EqDec A} (eOK : ext -> Prop) (RR : Z -> ext -> ext -> Prop) (HR : rounding eOK RR).
Definition finE (E : A -> A -> option spec_float) (u v : A) : option Z :=
  match E u v with Some w => match iv w with Fin z => Some z | Inf => None end | None => None end.
Implicit Types (E : A -> A -> option spec_float) (p : list A).
Definition eok E : Prop := forall a b w, E a b = Some w -> fgood w /\ eOK (iv w).
Lemma eok_EG E : eok E -> EG f64_good E.
Proof. intros H x y w Hw. apply (H _ _ _ Hw). Qed.
Lemma eok_flip E : eok E -> eok (gflip E).
Proof. intros H x y w. apply H. Qed.
Lemma finE_nneg E u v z : eok E -> finE E u v = Some z -> 0 <= z.
Proof. intros HE. unfold finE. destruct (E u v) as [w|] eqn:Ew; [|discriminate]. intros H. pose proof (iv_rep w (proj1 (HE _ _ _ Ew))) as Hw. destruct (iv w); inv H. apply Hw. Qed.
Lemma r_weaks k k' X D : 0 <= k <= k' -> nneg X -> RR k X D -> RR k' X D.
Proof. intros [Hk Hle] HX H. replace k' with (k + Z.of_nat (Z.to_nat (k' - k))) by lia. clear Hle. induction (Z.to_nat (k' - k)) as [|n IH]; [rewrite Z.add_0_r; exact H|].
  replace (k + Z.of_nat (S n)) with (k + Z.of_nat n + 1) by lia. apply (r_weak _ _ HR); auto. lia. Qed.
Lemma lp_len E a p b d : lpath f64 E a p b d -> (1 <= length p)%nat.
Proof. intros H. destruct H; [cbn; lia|]. rewrite app_length. cbn. lia. Qed.
Lemma lp_near E a p b d : eok E -> lpath f64 E a p b d ->
  exists X, nneg X /\ RR (Z.of_nat (length p) - 1) X (iv d) /\ forall x, X = Fin x <-> wpath (finE E) a p b x.
Proof. intros HE H. induction H as [|p b c w d H (X & NX & RX & WX) Hw].
  - exists (Fin 0). splits; [cbn; lia|apply (r_base _ _ HR), (r_zero _ _ HR)|]. intros x. split.
    + intros Eq. inv Eq. constructor.
    + intros Hx. inversion Hx as [|? ? ? ? ? ? ? Hy]; [reflexivity|subst]. inversion Hy.
  - destruct (HE _ _ _ Hw) as [Gw Ew]. assert (fgood d) as Gd by (eapply (lp_good f64 f64_good f64_lawful); [apply eok_EG, HE|eauto]).
    pose proof (iv_rep w Gw) as Rw. pose proof (lp_len _ _ _ _ _ H) as Hl.
    assert (nneg (iv w)) as NW by (destruct (iv w); [apply Rw|exact Logic.I]).
    exists (ext_add X (iv w)). splits.
    + destruct X, (iv w); cbn [ext_add nneg repd] in *; try exact Logic.I. destruct Rw as [Rw _]; clear - NX Rw; lia.
    + rewrite app_length. cbn [length]. replace (Z.of_nat (length p + 1) - 1) with (Z.of_nat (length p) - 1 + 1) by lia.
      destruct (add_spec 53 1024 ltac:(lia) ltac:(lia) d w Gd Gw) as [_ Ea]. change (a_add f64 d w) with (SFadd 53 1024 d w). rewrite Ea.
      apply (r_add _ _ HR); auto; [lia|apply iv_rep, Gd|].
      apply (r_weaks 0); [lia|exact NW|]. apply (r_base _ _ HR), Ew.
    + intros x. split.
      * intros Eq. destruct X as [x1|]; [|discriminate]. destruct (iv w) as [z|] eqn:Ez; [|discriminate]. cbn in Eq. inv Eq.
        apply wpath_snoc with b; [apply WX; reflexivity|]. unfold finE. rewrite Hw, Ez. reflexivity.
      * intros Hx. assert (exists x1 z, wpath (finE E) a p b x1 /\ finE E b c = Some z /\ x = x1 + z) as (x1 & z & H1 & H2 & ->).
        { destruct p as [|h p] using rev_ind; [cbn in Hl; lia|]. clear IHp.
          assert (h = b) as ->. { apply lp_path in H. destruct p as [|h' p]; [cbn in H; inversion H as [|? ? ? ? ? H']; [congruence|inversion H']|].
            apply path_snoc_inv in H; [|discriminate]. destruct H as [<- _]. reflexivity. }
          rewrite <- app_assoc in Hx. cbn [app] in Hx. apply wpath_split in Hx. destruct Hx as (x1 & x2 & H1 & H2 & ->).
          apply wpath_inv2 in H2. destruct H2 as (_ & z & x3 & H2 & H3 & ->). exists x1, z. splits; auto. inversion H3 as [|? ? ? ? ? ? ? Hy]; [lia|subst]. inversion Hy. }
        unfold finE in H2. rewrite Hw in H2. destruct (iv w) as [z'|]; inv H2. apply WX in H1. subst X. reflexivity. Qed.
Lemma wp_lp E a p b x : wpath (finE E) a p b x -> exists d, lpath f64 E a p b d.
Proof. intros H. apply path_lp. apply wpath_path in H. revert H. generalize a. intros a' H. induction H as [|a1 c q e HS Hq IH]; [constructor|].
  econstructor; [|exact IH]. destruct HS as [z Hz]. unfold finE in Hz. destruct (E a1 c) as [w|] eqn:Ew; [|discriminate]. exists w. exact Ew. Qed.
(** the cut sums of a walk of exact length x *)
Lemma cut_near E a p b k x : eok E -> cutsum f64 E a b p k -> wpath (finE E) a p b x -> RR (Z.of_nat (length p)) (Fin x) (iv k).
Proof. intros HE (l1 & n & l2 & dl & dr & -> & H1 & H2 & ->) Hx. apply wpath_split in Hx. destruct Hx as (x1 & x2 & X1 & X2 & ->).
  apply wpath_rev in X2. cbn [rev] in X2.
  assert (0 <= x1) as N1 by (eapply wpath_nonneg; [|exact X1]; intros ? ? ?; apply finE_nneg, HE).
  assert (0 <= x2) as N2 by (eapply wpath_nonneg; [|exact X2]; intros u v w; apply (finE_nneg E v u w HE)).
  destruct (lp_near _ _ _ _ _ HE H1) as (Y1 & _ & R1 & W1). destruct (lp_near _ _ _ _ _ (eok_flip E HE) H2) as (Y2 & _ & R2 & W2).
  apply W1 in X1. change (fun x y => finE E y x) with (finE (gflip E)) in X2. apply W2 in X2. subst Y1 Y2.
  assert (fgood dl) as G1 by (eapply (lp_good f64 f64_good f64_lawful); [apply eok_EG, HE|eauto]).
  assert (fgood dr) as G2 by (eapply (lp_good f64 f64_good f64_lawful); [apply eok_EG, eok_flip, HE|eauto]).
  destruct (add_spec 53 1024 ltac:(lia) ltac:(lia) dl dr G1 G2) as [_ Ea]. change (a_add f64 dl dr) with (SFadd 53 1024 dl dr). rewrite Ea.
  change (Fin (x1 + x2)) with (ext_add (Fin x1) (Fin x2)). rewrite app_length in *. rewrite rev_length in R2. cbn [length] in *.
  replace (Z.of_nat (length l1 + S (length l2))) with (Z.of_nat (length l1) + Z.of_nat (length l2) + 1) by lia.
  apply (r_add _ _ HR); auto; [lia|apply iv_rep, G1|apply iv_rep, G2| |].
  - apply (r_weaks (Z.of_nat (length l1 + 1) - 1)); auto. lia.
  - apply (r_weaks (Z.of_nat (length l2 + 1) - 1)); auto. lia. Qed.
Lemma simple_len p (N : list A) : NoDup p -> incl p N -> (length p <= length N)%nat.
Proof. apply NoDup_incl_length. Qed.
Lemma lp_nodes E a p b d (N : list A) : (forall x y w, E x y = Some w -> In y N) -> In a N -> lpath f64 E a p b d -> incl p N.
Proof. intros HN Ha H. induction H as [|p b c w d H IH Hw]; [intros x [<-|[]]; exact Ha|]. intros x Hx. apply in_app_or in Hx. destruct Hx as [Hx|[<-|[]]]; eauto. Qed.
(** a cut sum is at least the rounded length of some walk, with fewer roundings than there are nodes *)
Lemma cut_lower E a p b k (N : list A) D : eok E -> cutsum f64 E a b p k -> (forall x y w, E x y = Some w -> In x N /\ In y N) -> In a N -> In b N ->
  iv k = Fin D -> exists q x D', wpath (finE E) a q b x /\ RR (Z.of_nat (length N)) (Fin x) (Fin D') /\ D' <= D /\ incl q p.
Proof. intros HE (l1 & n & l2 & dl & dr & -> & H1 & H2 & ->) HN Ha Hb HD.
  destruct (lp_simple f64 f64_good f64_lawful E _ _ _ _ (eok_EG _ HE) H1) as (q1 & e1 & Q1 & S1 & Le1 & I1).
  destruct (lp_simple f64 f64_good f64_lawful (gflip E) _ _ _ _ (eok_EG _ (eok_flip _ HE)) H2) as (q2 & e2 & Q2 & S2 & Le2 & I2).
  pose proof (lp_good f64 f64_good f64_lawful _ _ _ _ _ (eok_EG _ HE) H1) as G1. pose proof (lp_good f64 f64_good f64_lawful _ _ _ _ _ (eok_EG _ HE) Q1) as F1.
  pose proof (lp_good f64 f64_good f64_lawful _ _ _ _ _ (eok_EG _ (eok_flip _ HE)) H2) as G2. pose proof (lp_good f64 f64_good f64_lawful _ _ _ _ _ (eok_EG _ (eok_flip _ HE)) Q2) as F2.
  destruct (add_spec 53 1024 ltac:(lia) ltac:(lia) e1 e2 F1 F2) as [G3 Ea].
  assert (a_ltb f64 (a_add f64 dl dr) (a_add f64 e1 e2) = false) as Hle by (apply (add_mono f64 f64_good f64_lawful frk f64_lawful2); auto).
  apply le_iv in Hle; [|exact G3|apply (add_spec 53 1024); [lia|lia|exact G1|exact G2]]. rewrite HD in Hle.
  change (a_add f64 e1 e2) with (SFadd 53 1024 e1 e2) in Hle. pose proof (iv_rep _ G3) as R3.
  destruct (iv (SFadd 53 1024 e1 e2)) as [D'|] eqn:ED'; [|destruct Hle]. cbn [ext_le repd] in Hle, R3.
  assert (exists z1, iv e1 = Fin z1) as [z1 Z1] by (destruct (iv e1); [eauto|discriminate]). assert (exists z2, iv e2 = Fin z2) as [z2 Z2] by (destruct (iv e2); [eauto|rewrite Z1 in Ea; discriminate]).
  destruct (lp_near _ _ _ _ _ HE Q1) as (Y1 & N1 & R1 & W1). destruct (lp_near _ _ _ _ _ (eok_flip E HE) Q2) as (Y2 & N2 & R2 & W2).
  destruct Y1 as [x1|]; [|apply (r_isinf _ _ HR) in R1; congruence]. destruct Y2 as [x2|]; [|apply (r_isinf _ _ HR) in R2; congruence].
  pose proof (proj1 (W1 x1) eq_refl) as X1. pose proof (proj1 (W2 x2) eq_refl) as X2. apply wpath_rev in X2. change (fun x y => finE (gflip E) y x) with (finE E) in X2.
  assert (length q1 <= length N)%nat as L1 by (apply simple_len; [exact S1|]; eapply lp_nodes; [|exact Ha|exact Q1]; intros x y w Hw; apply (HN _ _ _ Hw)).
  assert (length q2 <= length N)%nat as L2 by (apply simple_len; [exact S2|]; eapply lp_nodes; [|exact Hb|exact Q2]; intros x y w Hw; apply (HN _ _ _ Hw)).
  destruct (wpath_head _ _ _ _ _ X2) as (t & Et). rewrite Et in X2. exists (q1 ++ t), (x1 + x2), D'.
  clear R3. split; [|split; [|split; [exact Hle|]]].
  - eapply wpath_app; eauto.
  - rewrite Ea. change (Fin (x1 + x2)) with (ext_add (Fin x1) (Fin x2)). pose proof (lp_len _ _ _ _ _ Q1). pose proof (lp_len _ _ _ _ _ Q2).
    replace (Z.of_nat (length N)) with (Z.of_nat (length N) - 1 + 1) by lia.
    apply (r_add _ _ HR); auto; [lia|apply iv_rep, F1|apply iv_rep, F2| |]; (eapply r_weaks; [|assumption|eassumption]); lia.
  - intros z Hz. apply in_app_or in Hz. destruct Hz as [Hz|Hz].
    + apply I1 in Hz. apply in_app_or in Hz. apply in_or_app. cbn. destruct Hz as [Hz|[Hz|[]]]; auto.
    + assert (In z (rev q2)) as Hz' by (rewrite Et; right; exact Hz). apply in_rev in Hz'. apply I2 in Hz'. apply in_app_or in Hz'. apply in_or_app. cbn. rewrite <- in_rev in Hz'. destruct Hz' as [Hz'|[Hz'|[]]]; auto. Qed.
(** *** a value between these bounds is the distance up to rounding *)
Lemma clear_incl (S p q : list A) : incl q p -> clear_of S p -> clear_of S q.
Proof. intros H1 H2 x Hx. apply H2, H1, Hx. Qed.
Lemma between E (S : list A) a b X n d : eok E -> dist_clear (finE E) S a b X -> 0 <= n -> fgood d ->
  (forall q x, wpath (finE E) a q b x -> clear_of S q -> NoDup q -> exists k, fgood k /\ RR n (Fin x) (iv k) /\ ext_le (iv d) (iv k)) ->
  (forall D, iv d = Fin D -> exists q x D', wpath (finE E) a q b x /\ clear_of S q /\ RR n (Fin x) (Fin D') /\ D' <= D) -> RR n X (iv d).
Proof. intros HE HX Hn Gd HU HL. destruct X as [x|]; unfold dist_clear in HX.
  - destruct HX as [(p & Hp & Hc) Hmin]. destruct (wpath_simple (finE E) a p b x ltac:(intros u v w; apply finE_nneg, HE) Hp) as (q & y & Hq & Nq & Hle & Hi).
    pose proof (clear_incl _ _ _ Hi Hc) as Hcq. assert (y = x) as -> by (specialize (Hmin _ _ Hq Hcq); lia).
    destruct (HU q x Hq Hcq Nq) as (k & Gk & Rk & Hdk). destruct (iv d) as [D|] eqn:ED.
    + destruct (HL D eq_refl) as (q' & y & D' & Hq' & Hc' & R' & Hle'). pose proof (iv_rep d Gd) as Rd. rewrite ED in Rd.
      apply (r_sand _ _ HR) with (y := y) (D' := iv k) (l := D'); auto.
      * split; [eapply wpath_nonneg; [|exact Hq]; intros u v w; apply finE_nneg, HE|eapply Hmin; eauto].
      * apply iv_rep, Gk.
    + destruct (iv k); [destruct Hdk|exact Rk].
  - assert (iv d = Inf) as ->.
    { destruct (iv d) as [D|]; [|reflexivity]. destruct (HL D eq_refl) as (q & x & D' & Hq & Hc & _). destruct (HX _ _ Hq Hc). }
    apply (r_weaks 0); [lia|exact Logic.I|]. apply (r_base _ _ HR), (r_inf _ _ HR). Qed.
End N.
Section Entry.
Context {A O : Type} {EA : EqDec A} (eOK : ext -> Prop) (RR : Z -> ext -> ext -> Prop) (HR : rounding eOK RR).
Context (g : graph A O spec_float) (R : reachable g) (G : good_edges f64_good g) (HE : forall u v w, edge g u v = Some w -> eOK (iv w)).
Implicit Types (S p : list A).
Lemma g_eok : eok eOK (edge g).
Proof. intros a b w H. split; [apply (G _ _ _ H)|apply (HE _ _ _ H)]. Qed.
Lemma wp_nodes s q e x : In s (nodes g) -> wpath (fin_edge g) s q e x -> incl q (nodes g).
Proof. intros Hs H. destruct (wp_lp (edge g) _ _ _ _ H) as [d Hd]. eapply lp_nodes; [|exact Hs|exact Hd]. intros a b w Hw. apply (edge_nodes g a b w (reachable_wf _ R) Hw). Qed.
Lemma sp_near s e S X d p n : In s (nodes g) -> In e (nodes g) -> dist_clear (fin_edge g) S s e X ->
  gshortest_path f64 n g s e S = Ok (d, p) -> RR (Z.of_nat (length (nodes g))) X (iv d).
Proof. intros Hs He HX Hrun. destruct (gshortest_path_spec f64 f64_good f64_lawful g s e S (reachable_wf _ R) G Hs He) as ([d0 p0] & Hr & Hp).
  assert (Ok (d, p) = Ok (d0, p0)) as Eq by (rewrite <- Hrun; apply (returns_of _ _ n Hr); rewrite Hrun; discriminate). injection Eq as <- <-. clear Hr Hrun.
  assert (fgood d) as Gd. { destruct Hp as [(Hp & _)|(-> & _)]; [eapply (lp_good f64 f64_good f64_lawful); [apply (eok_EG eOK), g_eok|eauto]|split; reflexivity]. }
  apply (between eOK RR HR (edge g) S s e X); auto; [apply g_eok|lia| |].
  - intros q x Hq Hc Nq. destruct (wp_lp (edge g) _ _ _ _ Hq) as [k Hk]. destruct (lp_near eOK RR HR _ _ _ _ _ g_eok Hk) as (Y & NY & RY & WY).
    assert (fgood k) as Gk by (eapply (lp_good f64 f64_good f64_lawful); [apply (eok_EG eOK), g_eok|eauto]).
    apply WY in Hq as EY. subst Y. exists k. splits; auto.
    + pose proof (lp_len _ _ _ _ _ Hk). pose proof (NoDup_incl_length Nq (wp_nodes _ _ _ _ Hs Hq)). eapply (r_weaks _ _ HR); [|exact NY|exact RY]. lia.
    + destruct Hp as [(_ & _ & _ & Hopt)|(_ & _ & Hno)]; [|destruct (Hno _ _ Hk Hc)]. apply le_iv; auto. apply (Hopt _ _ Hk Hc).
  - intros D HD. destruct Hp as [(Hp & Hc & Nd & _)|(-> & _)]; [|discriminate]. destruct (lp_near eOK RR HR _ _ _ _ _ g_eok Hp) as (Y & NY & RY & WY).
    destruct Y as [y|]; [|apply (r_isinf _ _ HR) in RY; congruence]. exists p, y, D. splits; auto; [apply WY; reflexivity| |lia].
    rewrite HD in RY. pose proof (lp_len _ _ _ _ _ Hp). pose proof (wp_nodes _ _ _ _ Hs (proj1 (WY y) eq_refl)) as Hi. pose proof (NoDup_incl_length Nd Hi).
    eapply (r_weaks _ _ HR); [|exact NY|exact RY]. lia. Qed.
Lemma bi_near s e S srt X d p n : (forall l, Permutation (srt l) l) -> In s (nodes g) -> In e (nodes g) -> ~ In s S -> ~ In e S -> dist_clear (fin_edge g) S s e X ->
  gshortest_path_bidirectional f64 srt n g s e S = Ok (d, p) -> RR (Z.of_nat (length (nodes g))) X (iv d).
Proof. intros Hsrt Hs He HsS HeS HX Hrun.
  destruct (gbidir_spec f64 f64_good f64_lawful frk f64_lawful2 g s e S srt (reachable_wf _ R) G Hsrt Hs He HsS HeS) as ([d0 p0] & Hr & Hp).
  assert (Ok (d, p) = Ok (d0, p0)) as Eq by (rewrite <- Hrun; apply (returns_of _ _ n Hr); rewrite Hrun; discriminate). injection Eq as <- <-. clear Hr Hrun.
  assert (forall q k, cutsum f64 (edge g) s e q k -> fgood k) as CG.
  { intros q k (l1 & m & l2 & dl & dr & _ & H1 & H2 & ->). apply (add_spec 53 1024); [lia|lia| |].
    - eapply (lp_good f64 f64_good f64_lawful); [apply (eok_EG eOK), g_eok|eauto].
    - eapply (lp_good f64 f64_good f64_lawful); [apply (eok_EG eOK), eok_flip, g_eok|eauto]. }
  assert (fgood d) as Gd. { destruct Hp as [(Hp & _)|(-> & _)]; [eapply CG, Hp|split; reflexivity]. }
  apply (between eOK RR HR (edge g) S s e X); auto; [apply g_eok|lia| |].
  - intros q x Hq Hc Nq. destruct (wp_lp (edge g) _ _ _ _ Hq) as [k' Hk].
    assert (exists k, cutsum f64 (edge g) s e q k /\ a_ltb f64 k d = false) as (k & Hcs & Hle).
    { destruct Hp as [(_ & _ & _ & Hopt)|(-> & _ & Hopt)]; destruct (Hopt _ _ Hk Hc) as (k & H1 & H2); eauto. }
    exists k. splits; [eapply CG, Hcs| |apply le_iv; auto; eapply CG, Hcs].
    pose proof (NoDup_incl_length Nq (wp_nodes _ _ _ _ Hs Hq)). pose proof (cut_near eOK RR HR _ _ _ _ _ _ g_eok Hcs Hq) as Rk.
    eapply (r_weaks _ _ HR); [|cbn|exact Rk]; [lia|]. eapply wpath_nonneg; [|exact Hq]. intros u v w. apply (finE_nneg eOK), g_eok.
  - intros D HD. destruct Hp as [(Hp & Hc & _)|(-> & _)]; [|discriminate].
    destruct (cut_lower eOK RR HR _ _ _ _ _ (nodes g) D g_eok Hp) as (q & x & D' & H1 & H2 & H3 & H4); auto.
    + intros x y w Hw. apply (edge_nodes g x y w (reachable_wf _ R) Hw).
    + exists q, x, D'. splits; auto. eapply clear_incl; eauto. Qed.
Lemma dist_clear_nil a b X : dist (fin_edge g) a b X -> dist_clear (fin_edge g) [] a b X.
Proof. destruct X as [x|]; cbn.
  - intros [[p Hp] H]. split; [exists p; split; [exact Hp|intros ? _ []]|]. intros p' z Hp' _. eauto.
  - intros H p z Hp. destruct (H _ _ Hp). Qed.
Lemma dist_ex (E : A -> A -> option Z) vs a b : (forall x y w, E x y = Some w -> 0 <= w /\ In x vs /\ In y vs) -> In a vs -> In b vs -> exists X, dist E a b X.
Proof. intros HV Ha Hb. assert (no_neg_cycle E) as Hc by (intros x p d Hp; eapply wpath_nonneg; [|exact Hp]; intros ? ? ? H; apply (HV _ _ _ H)).
  pose (F0 := fun a b => if eq_dec a b then Fin 0 else match E a b with Some w => Fin w | None => Inf end).
  destruct (fw_loop E vs Hc vs [] F0) as (F1 & E1 & HI); [intros x Hx; exact Hx| |].
  { intros u v Hu Hv. unfold F0. destruct (eq_dec u v) as [->|Hab].
    - split; [intros z Ez; inv Ez; exists [v]; constructor|]. intros d Hd. destruct (via_wpath _ _ _ _ _ Hd) as (p & Hp). cbn. eapply Hc; eauto.
    - split.
      + intros z. destruct (E u v) as [w|] eqn:Ew; [|discriminate]. intros Ez. inv Ez. exists [u; v]. rewrite <- (Z.add_0_r z). econstructor; [exact Ew|constructor].
      + intros d Hd. inversion Hd as [|? ? ? He|? ? ? ? ? ? []]; subst; [congruence|]. rewrite He. apply ext_le_refl. }
  destruct (HI a b Ha Hb) as [H1 H2]. rewrite app_nil_r in H2. exists (F1 a b).
  assert (forall p d, wpath E a p b d -> ext_le (F1 a b) (Fin d)) as H3.
  { intros p d Hp. apply H2. eapply wpath_via; [|exact Hp]. intros x y w He. rewrite <- in_rev. apply (HV _ _ _ He). }
  destruct (F1 a b) as [z|] eqn:Ef.
  - split; [apply H1; reflexivity|]. intros p z' Hp. apply (H3 _ _ Hp).
  - intros p z Hp. apply (H3 _ _ Hp). Qed.
Lemma dist_clear_ex S s e : In s (nodes g) -> In e (nodes g) -> ~ In s S -> exists X, dist_clear (fin_edge g) S s e X.
Proof. intros Hs He HS. pose (E' := fun u v => if mem u S || mem v S then None else fin_edge g u v).
  assert (forall u v w, E' u v = Some w -> fin_edge g u v = Some w /\ ~ In u S /\ ~ In v S) as HE'.
  { intros u v w. unfold E'. destruct (mem_spec u S) as [h|h]; [discriminate|]. destruct (mem_spec v S) as [h'|h']; [discriminate|]. auto. }
  assert (forall u q v z, ~ In u S -> wpath E' u q v z -> wpath (fin_edge g) u q v z /\ clear_of S q) as W1.
  { intros u q v z Hu H. induction H as [|a b q c w d He1 Hq IH]; [split; [constructor|intros x [<-|[]]; exact Hu]|].
    apply HE' in He1. destruct He1 as (H1 & H2 & H3). destruct (IH H3) as [I1 I2]. split; [econstructor; eauto|]. intros x [<-|Hx]; auto. }
  assert (forall u q v z, wpath (fin_edge g) u q v z -> clear_of S q -> wpath E' u q v z) as W2.
  { intros u q v z H. induction H as [|a b q c w d He1 Hq IH]; intros Hc; [constructor|]. econstructor; [|apply IH; intros x Hx; apply Hc; right; exact Hx].
    destruct (wpath_head _ _ _ _ _ Hq) as [t ->]. unfold E'. destruct (mem_spec a S) as [h|_]; [exfalso; apply (Hc a); cbn; auto|]. destruct (mem_spec b S) as [h|_]; [exfalso; apply (Hc b); cbn; auto|]. exact He1. }
  destruct (dist_ex E' (nodes g) s e) as [X HX]; auto.
  { intros x y w H. apply HE' in H. destruct H as [H _]. split; [eapply fin_edge_nneg; eauto|]. unfold fin_edge in H. destruct (edge g x y) as [w'|] eqn:Ew; [|discriminate]. apply (edge_nodes g x y w' (reachable_wf _ R) Ew). }
  exists X. destruct X as [x|]; cbn in HX |- *.
  - destruct HX as [[p Hp] Hmin]. split; [exists p; apply W1; auto|]. intros p' z' Hp' Hc. eapply Hmin, W2; eauto.
  - intros p z Hp Hc. eapply HX, W2; eauto. Qed.
End Entry.
(** *** exact values: the reported path is a shortest one *)
Section Exact.
Context {A O : Type} {EA : EqDec A} (j : Z) (Hj : 0 <= j < 2045).
Context (g : graph A O spec_float) (G : good_edges f64_good g) (HE : forall u v w, edge g u v = Some w -> mult j (iv w)).
Lemma lp_exact s p e d x : lpath f64 (edge g) s p e d -> iv d = Fin x -> x < 2 ^ 53 * 2 ^ j -> wpath (fin_edge g) s p e x.
Proof. intros Hp HD Hx. destruct (lp_near _ _ (exact_rounding j Hj) (edge g) _ _ _ _ (g_eok _ g G HE) Hp) as (Y & NY & RY & WY). rewrite HD in RY. apply WY.
  destruct Y as [y|]; [|discriminate]. cbn [exact_rel] in RY. destruct RY as (_ & R1 & R2). f_equal. destruct (Z.le_gt_cases y (2 ^ 53 * 2 ^ j)) as [C|C].
  - specialize (R1 C). congruence.
  - specialize (R2 ltac:(lia)). lia. Qed.
Lemma cut_exact s p e d x : cutsum f64 (edge g) s e p d -> iv d = Fin x -> x < 2 ^ 53 * 2 ^ j -> wpath (fin_edge g) s p e x.
Proof. intros Hcs HD Hx. pose proof (g_eok _ g G HE) as HO. assert (exists y, wpath (fin_edge g) s p e y) as [y Hy].
  { destruct Hcs as (l1 & n & l2 & dl & dr & -> & H1 & H2 & ->).
    assert (fgood dl) as G1 by (eapply (lp_good f64 f64_good f64_lawful); [apply (eok_EG _ _ HO)|eauto]).
    assert (fgood dr) as G2 by (eapply (lp_good f64 f64_good f64_lawful); [apply (eok_EG _ _ (eok_flip _ _ HO))|eauto]).
    destruct (add_spec 53 1024 ltac:(lia) ltac:(lia) dl dr G1 G2) as [_ Ea]. change (a_add f64 dl dr) with (SFadd 53 1024 dl dr) in HD. rewrite Ea in HD.
    destruct (lp_near _ _ (exact_rounding j Hj) _ _ _ _ _ HO H1) as (Y1 & _ & R1 & W1). destruct (lp_near _ _ (exact_rounding j Hj) _ _ _ _ _ (eok_flip _ _ HO) H2) as (Y2 & _ & R2 & W2).
    destruct Y1 as [y1|]; [|cbn in R1; rewrite R1 in HD; discriminate]. destruct Y2 as [y2|]; [|cbn in R2; rewrite R2 in HD; destruct (iv dl); discriminate].
    pose proof (proj1 (W1 y1) eq_refl) as X1. pose proof (proj1 (W2 y2) eq_refl) as X2. apply wpath_rev in X2. rewrite rev_app_distr, rev_involutive in X2. cbn [rev app] in X2.
    exists (y1 + y2). replace (l1 ++ n :: l2) with ((l1 ++ [n]) ++ l2) by (rewrite <- app_assoc; reflexivity). eapply wpath_app; [exact X1|exact X2]. }
  pose proof (cut_near _ _ (exact_rounding j Hj) _ _ _ _ _ _ HO Hcs Hy) as RY. rewrite HD in RY. cbn [exact_rel] in RY. destruct RY as (_ & R1 & R2).
  destruct (Z.le_gt_cases y (2 ^ 53 * 2 ^ j)) as [C|C]; [specialize (R1 C); inv R1; exact Hy|]. specialize (R2 ltac:(lia)). lia. Qed.
End Exact.
