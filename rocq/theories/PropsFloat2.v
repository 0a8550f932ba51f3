(** C87, the true part: how close the entry points are on floats, and when they agree. *)
From Coq Require Import SpecFloat.
From Verif Require Import Prelude PreludeFacts Base BaseFacts BaseFacts2 BaseFacts3 Spec SpecFacts Loop SpFacts Fw FwFacts GSp GSpec GSpFacts GBidirFacts Float64 FloatSpec FwFloat NearFloat PropsFloat.
Local Open Scope Z_scope.

(** shortest_path_bidirectional over any addition that is commutative and never decreases: it returns the sum
    of its own path, added from both ends to some meeting node, and every path outside the avoided nodes has
    such a sum that is not smaller *)
Theorem C87_bidirectional_rounded {A O W} {EA : EqDec A} (ar : arith W) (good : W -> Prop) (rk : W -> nat) (g : graph A O W) s e S srt :
  lawful ar good -> lawful2 ar good rk -> reachable g -> good_edges good g -> (forall l, Permutation (srt l) l) ->
  contains g s = true -> contains g e = true -> ~ In s S -> ~ In e S ->
  exists d p, returns (fun n => gshortest_path_bidirectional ar srt n g s e S) (Ok (d, p)) /\
    ((cutsum ar (edge g) s e p d /\ clear_of S p /\ a_ltb ar d (a_inf ar) = true /\
      forall p' d', lpath ar (edge g) s p' e d' -> clear_of S p' -> exists k, cutsum ar (edge g) s e p' k /\ a_ltb ar k d = false) \/
     (d = a_inf ar /\ p = [] /\
      forall p' d', lpath ar (edge g) s p' e d' -> clear_of S p' -> exists k, cutsum ar (edge g) s e p' k /\ a_ltb ar k (a_inf ar) = false)).
Proof. intros L L2 R G Hsrt Hs He HsS HeS. apply contains_In in Hs, He.
  destruct (gbidir_spec ar good L rk L2 g s e S srt (reachable_wf _ R) G Hsrt Hs He HsS HeS) as ([d p] & Hr & Hp). exists d, p. split; [exact Hr|exact Hp]. Qed.
(** ... and so on IEEE-754 binary64 *)
Theorem C87_bidirectional_floats {A O} {EA : EqDec A} (g : graph A O spec_float) s e S srt :
  reachable g -> good_edges f64_good g -> (forall l, Permutation (srt l) l) ->
  contains g s = true -> contains g e = true -> ~ In s S -> ~ In e S ->
  exists d p, returns (fun n => gshortest_path_bidirectional f64 srt n g s e S) (Ok (d, p)) /\
    ((cutsum f64 (edge g) s e p d /\ clear_of S p /\ SFltb d (S754_infinity false) = true /\
      forall p' d', lpath f64 (edge g) s p' e d' -> clear_of S p' -> exists k, cutsum f64 (edge g) s e p' k /\ SFltb k d = false) \/
     (d = S754_infinity false /\ p = [] /\
      forall p' d', lpath f64 (edge g) s p' e d' -> clear_of S p' -> exists k, cutsum f64 (edge g) s e p' k /\ SFltb k (S754_infinity false) = false)).
Proof. intros R G Hsrt Hs He HsS HeS. exact (C87_bidirectional_rounded f64 f64_good frk g s e S srt f64_lawful f64_lawful2 R G Hsrt Hs He HsS HeS). Qed.

(** shortest_path and shortest_path_bidirectional are both the exact distance outside the avoided nodes, up to as
    many roundings as the graph has nodes *)
Theorem C87_searches_near_partial {A O} {EA : EqDec A} (g : graph A O spec_float) s e S srt :
  reachable g -> good_edges f64_good g -> (forall l, Permutation (srt l) l) ->
  contains g s = true -> contains g e = true -> ~ In s S -> ~ In e S ->
  exists X d1 p1 d2 p2, dist_clear (fin_edge g) S s e X /\
    returns (fun n => gshortest_path f64 n g s e S) (Ok (d1, p1)) /\
    returns (fun n => gshortest_path_bidirectional f64 srt n g s e S) (Ok (d2, p2)) /\
    near_ext (Z.of_nat (length (nodes g))) X (ival 53 1024 d1) /\ near_ext (Z.of_nat (length (nodes g))) X (ival 53 1024 d2).
Proof. intros R G Hsrt Hs He HsS HeS. destruct (C86_shortest_path_floats g s e S R G Hs He) as (d1 & p1 & H1 & _).
  destruct (C87_bidirectional_floats g s e S srt R G Hsrt Hs He HsS HeS) as (d2 & p2 & H2 & _). apply contains_In in Hs, He.
  destruct (dist_clear_ex g R G S s e Hs He HsS) as [X HX]. exists X, d1, p1, d2, p2.
  assert (forall u v w, edge g u v = Some w -> True) as HT by auto. splits; auto.
  - destruct H1 as (_ & [n H1] & _); specialize (H1 n (le_n n)). eapply (sp_near (fun _ => True) near_ext near_rounding g R G HT s e S X d1 p1 n); eauto.
  - destruct H2 as (_ & [n H2] & _); specialize (H2 n (le_n n)). eapply (bi_near (fun _ => True) near_ext near_rounding g R G HT s e S srt X d2 p2 n); eauto. Qed.
(** the three entry points together *)
Theorem C87_entry_points_near_partial {A O} {EA : EqDec A} (g : graph A O spec_float) s e srt :
  reachable g -> good_edges f64_good g -> (forall l, Permutation (srt l) l) -> contains g s = true -> contains g e = true ->
  exists X d1 p1 d2 p2 d3, dist (fin_edge g) s e X /\
    returns (fun n => gshortest_path f64 n g s e []) (Ok (d1, p1)) /\
    returns (fun n => gshortest_path_bidirectional f64 srt n g s e []) (Ok (d2, p2)) /\
    eget (gall_pairs_shortest_paths f64 g) s e = Some d3 /\
    forall d, In d [d1; d2; d3] -> near_ext (Z.of_nat (length (nodes g))) X (ival 53 1024 d).
Proof. intros R G Hsrt Hs He. destruct (C86_shortest_path_floats g s e [] R G Hs He) as (d1 & p1 & H1 & _).
  destruct (C87_bidirectional_floats g s e [] srt R G Hsrt Hs He ltac:(intros []) ltac:(intros [])) as (d2 & p2 & H2 & _). apply contains_In in Hs, He.
  assert (forall u v w, edge g u v = Some w -> True) as HT by auto.
  destruct (fw_float g R G (fun _ => True) near_ext near_rounding HT) as (f & Ef & Hf). destruct (Hf s e Hs He) as (X & HX & _ & H3).
  exists X, d1, p1, d2, p2, (f s e). splits; auto.
  - rewrite Ef. unfold eget, gmat. rewrite (dget_map (fun v1 => map (fun v3 => (v3, f v1 v3)) (nodes g)) (nodes g) s Hs). apply (dget_map (f s) (nodes g) e He).
  - pose proof (dist_clear_nil _ s e X HX) as HC. intros d [<-|[<-|[<-|[]]]]; [| |exact H3].
    + destruct H1 as (_ & [n H1] & _); specialize (H1 n (le_n n)). eapply (sp_near (fun _ => True) near_ext near_rounding g R G HT s e [] X d1 p1 n); eauto.
    + destruct H2 as (_ & [n H2] & _); specialize (H2 n (le_n n)). eapply (bi_near (fun _ => True) near_ext near_rounding g R G HT s e [] srt X d2 p2 n); eauto. Qed.

(** ** when they agree exactly *)
(** every finite edge value is a multiple of 2^(j - 1074): for instance j = 1074, whole numbers *)
Definition multiples {A O} {EA : EqDec A} (j : Z) (g : graph A O spec_float) : Prop :=
  forall u v z, fin_edge g u v = Some z -> exists m, 0 <= m /\ z = m * 2 ^ j.
Lemma multiples_mult {A O} {EA : EqDec A} j (g : graph A O spec_float) : multiples j g -> forall u v w, edge g u v = Some w -> mult j (ival 53 1024 w).
Proof. intros H u v w Hw. specialize (H u v). unfold fin_edge in H. rewrite Hw in H. destruct (ival 53 1024 w) as [z|]; [apply H; reflexivity|exact Logic.I]. Qed.
(** if the edge values are multiples of 2^j and the distance is at most 2^53 2^j, all three are the exact distance *)
Theorem C87_integral_agree {A O} {EA : EqDec A} (g : graph A O spec_float) s e srt j x :
  reachable g -> good_edges f64_good g -> (forall l, Permutation (srt l) l) -> contains g s = true -> contains g e = true ->
  0 <= j < 2045 -> multiples j g -> dist (fin_edge g) s e (Fin x) -> x <= 2 ^ 53 * 2 ^ j ->
  exists d1 p1 d2 p2 d3,
    returns (fun n => gshortest_path f64 n g s e []) (Ok (d1, p1)) /\
    returns (fun n => gshortest_path_bidirectional f64 srt n g s e []) (Ok (d2, p2)) /\
    eget (gall_pairs_shortest_paths f64 g) s e = Some d3 /\
    (forall d, In d [d1; d2; d3] -> ival 53 1024 d = Fin x) /\
    (x < 2 ^ 53 * 2 ^ j -> wpath (fin_edge g) s p1 e x /\ wpath (fin_edge g) s p2 e x).
Proof. intros R G Hsrt Hs He Hj HM HX Hx. pose proof (multiples_mult j g HM) as HE. destruct (C86_shortest_path_floats g s e [] R G Hs He) as (d1 & p1 & H1 & P1).
  destruct (C87_bidirectional_floats g s e [] srt R G Hsrt Hs He ltac:(intros []) ltac:(intros [])) as (d2 & p2 & H2 & P2). apply contains_In in Hs, He.
  destruct (fw_float g R G (mult j) (exact_rel j) (exact_rounding j Hj) HE) as (f & Ef & Hf). destruct (Hf s e Hs He) as (X & HX' & _ & H3).
  assert (X = Fin x) as ->.
  { destruct HX as [[p Hp] Hmin]. destruct X as [y|]; [|destruct (HX' _ _ Hp)]. destruct HX' as [[q Hq] Hmin']. f_equal. specialize (Hmin _ _ Hq). specialize (Hmin' _ _ Hp). lia. }
  pose proof (dist_clear_nil _ s e (Fin x) HX) as HC.
  assert (forall d, exact_rel j (Z.of_nat (length (nodes g))) (Fin x) (ival 53 1024 d) -> ival 53 1024 d = Fin x) as EX by (intros d (_ & H & _); auto).
  assert (ival 53 1024 d1 = Fin x) as V1.
  { apply EX. destruct H1 as (_ & [n H1] & _); specialize (H1 n (le_n n)). eapply (sp_near (mult j) (exact_rel j) (exact_rounding j Hj) g R G HE s e [] (Fin x) d1 p1 n); eauto. }
  assert (ival 53 1024 d2 = Fin x) as V2.
  { apply EX. destruct H2 as (_ & [n H2] & _); specialize (H2 n (le_n n)). eapply (bi_near (mult j) (exact_rel j) (exact_rounding j Hj) g R G HE s e [] srt (Fin x) d2 p2 n); eauto. }
  exists d1, p1, d2, p2, (f s e). splits; auto.
  - rewrite Ef. unfold eget, gmat. rewrite (dget_map (fun v1 => map (fun v3 => (v3, f v1 v3)) (nodes g)) (nodes g) s Hs). apply (dget_map (f s) (nodes g) e He).
  - intros d [<-|[<-|[<-|[]]]]; auto.
  - intros Hlt. split.
    + destruct P1 as [(P1 & _)|(-> & _)]; [|discriminate V1]. apply (lp_exact j Hj g G HE s p1 e d1 x); auto.
    + destruct P2 as [(P2 & _)|(-> & _)]; [|discriminate V2]. apply (cut_exact j Hj g G HE s p2 e d2 x); auto. Qed.

(** *** examples *)
Lemma sort_wa_perm l : Permutation (sort_wa l) l.
Proof. induction l as [|x l IH]; [constructor|]. cbn [sort_wa fold_right]. transitivity (x :: sort_wa l); [|constructor; exact IH].
  fold (sort_wa l). generalize (sort_wa l). clear. intros m. induction m as [|y m IH]; [reflexivity|]. cbn [ins_wa]. destruct (SFltb (fst x) (fst y) || (SFeqb (fst x) (fst y) && (snd x <? snd y)%nat)); [reflexivity|].
  transitivity (y :: x :: m); [constructor; exact IH|apply perm_swap]. Qed.
Example ex_near : exists X, dist (fin_edge g_line) 1%nat 4%nat X /\ near_ext 4 X (ival 53 1024 f06) /\ near_ext 4 X (ival 53 1024 f06') /\ ival 53 1024 f06 <> ival 53 1024 f06'.
Proof. destruct C87_entry_points_disagree_refuted as (R & G & H1 & H2 & H3 & _).
  destruct (C87_entry_points_near_partial g_line 1%nat 4%nat sort_wa R G) as (X & d1 & p1 & d2 & p2 & d3 & HX & R1 & R2 & R3 & HN).
  - apply sort_wa_perm.
  - vm_compute; reflexivity.
  - vm_compute; reflexivity.
  - exists X. assert (Ok (f06', [1; 2; 3; 4]%nat) = Ok (d1, p1)) as E1 by (rewrite <- H1; apply (returns_of _ _ 50 R1); rewrite H1; discriminate).
    assert (Ok (f06, [1; 2; 3; 4]%nat) = Ok (d2, p2)) as E2 by (rewrite <- H2; apply (returns_of _ _ 50 R2); rewrite H2; discriminate).
    inv E1. inv E2. splits; auto; [apply HN; cbn; auto|apply HN; cbn; auto|vm_compute; discriminate]. Qed.
(** whole numbers: 1.0, 2.0, 3.0 *)
Definition w1 : spec_float := S754_finite false 4503599627370496 (-52).
Definition w2 : spec_float := S754_finite false 4503599627370496 (-51).
Definition w3 : spec_float := S754_finite false 6755399441055744 (-51).
Definition ops_whole : list (op nat unit spec_float) := [OpAddEdge 1 2 w1 false; OpAddEdge 2 3 w2 true; OpAddEdge 3 4 w3 false; OpAddEdge 1 3 w3 false; OpAddEdge 4 1 (S754_infinity false) false]%nat.
Definition g_whole : graph nat unit spec_float := ok_or empty_graph (run ops_whole).
Definition mult_check (j : Z) (w : spec_float) : bool := match ival 53 1024 w with Fin z => (0 <=? z) && (z mod 2 ^ j =? 0) | Inf => true end.
Lemma whole_ok : reachable g_whole /\ good_edges f64_good g_whole /\ multiples 1074 g_whole.
Proof. assert (reachable g_whole) as R by (exists ops_whole; vm_compute; reflexivity). splits; [exact R|apply good_check; [apply reachable_wf, R|vm_compute; reflexivity]|].
  intros u v z. unfold fin_edge. destruct (edge g_whole u v) as [w|] eqn:Ew; [|discriminate].
  assert (In (u, v, w) (edges g_whole)) as Hin by (apply In_edges; [apply reachable_wf, R|exact Ew]).
  assert (forallb (fun x => mult_check 1074 (snd x)) (edges g_whole) = true) as HC by (vm_compute; reflexivity).
  rewrite forallb_forall in HC. specialize (HC _ Hin). cbn [snd] in HC. unfold mult_check in HC. clear Hin Ew R.
  destruct (ival 53 1024 w) as [y|]; [|discriminate]. intros E. inv E. apply andb_prop in HC. destruct HC as [C1 C2]. apply Z.leb_le in C1. apply Z.eqb_eq in C2.
  exists (z / 2 ^ 1074). split; [apply Z.div_pos; [exact C1|apply Z.pow_pos_nonneg; lia]|].
  pose proof (Z.div_mod z (2 ^ 1074) (Z.pow_nonzero 2 1074 ltac:(lia) ltac:(lia))) as H. rewrite C2, Z.add_0_r, Z.mul_comm in H. exact H. Qed.
Example ex_whole : gshortest_path f64 50 g_whole 1%nat 4%nat [] = Ok (S754_finite false 6755399441055744 (-50), [1; 3; 4]%nat) /\
  gshortest_path_bidirectional f64 sort_wa 50 g_whole 1%nat 4%nat [] = Ok (S754_finite false 6755399441055744 (-50), [1; 3; 4]%nat) /\
  eget (gall_pairs_shortest_paths f64 g_whole) 1%nat 4%nat = Some (S754_finite false 6755399441055744 (-50)).
Proof. splits; vm_compute; reflexivity. Qed.
