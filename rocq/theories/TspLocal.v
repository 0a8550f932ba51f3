(** The tours that the improvement moves of tsp.py leave: no move shortens them. *)
From Verif Require Import Prelude PreludeFacts Base BaseFacts BaseFacts2 BaseFacts3 Spec Loop Perms Sp Tsp TspSpec TspFacts TspOpt.
Open Scope Z_scope.
Section Local.
Context {A O : Type} {EA : EqDec A}.
Notation graph := (graph A O Z).
Context (g : graph) (W : wf g) (HC : complete g) (Hn : (2 <= length (nodes g))%nat) (Hsym : symmetric g).
Implicit Types (t p q P Q : list A).
Notation cl := (clen (dmax g)).
Lemma w_sym x y : dmax g x y = dmax g y x.
Proof. apply dmax_sym, Hsym. Qed.
Lemma clen_cut (P X Q : list A) h : X <> [] -> Q ++ P <> [] ->
  cl (P ++ X ++ Q) = pl (dmax g) X + pl (dmax g) (Q ++ P) + dmax g (last X h) (hd h (Q ++ P)) + dmax g (last (Q ++ P) h) (hd h X).
Proof. intros HX HR. rewrite (clen_rotate _ P (X ++ Q)), <- app_assoc. rewrite (clen_pl _ _ h) by (apply app_ne, HX). rewrite (pl_app _ _ _ h) by assumption. rewrite (last_app X (Q ++ P)) by exact HR. rewrite (hd_app X (Q ++ P)) by exact HX. lia. Qed.
Lemma clen_rev t : cl (rev t) = cl t.
Proof. destruct t as [|h r]; [reflexivity|]. assert (h :: r <> []) as H by discriminate. rewrite (clen_pl _ _ h) by (apply rev_ne, H). rewrite (clen_pl _ (h :: r) h) by exact H. rewrite (pl_rev _ w_sym), last_rev, hd_rev, w_sym. reflexivity. Qed.
Lemma nodup_ham t : hamiltonian g t -> NoDup t.
Proof. intros H. apply (Permutation_NoDup (Permutation_sym H)), (wf_nodes _ W). Qed.
Lemma truthy_edge x y : In x (nodes g) -> In y (nodes g) -> x <> y -> truthy (edge g x y) = Some (dmax g x y).
Proof. intros Hx Hy Hxy. destruct (HC x y Hx Hy Hxy) as (v & E & Hv). unfold dmax. rewrite E. unfold truthy. destruct (Z.eqb_spec v 0); [congruence|reflexivity]. Qed.
Lemma cut_dec t i j : (i <= j)%nat -> (j <= length t)%nat -> exists P X Q, t = P ++ X ++ Q /\ length P = i /\ length X = (j - i)%nat.
Proof. intros H1 H2. exists (firstn i t), (firstn (j - i) (skipn i t)), (skipn j t). splits; [apply split3, H1|rewrite firstn_length; lia|rewrite firstn_length, skipn_length; lia]. Qed.
Lemma opt2_try_exact t b i j : hamiltonian g t -> (i + 2 <= j)%nat -> (j <= length t)%nat -> (j - i < length t)%nat ->
  (opt2_try g (t, b) (i, j) = (t, b) /\ cl t <= cl (rev_seg t i j)) \/ (opt2_try g (t, b) (i, j) = (rev_seg t i j, true) /\ cl (rev_seg t i j) < cl t).
Proof. intros Ht H1 H2 H3. destruct (cut_dec t i j ltac:(lia) H2) as (P & X & Q & Et & LP & LX).
  assert (X <> []) as NX by (intros ->; cbn in LX; lia). pose proof Et as Elen. apply (f_equal (@length A)) in Elen. rewrite !app_length in Elen.
  assert (Q ++ P <> []) as NR. { intros C. apply app_eq_nil in C. destruct C as [-> ->]. cbn in *. lia. }
  assert (t <> []) as Nt by (intros ->; cbn in H2; lia). assert (exists h r, t = h :: r) as (h & r & E0) by (clear - Nt; destruct t; [congruence|eauto]).
  pose proof (nodup_ham _ Ht) as ND.
  unfold opt2_try. cbv beta iota. assert (forall (Z0 : list A * bool) Y, match t with [] => Z0 | h' :: _ => Y h' end = Y h) as EM by (intros; rewrite E0; reflexivity). rewrite EM. clear EM. cbv zeta. set (n := length t) in *.
  assert (nth (prev n i) t h = last (Q ++ P) h) as Ea. { unfold prev. destruct i as [|i].
    - destruct P; [|discriminate]. cbn [app] in *. rewrite app_nil_r. assert (Q <> []) as NQ by (intros ->; apply NR; reflexivity). rewrite <- (last_app X Q h NQ), <- Et. symmetry. apply (last_nth g Hn).
    - rewrite Et, (nth_end g Hn P) by exact LP. symmetry. apply last_app. intros ->. discriminate. }
  assert (nth i t h = hd h X) as Eb. { rewrite Et. rewrite (nth_at g Hn) by (auto; apply app_ne, NX). apply hd_app, NX. }
  assert (nth (j - 1) t h = last X h) as Ec. { rewrite Et, app_assoc. rewrite (nth_end g Hn (P ++ X)) by (rewrite app_length; lia). apply last_app, NX. }
  assert (nth (j mod n) t h = hd h (Q ++ P)) as Ed. { destruct (Nat.eq_dec j n) as [->|Hk].
    - rewrite Nat.mod_same by lia. destruct Q; [|cbn in Elen; lia]. cbn [app] in *. rewrite <- (hd_app P (X ++ []) h NR), <- Et. symmetry. apply hd_nth.
    - rewrite Nat.mod_small by lia. assert (Q <> []) as NQ by (intros ->; cbn in Elen; lia). rewrite Et, app_assoc. rewrite (nth_at g Hn (P ++ X)) by (try (rewrite !app_length; lia); exact NQ). symmetry. apply hd_app, NQ. }
  rewrite Ea, Eb, Ec, Ed. clear Ea Eb Ec Ed.
  assert (rev_seg t i j = P ++ rev X ++ Q) as R1 by (rewrite Et; apply (rev_seg_app g Hn); lia). rewrite R1.
  assert (forall x, In x X -> ~ In x (Q ++ P)) as Hdis.
  { intros x Hx Hy. rewrite Et in ND. apply NoDup_app_iff in ND. destruct ND as (_ & ND & D1). apply NoDup_app_iff in ND. destruct ND as (_ & _ & D2). apply in_app_or in Hy. destruct Hy as [Hy|Hy]; [apply (D2 x Hx Hy)|apply (D1 x Hy), in_or_app; auto]. }
  assert (forall x, In x t -> In x (nodes g)) as Hin by (intros x Hx; apply (Permutation_in _ Ht), Hx).
  assert (forall (L : list A), L <> [] -> In (hd h L) L /\ In (last L h) L) as HL.
  { intros L HN. split; [destruct L; [congruence|left; reflexivity]|]. destruct (exists_last HN) as (L' & y & ->). rewrite last_last. apply in_or_app. cbn; auto. }
  destruct (HL X NX) as [X1 X2]. destruct (HL _ NR) as [Y1 Y2].
  assert (forall x, In x X -> In x t) as HXt by (intros x Hx; rewrite Et, !in_app_iff; auto). assert (forall x, In x (Q ++ P) -> In x t) as HYt by (intros x Hx; apply in_app_or in Hx; rewrite Et, !in_app_iff; tauto).
  assert (forall x y, In x X -> In y (Q ++ P) -> truthy (edge g x y) = Some (dmax g x y) /\ truthy (edge g y x) = Some (dmax g y x)) as HT.
  { intros x y Hx Hy. assert (x <> y) as Hxy by (intros ->; apply (Hdis y Hx Hy)). split; apply truthy_edge; auto. }
  rewrite (proj2 (HT _ _ X1 Y2)), (proj1 (HT _ _ X2 Y1)), (proj2 (HT _ _ X2 Y2)), (proj1 (HT _ _ X1 Y1)).
  pose proof (clen_cut P X Q h NX NR) as C0. rewrite <- Et in C0. pose proof (clen_cut P (rev X) Q h (rev_ne _ NX) NR) as C1. rewrite (pl_rev _ w_sym), last_rev, hd_rev in C1.
  match goal with |- context [if ?c <? ?d then _ else _] => destruct (Z.ltb_spec c d) as [C|C] end; [right|left]; (split; [reflexivity|]); lia. Qed.
Lemma segments2_spec n i j : In (i, j) (segments2 n) <-> (i + 2 <= j /\ j <= n /\ j - i < n)%nat.
Proof. unfold segments2. rewrite in_flat_map. split.
  - intros (len & H1 & H2). rewrite <- in_rev in H1. apply in_seq in H1. apply in_map_iff in H2. destruct H2 as (k & E & Hk). rewrite <- in_rev in Hk. apply in_seq in Hk. injection E as <- <-. lia.
  - intros (H1 & H2 & H3). exists (j - i)%nat. split; [rewrite <- in_rev; apply in_seq; lia|]. apply in_map_iff. exists i. split; [f_equal; lia|rewrite <- in_rev; apply in_seq; lia]. Qed.
Lemma opt2_pass l : forall t b, hamiltonian g t -> (forall i j, In (i, j) l -> (i + 2 <= j /\ j <= length t /\ j - i < length t)%nat) ->
  exists t' b', fold_left (opt2_try g) l (t, b) = (t', b') /\ hamiltonian g t' /\
    ((t' = t /\ b' = b /\ forall i j, In (i, j) l -> cl t <= cl (rev_seg t i j)) \/ (cl t' < cl t /\ b' = true)).
Proof. induction l as [|[i j] l IH]; intros t b Ht Hl; cbn [fold_left]; [exists t, b; splits; auto; left; splits; auto; intros i j []|].
  destruct (Hl i j (or_introl eq_refl)) as (H1 & H2 & H3). destruct (opt2_try_exact t b i j Ht H1 H2 H3) as [[-> Hge]|[-> Hlt]].
  - destruct (IH t b Ht) as (t' & b' & -> & Ht' & [(-> & -> & HS)|HS]); [intros i' j' H; apply Hl; right; exact H| |].
    + exists t, b. splits; auto. left. splits; auto. intros i' j' [E|H]; [injection E as <- <-; exact Hge|auto].
    + exists t', b'. splits; auto.
  - assert (Permutation (rev_seg t i j) t) as HP by (apply rev_seg_perm; lia). destruct (IH (rev_seg t i j) true) as (t' & b' & -> & Ht' & HS); [unfold hamiltonian; rewrite HP; exact Ht|intros i' j' H; rewrite (Permutation_length HP); apply Hl; right; exact H|].
    exists t', b'. splits; auto. right. destruct HS as [(-> & -> & _)|[HS ->]]; split; auto; lia. Qed.
(** no reversal of a segment shortens the tour *)
Definition two_opt t : Prop := forall P X Q, t = P ++ X ++ Q -> cl t <= cl (P ++ rev X ++ Q).
Lemma two_opt_segments t : (forall i j, (i + 2 <= j /\ j <= length t /\ j - i < length t)%nat -> cl t <= cl (rev_seg t i j)) -> two_opt t.
Proof. intros H P X Q Et. destruct (le_lt_dec 2 (length X)) as [C|C].
  - destruct (le_lt_dec (length t) (length X)) as [C'|C'].
    + pose proof Et as El. apply (f_equal (@length A)) in El. rewrite !app_length in El. destruct P; [|cbn in El; lia]. destruct Q; [|cbn in El; lia]. rewrite app_nil_r in *. cbn [app] in *. subst X. rewrite clen_rev. lia.
    + assert (rev_seg t (length P) (length P + length X) = P ++ rev X ++ Q) as <- by (rewrite Et; apply (rev_seg_app g Hn); lia). apply H. rewrite Et, !app_length in *. lia.
  - assert (rev X = X) as -> by (destruct X as [|x [|y X]]; [reflexivity|reflexivity|cbn in C; lia]). rewrite <- Et. lia. Qed.
Lemma opt2_local t t' n : hamiltonian g t -> opt2 n g t = Ok t' -> two_opt t'.
Proof. intros Ht E. unfold opt2 in E. rewrite (dist_total g W HC Hn t Ht) in E. cbn [bind] in E.
  destruct (loop_partial (opt2_step g) (fun st => let '(t1, p0, d0, counter, inc) := st in hamiltonian g t1 /\ p0 = t1 /\ d0 = cl t1 /\ (forall k v, In (k, v) counter -> cl t1 <= cl k /\ (v <= 1)%nat))
    (fun r => match r with Ok t' => two_opt t' | _ => True end)) with (n := n) (s := (t, t, cl t, [(t, 1%nat)], 0%nat)) (r := Ok t') as [C|H]; [| |exact E|discriminate|exact H].
  - intros ((((t1, p0), d0), counter), inc) (I1 & -> & -> & I4). unfold opt2_step.
    destruct (opt2_pass (segments2 (length t1)) t1 false I1) as (t2 & b & -> & H2 & HS); [intros i j H; apply segments2_spec, H|]. rewrite (dist_total g W HC Hn t2 H2).
    destruct HS as [(-> & -> & HS)|[HS ->]].
    + rewrite Z.ltb_irrefl. cbn [negb]. apply two_opt_segments. intros i j H. apply HS, segments2_spec, H.
    + assert (cl t2 <? cl t1 = true) as -> by (apply Z.ltb_lt, HS). cbn [negb].
      assert (dget t2 counter = None) as Hnew. { destruct (dget t2 counter) as [v|] eqn:Ed; [|reflexivity]. apply dget_In in Ed. apply I4 in Ed. lia. }
      rewrite Hnew. set (c := dset t2 1%nat counter). assert (forall k v, In (k, v) c -> cl t2 <= cl k /\ (v <= 1)%nat) as Hc.
      { intros k v Hk. unfold c in Hk. rewrite dset_notin in Hk by (apply dget_None, Hnew). apply in_app_or in Hk. destruct Hk as [Hk|[Hk|[]]]; [apply I4 in Hk; lia|injection Hk as <- <-; lia]. }
      assert (existsb (fun x => (2 <? snd x)%nat) c = false) as ->.
      { apply not_true_iff_false. intros C. apply existsb_exists in C. destruct C as ([k v] & H & C). apply Hc in H. cbn [snd] in C. apply Nat.ltb_lt in C. lia. }
      rewrite andb_false_r. splits; auto.
  - splits; auto. intros k v [E'|[]]. injection E' as <- <-. lia. Qed.
Lemma opt2_same t t' n : hamiltonian g t -> opt2 n g t = Ok t' -> t' = t \/ cl t' < cl t.
Proof. intros Ht E. unfold opt2 in E. rewrite (dist_total g W HC Hn t Ht) in E. cbn [bind] in E.
  destruct (loop_partial (opt2_step g) (fun st => let '(t1, p0, d0, counter, inc) := st in hamiltonian g t1 /\ d0 = cl p0 /\ (p0 = t \/ cl p0 < cl t))
    (fun r => match r with Ok t' => t' = t \/ cl t' < cl t | _ => True end)) with (n := n) (s := (t, t, cl t, [(t, 1%nat)], 0%nat)) (r := Ok t') as [C|H]; [| |exact E|discriminate|exact H].
  - intros ((((t1, p0), d0), counter), inc) (I1 & -> & I3). unfold opt2_step.
    pose proof (opt2_pass_perm g (segments2 (length t1))) as HP. specialize (HP ltac:(intros [i j] H; apply segments2_spec in H; cbn; lia) (t1, false)).
    destruct (fold_left (opt2_try g) (segments2 (length t1)) (t1, false)) as [t2 any]. cbn [fst] in HP. assert (hamiltonian g t2) as Ht2 by (unfold hamiltonian; rewrite HP; exact I1). rewrite (dist_total g W HC Hn t2 Ht2).
    set (pd := if cl t2 <? cl p0 then _ else _). assert (fst pd = cl (snd pd) /\ (snd pd = t \/ cl (snd pd) < cl t)) as (P1 & P2).
    { unfold pd. destruct (Z.ltb_spec (cl t2) (cl p0)) as [C|C]; cbn; split; auto. right. destruct I3 as [->|I3]; lia. }
    destruct pd as [d0' p0']. cbn [fst snd] in *. destruct any; cbn [negb]; [|exact P2]. destruct ((_ =? 0)%nat && _); [exact P2|]. splits; auto.
  - splits; auto. Qed.
(** *** the 3-exchange moves *)
Lemma segments3_in n i j k : (i + 2 <= j /\ j + 2 <= k /\ k <= n /\ (i = 0 -> k < n))%nat -> In (i, j, k) (segments3 n).
Proof. intros (H1 & H2 & H3 & H4). unfold segments3. apply in_flat_map. exists i. split; [apply in_seq; lia|]. apply in_flat_map. exists j. split; [apply in_seq; lia|]. apply in_map. apply in_seq. destruct (Nat.eqb_spec i 0); lia. Qed.
Definition stable3 t (i j k : nat) : Prop :=
  forall u, In u [rev_seg t i j; rev_seg t j k; firstn i t ++ (firstn (k - j) (skipn j t) ++ firstn (j - i) (skipn i t)) ++ skipn k t; rev_seg t i k] -> cl t <= cl u.
Lemma opt3_pass_stable l : forall t delta, (forall i j k, In (i, j, k) l -> (i + 2 <= j /\ j + 2 <= k /\ k <= length t /\ (i = 0 -> k < length t))%nat) ->
  exists t', fold_left (opt3_try g) l (t, delta) = (t', delta + (cl t' - cl t)) /\ Permutation t' t /\
    ((t' = t /\ forall i j k, In (i, j, k) l -> stable3 t i j k) \/ cl t' < cl t).
Proof. induction l as [|[[i j] k] l IH]; intros t delta H; cbn [fold_left]; [exists t; splits; [f_equal; lia|reflexivity|left; split; [reflexivity|intros ? ? ? []]]|].
  destruct (H i j k (or_introl eq_refl)) as (H1 & H2 & H3 & H4). destruct (opt3_try_exact g Hn Hsym t delta i j k H1 H2 H3 H4) as (t1 & -> & P1 & L1 & T1 & S1).
  destruct (IH t1 (delta + (cl t1 - cl t))) as (t2 & -> & P2 & T2).
  { intros i' j' k' Hi. rewrite (Permutation_length P1). apply H. right. exact Hi. }
  exists t2. splits; [f_equal; lia|rewrite P2; exact P1|]. destruct T1 as [->|T1].
  - destruct T2 as [[-> T2]|T2]; [left; split; [reflexivity|]|right; exact T2]. intros i' j' k' [E|Hi]; [injection E as <- <- <-; exact S1|auto].
  - right. destruct T2 as [[-> _]|T2]; lia. Qed.
Lemma opt3_local t t' n : hamiltonian g t -> opt3 n g t = Ok t' ->
  (t' = t \/ cl t' < cl t) /\ hamiltonian g t' /\ forall i j k, (i + 2 <= j /\ j + 2 <= k /\ k <= length t' /\ (i = 0 -> k < length t'))%nat -> stable3 t' i j k.
Proof. intros Ht E. unfold opt3 in E. rewrite (dist_total g W HC Hn t Ht) in E. cbn [bind] in E.
  destruct (loop_partial (opt3_step g) (fun st => let '(t1, p0, d0) := st in hamiltonian g t1 /\ p0 = t1 /\ d0 = cl t1 /\ (t1 = t \/ cl t1 < cl t))
    (fun r => match r with Ok t' => (t' = t \/ cl t' < cl t) /\ hamiltonian g t' /\ forall i j k, (i + 2 <= j /\ j + 2 <= k /\ k <= length t' /\ (i = 0 -> k < length t'))%nat -> stable3 t' i j k | _ => True end))
    with (n := n) (s := (t, t, cl t)) (r := Ok t') as [C|H]; [| |exact E|discriminate|exact H].
  - intros ((t1, p0), d0) (I1 & -> & -> & I4). unfold opt3_step. destruct (opt3_pass_stable (segments3 (length t1)) t1 0) as (t2 & -> & P2 & T2). { intros i j k H. apply (segments3_spec g Hn _ _ _ _ H). }
    assert (hamiltonian g t2) as Ht2 by (unfold hamiltonian; rewrite P2; exact I1). rewrite (dist_total g W HC Hn t2 Ht2). destruct T2 as [[-> T2]|T2].
    + rewrite Z.ltb_irrefl. replace (0 <=? 0 + (cl t1 - cl t1)) with true by (symmetry; apply Z.leb_le; lia). splits; auto. intros i j k H. apply T2, segments3_in, H.
    + assert (cl t2 <? cl t1 = true) as -> by (apply Z.ltb_lt, T2). replace (0 <=? 0 + (cl t2 - cl t1)) with false by (symmetry; apply Z.leb_gt; lia). splits; auto. right. destruct I4 as [->|I4]; lia.
  - splits; auto. Qed.
Lemma stable3_two_opt t : (7 <= length t)%nat -> (forall i j k, (i + 2 <= j /\ j + 2 <= k /\ k <= length t /\ (i = 0 -> k < length t))%nat -> stable3 t i j k) -> two_opt t.
Proof. intros Hl H. apply two_opt_segments. intros i j (H1 & H2 & H3). destruct (le_lt_dec (i + 4) j) as [C|C].
  - apply (H i (i + 2)%nat j); [lia|]. cbn; auto.
  - destruct (le_lt_dec j (length t - 2)) as [C2|C2].
    + apply (H i j (j + 2)%nat); [lia|]. cbn; auto.
    + apply (H 1%nat i j); [lia|]. cbn; auto. Qed.
(** no exchange of two neighbouring segments of at least two nodes each shortens the tour *)
Definition exchange_opt t : Prop := forall P X Y Q, t = P ++ X ++ Y ++ Q -> (2 <= length X)%nat -> (2 <= length Y)%nat -> cl t <= cl (P ++ Y ++ X ++ Q).
Lemma stable3_exchange t : (forall i j k, (i + 2 <= j /\ j + 2 <= k /\ k <= length t /\ (i = 0 -> k < length t))%nat -> stable3 t i j k) -> exchange_opt t.
Proof. intros H P X Y Q Et HX HY. destruct P as [|p P]; [destruct Q as [|q Q]|].
  - rewrite !app_nil_r in *. cbn [app] in *. rewrite Et, clen_rotate. lia.
  - rename Et into Et'. set (P := @nil A) in *. set (Q' := q :: Q) in *. assert (t = P ++ X ++ Y ++ Q') as Et by exact Et'. assert (0 < length Q')%nat as HQ by (cbn; lia). clearbody Q'. assert (length P = 0)%nat as HP0 by reflexivity. clearbody P.
    assert (P ++ Y ++ X ++ Q' = firstn (length P) t ++ (firstn (length P + length X + length Y - (length P + length X)) (skipn (length P + length X) t) ++ firstn (length P + length X - length P) (skipn (length P) t)) ++ skipn (length P + length X + length Y) t) as ->.
    { rewrite Et. rewrite (firstn_len P _ (length P)), (skipn_len P _ (length P)), (firstn_len X) by lia. rewrite (app_assoc P X). rewrite (skipn_len (P ++ X)) by (rewrite app_length; lia). rewrite (firstn_len Y) by lia. rewrite (app_assoc (P ++ X)). rewrite (skipn_len ((P ++ X) ++ Y)) by (rewrite !app_length; lia). rewrite <- !app_assoc. reflexivity. }
    apply (H (length P) (length P + length X)%nat (length P + length X + length Y)%nat); [rewrite Et, !app_length; lia|]. cbn; auto.
  - set (P' := p :: P) in *. assert (0 < length P')%nat as HP0 by (cbn; lia). clearbody P'.
    assert (P' ++ Y ++ X ++ Q = firstn (length P') t ++ (firstn (length P' + length X + length Y - (length P' + length X)) (skipn (length P' + length X) t) ++ firstn (length P' + length X - length P') (skipn (length P') t)) ++ skipn (length P' + length X + length Y) t) as ->.
    { rewrite Et. rewrite (firstn_len P' _ (length P')), (skipn_len P' _ (length P')), (firstn_len X) by lia. rewrite (app_assoc P' X). rewrite (skipn_len (P' ++ X)) by (rewrite app_length; lia). rewrite (firstn_len Y) by lia. rewrite (app_assoc (P' ++ X)). rewrite (skipn_len ((P' ++ X) ++ Y)) by (rewrite !app_length; lia). rewrite <- !app_assoc. reflexivity. }
    apply (H (length P') (length P' + length X)%nat (length P' + length X + length Y)%nat); [rewrite Et, !app_length; lia|]. cbn; auto. Qed.
End Local.
