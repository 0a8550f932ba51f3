(** Facts about GTsp: the heuristics end and return tours whatever the arithmetic does. *)
From Verif Require Import Prelude PreludeFacts Base BaseFacts BaseFacts2 BaseFacts3 Spec SpecFacts Loop SearchFacts BaseAlgFacts Sp SpFacts Perms TspSpec Tsp TspFacts TspGreedy TspOpt GSp GTspSpec GTsp.
Open Scope nat_scope.

Section Facts.
Context {A O W : Type} {EA : EqDec A} (tar : tsp_arith W).
Notation graph := (graph A O W).
Notation ar := (ta tar).
Implicit Types (g : graph) (t : list A).
Notation complete_g g := (gcomplete (fun v => a_eqb ar v (a_zero ar)) g).

Lemma zipwalk_closed t : zipwalk t = closed_steps t.
Proof. destruct t as [|h r]; reflexivity. Qed.
Lemma gvalues_spec g ps : forall vs, gvalues g ps = Ok vs <-> Forall2 (fun s v => edge g (fst s) (snd s) = Some v) ps vs.
Proof. induction ps as [|p ps IH]; intros vs; cbn [gvalues].
  - split; [intros E; injection E as <-; constructor|intros H; inversion H; reflexivity].
  - destruct (edge g (fst p) (snd p)) as [d|] eqn:E.
    + split.
      * intros H. destruct (gvalues g ps) as [vs'|e|]; cbn [bind] in H; try discriminate. injection H as <-. constructor; [exact E|]. apply IH. reflexivity.
      * intros H. inversion H as [|x v l l' H1 H2]; subst. rewrite E in H1. injection H1 as <-. apply IH in H2. rewrite H2. reflexivity.
    + split; [discriminate|]. intros H. inversion H; subst. congruence. Qed.
Lemma gdistance_spec g t d : gdistance tar g t = Ok d <-> exists vs, tour_values g t vs /\ d = ta_sum tar vs.
Proof. unfold gdistance, tour_values. rewrite <- zipwalk_closed. split.
  - intros H. destruct (gvalues g (zipwalk t)) as [vs|e|] eqn:E; cbn [bind] in H; try discriminate. injection H as <-. exists vs. split; [apply gvalues_spec, E|reflexivity].
  - intros (vs & H & ->). apply gvalues_spec in H. rewrite H. reflexivity. Qed.

Lemma vsum_dset k v (c : dict (list A) nat) : NoDup (dkeys c) -> vsum (dset k v c) + match dget k c with Some u => u | None => 0 end = vsum c + v.
Proof. unfold vsum. induction c as [|[x u] c IH]; intros ND; cbn; [lia|]. apply NoDup_cons_iff in ND. destruct ND as [Hx ND]. destruct (eq_dec k x) as [->|Hne]; cbn in *; [lia|]. specialize (IH ND). unfold dvals, list_sum in *. destruct (dget k c); cbn; lia. Qed.
Lemma list_sum_le l b : (forall x, In x l -> x <= b) -> list_sum l <= b * length l.
Proof. induction l as [|x l IH]; intros H; cbn; [lia|]. assert (x <= b) by (apply H; left; reflexivity). assert (list_sum l <= b * length l) by (apply IH; intros; apply H; right; assumption). unfold list_sum in *. lia. Qed.
Section G.
Context (g : graph) (Wf : wf g) (HC : complete_g g) (Hn : 2 <= length (nodes g)).
Lemma values_total t : ghamiltonian g t -> exists vs, tour_values g t vs.
Proof. intros Ht. unfold ghamiltonian in Ht. pose proof (Permutation_NoDup (Permutation_sym Ht) (wf_nodes _ Wf)) as ND. pose proof (Permutation_length Ht) as HL.
  assert (forall ps, (forall p, In p ps -> In (fst p) (nodes g) /\ In (snd p) (nodes g) /\ fst p <> snd p) -> exists vs, Forall2 (fun s v => edge g (fst s) (snd s) = Some v) ps vs) as K.
  { induction ps as [|p ps IH]; intros H; [exists []; constructor|]. destruct (H p (or_introl eq_refl)) as (K1 & K2 & K3). destruct (HC _ _ K1 K2 K3) as (v & E & _). destruct IH as [vs Hvs]; [intros q Hq; apply H; right; exact Hq|]. exists (v :: vs). constructor; assumption. }
  apply K. clear K. rewrite <- zipwalk_closed. destruct t as [|h r]; [intros p []|]. destruct r as [|z r]; [cbn in HL; lia|].
  assert (forall (l : list A) (x : A), NoDup (x :: l) -> forall p, In p (combine (x :: l) l) -> In (fst p) (x :: l) /\ In (snd p) (x :: l) /\ fst p <> snd p) as C.
  { clear. induction l as [|y l IH]; intros x ND p Hp; [destruct Hp|]. change (combine (x :: y :: l) (y :: l)) with ((x, y) :: combine (y :: l) l) in Hp. pose proof ND as ND0. apply NoDup_cons_iff in ND. destruct ND as [Hx ND]. destruct Hp as [<-|Hp].
    - cbn [fst snd]. splits; [left; reflexivity|right; left; reflexivity|]. intros ->. apply Hx. left. reflexivity.
    - destruct (IH y ND p Hp) as (H1 & H2 & H3). splits; [right; exact H1|right; exact H2|exact H3]. }
  intros p Hp. unfold zipwalk in Hp. destruct Hp as [<-|Hp].
  - cbn [fst snd]. assert (In (last (h :: z :: r) h) (z :: r)) as Hl. { change (last (h :: z :: r) h) with (last (z :: r) h). assert (z :: r <> []) as Hne by discriminate. destruct (exists_last Hne) as (l & u & ->). rewrite last_last. apply in_app_iff. right. left. reflexivity. }
    splits; [apply (Permutation_in _ Ht); right; exact Hl|apply (Permutation_in _ Ht); left; reflexivity|]. intros E. rewrite E in Hl. apply NoDup_cons_iff in ND. tauto.
  - destruct (C _ _ ND p Hp) as (H1 & H2 & H3). splits; [apply (Permutation_in _ Ht), H1|apply (Permutation_in _ Ht), H2|exact H3]. Qed.
Lemma gdist_total t : ghamiltonian g t -> exists vs, tour_values g t vs /\ gdistance tar g t = Ok (ta_sum tar vs).
Proof. intros H. destruct (values_total t H) as [vs Hvs]. exists vs. split; [exact Hvs|]. apply gdistance_spec. eauto. Qed.
Lemma gdistret_total t : ghamiltonian g t -> exists d, gdistance_ret tar g t = Ok d.
Proof. intros H. unfold gdistance_ret. destruct (gdist_total t H) as (vs & Hvs & ->). cbn [bind]. pose proof (Permutation_length H) as HL. destruct t as [|h r]; [cbn in HL; lia|].
  unfold tour_values, closed_steps in Hvs. cbn [combine] in Hvs. inversion Hvs as [|x v l l' H1 H2]; subst. change (edge g (last (h :: r) h) h = Some v) in H1. rewrite H1. eauto. Qed.
Lemma gopt1_ok t : ghamiltonian g t -> exists t', gopt1 tar g t = Ok t' /\ ghamiltonian g t'.
Proof. intros Ht. unfold gopt1. destruct (gdistret_total t Ht) as [d ->]. cbn [bind].
  match goal with |- context [foldM ?f ?l ?s] => destruct (foldM_inv (fun best => ghamiltonian g (snd best)) f l s) as ((d' & t') & -> & Hi) end; [exact Ht| |].
  - intros [d0 t0] [i j] H0 _. cbn [fst snd] in *. assert (ghamiltonian g (relocate t i j)) as Hr by (unfold ghamiltonian; rewrite relocate_perm; exact Ht). destruct (gdistret_total _ Hr) as [e ->]. cbn [bind]. destruct (a_ltb ar e d0); eexists; split; try reflexivity; cbn; auto.
  - cbn [bind]. exists t'. split; [reflexivity|exact Hi]. Qed.
Lemma gopt2_try_perm st ij : fst ij <= snd ij -> Permutation (fst (gopt2_try tar g st ij)) (fst st).
Proof. destruct st as [t any], ij as [i j]. cbn [fst snd]. intros H. unfold gopt2_try. destruct t as [|h r]; [reflexivity|]. set (t := h :: r). repeat (match goal with |- context [match gtruthy ?a ?e with _ => _ end] => destruct (gtruthy a e) end; try reflexivity). destruct (a_ltb _ _ _); [apply rev_seg_perm, H|reflexivity]. Qed.
Lemma gopt2_pass_perm l : (forall ij, In ij l -> fst ij <= snd ij) -> forall st, Permutation (fst (fold_left (gopt2_try tar g) l st)) (fst st).
Proof. induction l as [|ij l IH]; intros Hl st; cbn [fold_left]; [reflexivity|]. rewrite IH by (intros; apply Hl; right; assumption). apply gopt2_try_perm, Hl. left. reflexivity. Qed.
Lemma seg2_le n i j : In (i, j) (segments2 n) -> i <= j.
Proof. unfold segments2. intros H. apply in_flat_map in H. destruct H as (len & _ & H). apply in_map_iff in H. destruct H as (k & E & _). injection E as <- <-. lia. Qed.

Lemma gopt2_ok t : ghamiltonian g t -> exists t', returns (fun n => gopt2 tar n g t) (Ok t') /\ ghamiltonian g t'.
Proof. intros Ht. set (K := length (permutations (nodes g))). set (B := 100 * (2 * K + 1)). destruct (gdist_total t Ht) as (vs & Hvs & Ed).
  assert (exists r, returns (fun n => loop n (gopt2_step tar g) (t, t, ta_sum tar vs, [(t, 1)], 0)) r /\ exists t', r = Ok t' /\ ghamiltonian g t') as (r & Hr & t' & -> & H1).
  { apply (loop_returns_nat (gopt2_step tar g) (fun st => let '(t1, p0, d0, counter, inc) := st in ghamiltonian g t1 /\ ghamiltonian g p0 /\ NoDup (dkeys counter) /\ (forall k, In k (dkeys counter) -> ghamiltonian g k) /\ vsum counter = S inc /\ inc < B)
      (fun st => let '(_, _, _, _, inc) := st in B - inc)).
    - intros ((((t1, p0), d0), counter), inc) (I1 & I2 & I5 & I6 & I7 & I8). unfold gopt2_step. pose proof (gopt2_pass_perm (segments2 (length t1))) as HP. specialize (HP ltac:(intros [i j] H; apply (seg2_le _ _ _ H)) (t1, false)).
      destruct (fold_left (gopt2_try tar g) (segments2 (length t1)) (t1, false)) as [t2 any]. cbn [fst] in HP. assert (ghamiltonian g t2) as Ht2 by (unfold ghamiltonian; rewrite HP; exact I1). destruct (gdist_total t2 Ht2) as (vs2 & _ & ->).
      set (pd := if a_ltb ar (ta_sum tar vs2) d0 then _ else _). assert (ghamiltonian g (snd pd)) as P1.
      { unfold pd. destruct (a_ltb ar (ta_sum tar vs2) d0); cbn; auto. }
      destruct pd as [d0' p0']. cbn [fst snd] in *. destruct any; cbn [negb]; [|split; [discriminate|exists p0'; splits; auto]].
      set (c := dset t2 _ counter). assert (NoDup (dkeys c)) as C1 by (apply NoDup_dset; assumption).
      assert (forall k, In k (dkeys c) -> ghamiltonian g k) as C2. { intros k Hk. unfold c in Hk. apply In_dkeys_dset in Hk. destruct Hk as [->|Hk]; auto. }
      assert (vsum c = S (S inc)) as C3. { pose proof (vsum_dset t2 (match dget t2 counter with Some k => S k | None => 1 end) counter I5) as E. fold c in E. destruct (dget t2 counter); lia. }
      destruct ((S inc mod 100 =? 0) && existsb (fun x => 2 <? snd x) c) eqn:E; [split; [discriminate|exists p0'; splits; auto]|]. split; [|lia]. splits; auto.
      destruct (Nat.eq_dec (S inc) B) as [EB|]; [|lia]. exfalso. apply andb_false_iff in E. destruct E as [E|E].
      + apply Nat.eqb_neq in E. apply E. rewrite EB. unfold B. rewrite Nat.mul_comm. apply Nat.mod_mul. discriminate.
      + assert (vsum c <= 2 * length (dvals c)) as HV. { apply list_sum_le. intros x Hx. unfold dvals in Hx. apply in_map_iff in Hx. destruct Hx as ([k v] & <- & Hx). cbn. destruct (2 <? v) eqn:E2; [|apply Nat.ltb_ge in E2; exact E2]. exfalso. assert (existsb (fun x => 2 <? snd x) c = true) as Ct by (apply existsb_exists; exists (k, v); auto). congruence. }
        assert (length (dvals c) <= K) as HK. { unfold dvals. rewrite map_length. unfold K. rewrite <- (map_length fst c). apply (NoDup_incl_length C1). intros k Hk. apply In_permutations. apply C2, Hk. }
        unfold B in EB. lia.
    - splits; auto; try lia.
      + cbn. constructor; [intros []|constructor].
      + intros k [<-|[]]. exact Ht.  }
  exists t'. splits; auto. refine (returns_ext _ _ _ _ Hr). intros n. unfold gopt2. rewrite Ed. reflexivity. Qed.

(** 3-exchange: a result is a tour *)
Lemma seg3_spec n i j k : In (i, j, k) (segments3 n) -> i + 2 <= j /\ j + 2 <= k /\ k <= n.
Proof. unfold segments3. intros H. apply in_flat_map in H. destruct H as (i' & _ & H). apply in_flat_map in H. destruct H as (j' & H1 & H). apply in_map_iff in H. destruct H as (k' & E & H2). injection E as <- <- <-. apply in_seq in H1, H2. destruct (i' =? 0); lia. Qed.
Lemma exchange_perm t i j k : i <= j -> j <= k -> Permutation (firstn i t ++ (firstn (k - j) (skipn j t) ++ firstn (j - i) (skipn i t)) ++ skipn k t) t.
Proof. intros H1 H2. rewrite (split3 t i k) at 5 by lia. apply Permutation_app_head, Permutation_app_tail.
  rewrite (split3 (firstn (k - i) (skipn i t)) (j - i) (k - i)) by lia. rewrite (skipn_all2 (firstn (k - i) (skipn i t)) (n := k - i)) by (rewrite firstn_length; lia). rewrite app_nil_r.
  rewrite skipn_firstn_comm, skipn_skipn', !firstn_firstn. replace (i + (j - i)) with j by lia. replace (Nat.min (j - i) (k - i)) with (j - i) by lia. replace (k - i - (j - i)) with (k - j) by lia. replace (Nat.min (k - j) (k - j)) with (k - j) by lia. apply Permutation_app_comm. Qed.
Lemma gopt3_try_perm st ijk : (let '(i, j, k) := ijk in i <= j /\ j <= k) -> Permutation (fst (gopt3_try tar g st ijk)) (fst st).
Proof. destruct st as [t delta], ijk as [[i j] k]. intros [H1 H2]. unfold gopt3_try. destruct t as [|h r]; [reflexivity|]. set (t := h :: r) in *. cbv zeta.
  repeat match goal with |- context [if a_ltb ar ?x ?y then _ else _] => destruct (a_ltb ar x y) end; cbn [fst snd]; try reflexivity; try (apply rev_seg_perm; lia); apply exchange_perm; lia. Qed.
Lemma gopt3_pass_perm l : (forall i j k, In (i, j, k) l -> i <= j /\ j <= k) -> forall st, Permutation (fst (fold_left (gopt3_try tar g) l st)) (fst st).
Proof. induction l as [|[[i j] k] l IH]; intros Hl st; cbn [fold_left]; [reflexivity|]. rewrite IH by (intros; apply Hl; right; assumption). apply gopt3_try_perm. apply Hl. left. reflexivity. Qed.
Lemma gopt3_tour t : ghamiltonian g t -> forall n, match gopt3 tar n g t with Ok t' => ghamiltonian g t' | Err _ => False | OutOfFuel => True end.
Proof. intros Ht n. unfold gopt3. destruct (gdist_total t Ht) as (vs & _ & ->). cbn [bind]. generalize (ta_sum tar vs) as d0. assert (ghamiltonian g t) as Hp by exact Ht. revert Ht Hp. generalize t at 1 3 as t1. generalize t as p0. clear t vs.
  induction n as [|n IH]; intros p0 t1 Ht Hp d0; cbn [loop]; [exact Logic.I|]. unfold gopt3_step.
  pose proof (gopt3_pass_perm (segments3 (length t1))) as HP. specialize (HP ltac:(intros i j k H; apply seg3_spec in H; lia) (t1, a_zero ar)). destruct (fold_left (gopt3_try tar g) (segments3 (length t1)) (t1, a_zero ar)) as [t2 delta]. cbn [fst] in HP.
  assert (ghamiltonian g t2) as Ht2 by (unfold ghamiltonian; rewrite HP; exact Ht). destruct (gdist_total t2 Ht2) as (vs2 & _ & ->).
  destruct (a_ltb ar (ta_sum tar vs2) d0); destruct (g_leb tar (a_zero ar) delta); try assumption; apply IH; assumption. Qed.
End G.

(** the greedy start *)
Lemma ggreedy_loop_eq n ds : forall ep seg, ggreedy_loop n ds ep seg = greedy_loop n (map (fun x : W * (A * A) => (0%Z, snd x)) ds) ep seg.
Proof. induction ds as [|[d [a b]] ds IH]; intros ep seg; cbn [ggreedy_loop greedy_loop map snd]; [reflexivity|]. destruct (dget a ep) as [sa|]; [|apply IH]. destruct (dget b ep) as [sb|]; [|apply IH]. destruct (list_eq_dec eq_dec sa sb); [apply IH|]. destruct (join ep sa sb a b) as [ep' seg']. destruct (length seg' =? n); [reflexivity|apply IH]. Qed.
Context (srt : list (W * (A * A)) -> list (W * (A * A))) (Hsrt : forall l, Permutation (srt l) l).
Lemma ggreedy_tour g t : wf g -> ggreedy tar srt g = Ok t -> ghamiltonian g t.
Proof. intros W0 H. unfold ggreedy in H. destruct (length (ggreedy_loop (length (nodes g)) (srt (ggreedy_pairs tar g)) (map (fun x => (x, [x])) (nodes g)) []) =? length (nodes g)) eqn:E; [|discriminate]. injection H as <-. apply Nat.eqb_eq in E. unfold ghamiltonian. rewrite ggreedy_loop_eq in *.
  apply (greedy_sound (nodes g) (wf_nodes _ W0) _ _ (map (fun x => [x]) (nodes g)) [] (SInv_init (nodes g) (wf_nodes _ W0))); auto. Qed.
Lemma ggreedy_ok g : wf g -> complete_g g -> 2 <= length (nodes g) -> exists t, ggreedy tar srt g = Ok t /\ ghamiltonian g t.
Proof. intros W0 HC Hn. assert (length (ggreedy_loop (length (nodes g)) (srt (ggreedy_pairs tar g)) (map (fun x => (x, [x])) (nodes g)) []) = length (nodes g)) as E.
  { rewrite ggreedy_loop_eq. apply (greedy_complete (nodes g) (wf_nodes _ W0) _ _ (map (fun x => [x]) (nodes g)) [] (SInv_init (nodes g) (wf_nodes _ W0))); [|rewrite map_length; exact Hn].
    intros s s' x y K1 K2 K3 K4 K5. apply in_map_iff in K1, K2. destruct K1 as (u & <- & Hu), K2 as (v & <- & Hv). apply end_in in K4, K5. destruct K4 as [->|[]], K5 as [->|[]].
    assert (x <> y) as Hne by congruence. assert (forall x y, In x (nodes g) -> In y (nodes g) -> x <> y -> In (x, y) (pairs_of (nodes g)) -> exists d, In (d, (x, y)) (map (fun x : W * (A * A) => (0%Z, snd x)) (srt (ggreedy_pairs tar g)))) as Hin.
    { intros p q Hp Hq Hpq Hi. destruct (HC p q Hp Hq Hpq) as (d & Hd & Hd0). exists 0%Z. apply in_map_iff. exists (d, (p, q)). split; [reflexivity|]. apply (Permutation_in _ (Permutation_sym (Hsrt _))). unfold ggreedy_pairs. apply in_flat_map. exists (p, q). split; [exact Hi|]. cbn [fst snd]. rewrite Hd. cbn [gtruthy]. rewrite Hd0. left. reflexivity. }
    destruct (pairs_of_in (nodes g) x y Hu Hv Hne) as [H|H]; [destruct (Hin x y Hu Hv Hne H) as [d Hd]|destruct (Hin y x Hv Hu (not_eq_sym Hne) H) as [d Hd]]; exists d; auto. }
  eexists. split; [unfold ggreedy; rewrite E, Nat.eqb_refl; reflexivity|]. apply (ggreedy_tour g); [exact W0|]. unfold ggreedy. rewrite E, Nat.eqb_refl. reflexivity. Qed.
End Facts.
