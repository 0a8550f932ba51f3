(** The improvement moves of tsp.py keep tours and, on symmetric graphs, account for the length exactly. *)
From Verif Require Import Prelude PreludeFacts Base BaseFacts BaseFacts2 BaseFacts3 Spec Loop Perms Sp Tsp TspSpec TspFacts.
Open Scope Z_scope.
Section Lists.
Context {A : Type}.
Implicit Types (l t p q r : list A).
Lemma skipn_skipn' l : forall i k, skipn k (skipn i l) = skipn (i + k) l.
Proof. induction l as [|x l IH]; intros [|i] k; cbn; auto. destruct k; reflexivity. Qed.
Lemma split3 t i j : (i <= j)%nat -> t = firstn i t ++ firstn (j - i) (skipn i t) ++ skipn j t.
Proof. intros H. rewrite <- (firstn_skipn i t) at 1. f_equal. rewrite <- (firstn_skipn (j - i) (skipn i t)) at 1. f_equal. rewrite skipn_skipn'. f_equal. lia. Qed.
Lemma rev_seg_perm t i j : (i <= j)%nat -> Permutation (rev_seg t i j) t.
Proof. intros H. unfold rev_seg. rewrite (split3 t i j H) at 4. apply Permutation_app_head, Permutation_app_tail. symmetry. apply Permutation_rev. Qed.
Lemma relocate_perm t i j : Permutation (relocate t i j) t.
Proof. unfold relocate. destruct (nth_error t i) as [x|] eqn:E; [|reflexivity]. apply nth_error_split in E. destruct E as (l1 & l2 & -> & <-).
  assert (firstn (length l1) (l1 ++ x :: l2) ++ skipn (S (length l1)) (l1 ++ x :: l2) = l1 ++ l2) as ->.
  { rewrite firstn_app, Nat.sub_diag, firstn_all. cbn [firstn]. rewrite app_nil_r. f_equal. rewrite skipn_app. rewrite skipn_all2 by lia. replace (S (length l1) - length l1)%nat with 1%nat by lia. reflexivity. }
  cbn [app]. rewrite <- Permutation_middle. rewrite firstn_skipn. apply Permutation_middle. Qed.

(** ** path and tour lengths under a total distance *)
Context (w : A -> A -> Z).
Fixpoint plen (x : A) t : Z := match t with [] => 0 | y :: r => w x y + plen y r end.
Definition pl t : Z := match t with [] => 0 | x :: r => plen x r end.
Definition clen t : Z := match t with [] => 0 | h :: r => plen h (r ++ [h]) end.
Lemma plen_snoc t : forall x y, plen x (t ++ [y]) = plen x t + w (last (x :: t) x) y.
Proof. induction t as [|z t IH]; intros x y; cbn [plen app]; [cbn; lia|]. rewrite IH. replace (last (x :: z :: t) x) with (last (z :: t) z) by (symmetry; apply (last_indep t z x z)). lia. Qed.
Lemma pl_app p q d : p <> [] -> q <> [] -> pl (p ++ q) = pl p + w (last p d) (hd d q) + pl q.
Proof. destruct p as [|x p]; [congruence|]. intros _ Hq. destruct q as [|y q]; [congruence|]. cbn [app pl hd]. revert x. induction p as [|z p IH]; intros x; cbn [app plen]; [cbn; lia|]. rewrite IH. change (last (x :: z :: p) d) with (last (z :: p) d). lia. Qed.
Lemma clen_pl t d : t <> [] -> clen t = pl t + w (last t d) (hd d t).
Proof. destruct t as [|h r]; [congruence|]. intros _. cbn [clen pl hd]. rewrite plen_snoc. rewrite (last_indep r h h d). reflexivity. Qed.
Lemma last_app p q (d : A) : q <> [] -> last (p ++ q) d = last q d.
Proof. intros H. destruct (exists_last H) as (l & x & ->). rewrite app_assoc, !last_last. reflexivity. Qed.
Lemma hd_app p q (d : A) : p <> [] -> hd d (p ++ q) = hd d p.
Proof. destruct p; [congruence|reflexivity]. Qed.
Lemma last_rev p (d : A) : last (rev p) d = hd d p.
Proof. destruct p as [|x p]; [reflexivity|]. cbn [rev hd]. apply last_last. Qed.
Lemma hd_rev p (d : A) : hd d (rev p) = last p d.
Proof. rewrite <- (rev_involutive p) at 2. rewrite last_rev. reflexivity. Qed.
Lemma app_ne p q : p <> [] -> p ++ q <> [].
Proof. destruct p; [congruence|discriminate]. Qed.
Lemma rev_ne p : p <> [] -> rev p <> [].
Proof. intros H C. apply H. rewrite <- (rev_involutive p), C. reflexivity. Qed.
Lemma clen_rotate p q : clen (p ++ q) = clen (q ++ p).
Proof. destruct p as [|x p]; [rewrite app_nil_r; reflexivity|]. destruct q as [|y q]; [rewrite app_nil_r; reflexivity|].
  assert (x :: p <> []) as H1 by discriminate. assert (y :: q <> []) as H2 by discriminate. revert H1 H2. generalize (x :: p), (y :: q). clear p q y. intros p q H1 H2. rewrite !(clen_pl _ x) by (apply app_ne; assumption). rewrite !(pl_app _ _ x) by assumption. rewrite !last_app, !hd_app by assumption. lia. Qed.
Lemma clen3 p q r d : p <> [] -> q <> [] -> r <> [] -> clen (p ++ q ++ r) = pl p + pl q + pl r + w (last p d) (hd d q) + w (last q d) (hd d r) + w (last r d) (hd d p).
Proof. intros Hp Hq Hr. rewrite (clen_pl _ d) by (apply app_ne, Hp). rewrite (pl_app p _ d) by (auto; apply app_ne, Hq). rewrite (pl_app q r d) by assumption. rewrite last_app by (apply app_ne, Hq). rewrite last_app by exact Hr. rewrite !hd_app by assumption. lia. Qed.
Context (Hsym : forall x y, w x y = w y x).
Lemma pl_rev p : pl (rev p) = pl p.
Proof. induction p as [|x p IH]; [reflexivity|]. cbn [rev]. destruct p as [|y p]; [reflexivity|]. rewrite (pl_app _ _ x) by (try discriminate; apply rev_ne; discriminate). rewrite IH, last_rev. cbn [hd pl plen]. rewrite (Hsym y x). lia. Qed.
End Lists.

(** ** tours of complete graphs *)
Section Tours.
Context {A O : Type} {EA : EqDec A}.
Notation graph := (graph A O Z).
Implicit Types (g : graph) (t : list A).
Lemma walk_total g t : complete g -> forall x y, (forall z, In z (x :: t) -> In z (nodes g)) -> In y (nodes g) -> NoDup (x :: t) -> last (x :: t) x <> y -> walk_length g x (t ++ [y]) = Some (plen (dmax g) x (t ++ [y])).
Proof. intros HC. induction t as [|z t IH]; intros x y Hi Hy ND Hl; cbn [app walk_length plen].
  - cbn in Hl. destruct (HC x y) as (v & E & _); [apply Hi; left; reflexivity|exact Hy|exact Hl|]. unfold dmax. rewrite E. reflexivity.
  - apply NoDup_cons_iff in ND. destruct ND as [Hx ND]. rewrite IH; [|intros u Hu; apply Hi; right; exact Hu|exact Hy|exact ND|intros C; apply Hl; rewrite <- C; apply (last_indep t z x z)].
    destruct (HC x z) as (v & E & _); [apply Hi; left; reflexivity|apply Hi; right; left; reflexivity|intros ->; apply Hx; left; reflexivity|]. unfold dmax at 2. rewrite E. reflexivity. Qed.
Lemma tour_total g t : wf g -> complete g -> (2 <= length (nodes g))%nat -> hamiltonian g t -> tour_length g t = Some (clen (dmax g) t).
Proof. intros W HC Hn Ht. unfold hamiltonian in Ht. pose proof (Permutation_NoDup (Permutation_sym Ht) (wf_nodes _ W)) as ND. pose proof (Permutation_length Ht) as HL. destruct t as [|h r]; [reflexivity|]. unfold tour_length, clen. apply walk_total; auto.
  - intros z Hz. apply (Permutation_in _ Ht), Hz.
  - apply (Permutation_in _ Ht). left. reflexivity.
  - destruct r as [|z r]; [cbn in HL; lia|]. intros C. apply NoDup_cons_iff in ND. destruct ND as [ND _]. apply ND. rewrite <- C. change (last (h :: z :: r) h) with (last (z :: r) h). assert (z :: r <> []) as Hne by discriminate. destruct (exists_last Hne) as (l & u & ->). rewrite last_last. apply in_app_iff. right. left. reflexivity. Qed.

Context (g : graph) (W : wf g) (HC : complete g) (Hn : (2 <= length (nodes g))%nat).
Lemma dist_total t : hamiltonian g t -> distance g t = Ok (clen (dmax g) t).
Proof. intros H. rewrite distance_spec, tour_total by auto. reflexivity. Qed.
Lemma distret_total t : hamiltonian g t -> exists d, distance_ret g t = Ok d.
Proof. intros H. unfold distance_ret. pose proof (dist_total t H) as E. unfold distance in E. rewrite E. cbn [bind]. pose proof (Permutation_length H) as HL. destruct t as [|h r]; [cbn in HL; lia|].
  pose proof (tour_total g _ W HC Hn H) as ET. unfold tour_length in ET. rewrite walk_psum, combine_close, psum_app in ET. destruct (psum g (combine (h :: r) r)); [|discriminate]. cbn [psum fst snd] in ET. destruct (edge g (last (h :: r) h) h); [|discriminate]. eauto. Qed.
Lemma opt1_ok t : hamiltonian g t -> exists t', opt1 g t = Ok t' /\ hamiltonian g t'.
Proof. intros Ht. unfold opt1. destruct (distret_total t Ht) as [d ->]. cbn [bind].
  match goal with |- context [foldM ?f ?l ?s] => destruct (foldM_inv (fun best => hamiltonian g (snd best)) f l s) as ((d' & t') & -> & Hi) end; [exact Ht| |].
  - intros [d0 t0] [i j] H0 _. cbn [fst snd] in *. assert (hamiltonian g (relocate t i j)) as Hr by (unfold hamiltonian; rewrite relocate_perm; exact Ht). destruct (distret_total _ Hr) as [e ->]. cbn [bind]. destruct (e <? d0); eexists; split; try reflexivity; cbn; auto.
  - cbn [bind]. exists t'. split; [reflexivity|exact Hi]. Qed.

(** ** 2-exchange *)
Lemma segments2_le n i j : In (i, j) (segments2 n) -> (i <= j)%nat.
Proof. unfold segments2. intros H. apply in_flat_map in H. destruct H as (len & _ & H). apply in_map_iff in H. destruct H as (k & E & _). injection E as <- <-. lia. Qed.
Lemma opt2_try_perm st ij : (fst ij <= snd ij)%nat -> Permutation (fst (opt2_try g st ij)) (fst st).
Proof. destruct st as [t any], ij as [i j]. cbn [fst snd]. intros H. unfold opt2_try. destruct t as [|h r]; [reflexivity|]. set (t := h :: r). repeat (match goal with |- context [match truthy ?e with _ => _ end] => destruct (truthy e) end; try reflexivity). destruct (_ <? _); [apply rev_seg_perm, H|reflexivity]. Qed.
Lemma opt2_pass_perm l : (forall ij, In ij l -> (fst ij <= snd ij)%nat) -> forall st, Permutation (fst (fold_left (opt2_try g) l st)) (fst st).
Proof. induction l as [|ij l IH]; intros Hl st; cbn [fold_left]; [reflexivity|]. rewrite IH by (intros; apply Hl; right; assumption). apply opt2_try_perm, Hl. left. reflexivity. Qed.

Definition vsum (c : dict (list A) nat) : nat := list_sum (dvals c).
Lemma vsum_dset k v c : NoDup (dkeys c) -> (vsum (dset k v c) + match dget k c with Some u => u | None => 0 end = vsum c + v)%nat.
Proof. unfold vsum. induction c as [|[x u] c IH]; intros ND; cbn; [lia|]. apply NoDup_cons_iff in ND. destruct ND as [Hx ND]. destruct (eq_dec k x) as [->|Hne]; cbn in *; [lia|]. specialize (IH ND). unfold dvals, list_sum in *. destruct (dget k c); cbn; lia. Qed.
Lemma list_sum_le l b : (forall x, In x l -> (x <= b)%nat) -> (list_sum l <= b * length l)%nat.
Proof. induction l as [|x l IH]; intros H; cbn; [lia|]. assert (x <= b)%nat by (apply H; left; reflexivity). assert (list_sum l <= b * length l)%nat by (apply IH; intros; apply H; right; assumption). unfold list_sum in *. lia. Qed.

Lemma opt2_ok t : hamiltonian g t -> exists t', returns (fun n => opt2 n g t) (Ok t') /\ hamiltonian g t' /\ clen (dmax g) t' <= clen (dmax g) t.
Proof. intros Ht. set (K := length (permutations (nodes g))). set (B := (100 * (2 * K + 1))%nat).
  assert (exists r, returns (fun n => loop n (opt2_step g) (t, t, clen (dmax g) t, [(t, 1%nat)], 0%nat)) r /\ exists t', r = Ok t' /\ hamiltonian g t' /\ clen (dmax g) t' <= clen (dmax g) t) as (r & Hr & t' & -> & H1 & H2).
  { apply (loop_returns_nat (opt2_step g) (fun st => let '(t1, p0, d0, counter, inc) := st in hamiltonian g t1 /\ hamiltonian g p0 /\ d0 = clen (dmax g) p0 /\ d0 <= clen (dmax g) t /\ NoDup (dkeys counter) /\ (forall k, In k (dkeys counter) -> hamiltonian g k) /\ vsum counter = S inc /\ (inc < B)%nat)
      (fun st => let '(_, _, _, _, inc) := st in (B - inc)%nat)).
    - intros ((((t1, p0), d0), counter), inc) (I1 & I2 & I3 & I4 & I5 & I6 & I7 & I8). unfold opt2_step. pose proof (opt2_pass_perm (segments2 (length t1))) as HP. specialize (HP ltac:(intros [i j] H; apply (segments2_le _ _ _ H)) (t1, false)).
      destruct (fold_left (opt2_try g) (segments2 (length t1)) (t1, false)) as [t2 any]. cbn [fst] in HP. assert (hamiltonian g t2) as Ht2 by (unfold hamiltonian; rewrite HP; exact I1). rewrite (dist_total t2 Ht2).
      set (pd := if clen (dmax g) t2 <? d0 then _ else _). assert (hamiltonian g (snd pd) /\ fst pd = clen (dmax g) (snd pd) /\ fst pd <= clen (dmax g) t) as (P1 & P2 & P3).
      { unfold pd. destruct (clen (dmax g) t2 <? d0) eqn:E; cbn; splits; auto. apply Z.ltb_lt in E. lia. }
      destruct pd as [d0' p0']. cbn [fst snd] in *. destruct any; cbn [negb]; [|split; [discriminate|exists p0'; splits; auto; lia]].
      set (c := dset t2 _ counter). assert (NoDup (dkeys c)) as C1 by (apply NoDup_dset; assumption).
      assert (forall k, In k (dkeys c) -> hamiltonian g k) as C2. { intros k Hk. unfold c in Hk. apply In_dkeys_dset in Hk. destruct Hk as [->|Hk]; auto. }
      assert (vsum c = S (S inc)) as C3. { pose proof (vsum_dset t2 (match dget t2 counter with Some k => S k | None => 1%nat end) counter I5) as E. fold c in E. destruct (dget t2 counter); lia. }
      destruct ((S inc mod 100 =? 0)%nat && existsb (fun x => 2 <? snd x)%nat c) eqn:E; [split; [discriminate|exists p0'; splits; auto; lia]|]. split; [|lia]. splits; auto.
      destruct (Nat.eq_dec (S inc) B) as [EB|]; [|lia]. exfalso. apply andb_false_iff in E. destruct E as [E|E].
      + apply Nat.eqb_neq in E. apply E. rewrite EB. unfold B. rewrite Nat.mul_comm. apply Nat.mod_mul. discriminate.
      + assert (vsum c <= 2 * length (dvals c))%nat as HV. { apply list_sum_le. intros x Hx. unfold dvals in Hx. apply in_map_iff in Hx. destruct Hx as ([k v] & <- & Hx). cbn. destruct (2 <? v)%nat eqn:E2; [|apply Nat.ltb_ge in E2; exact E2]. exfalso. assert (existsb (fun x => (2 <? snd x)%nat) c = true) as Ct by (apply existsb_exists; exists (k, v); auto). congruence. }
        assert (length (dvals c) <= K)%nat as HK. { unfold dvals. rewrite map_length. unfold K. rewrite <- (map_length fst c). apply (NoDup_incl_length C1). intros k Hk. apply In_permutations. apply C2, Hk. }
        unfold B in EB. lia.
    - splits; auto; try lia.
      + cbn. constructor; [intros []|constructor].
      + intros k [<-|[]]. exact Ht. }
  exists t'. splits; auto. refine (returns_ext _ _ _ _ Hr). intros n. unfold opt2. rewrite (dist_total t Ht). reflexivity. Qed.

(** ** 3-exchange *)
Lemma segments3_spec n i j k : In (i, j, k) (segments3 n) -> (i + 2 <= j /\ j + 2 <= k /\ k <= n /\ (i = 0 -> k < n))%nat.
Proof. unfold segments3. intros H. apply in_flat_map in H. destruct H as (i' & Hi & H). apply in_flat_map in H. destruct H as (j' & Hj & H). apply in_map_iff in H. destruct H as (k' & E & Hk). injection E as <- <- <-. apply in_seq in Hi, Hj, Hk. destruct (i' =? 0)%nat eqn:E; [apply Nat.eqb_eq in E|apply Nat.eqb_neq in E]; lia. Qed.
Lemma last_nth (l : list A) d : last l d = nth (length l - 1) l d.
Proof. destruct l as [|x l]; [reflexivity|]. assert (x :: l <> []) as H by discriminate. destruct (exists_last H) as (l' & y & ->). rewrite last_last, app_length. cbn [length]. replace (length l' + 1 - 1)%nat with (length l') by lia. rewrite app_nth2, Nat.sub_diag by lia. reflexivity. Qed.
Lemma hd_nth (l : list A) d : hd d l = nth 0 l d.
Proof. destruct l; reflexivity. Qed.
Lemma split4 (t : list A) i j k : (i + 2 <= j)%nat -> (j + 2 <= k)%nat -> (k <= length t)%nat -> exists P S1 S2 Q, t = P ++ S1 ++ S2 ++ Q /\ length P = i /\ length S1 = (j - i)%nat /\ length S2 = (k - j)%nat.
Proof. intros H1 H2 H3. exists (firstn i t), (firstn (j - i) (skipn i t)), (firstn (k - j) (skipn j t)), (skipn k t). splits.
  - rewrite (split3 t i j) at 1 by lia. f_equal. f_equal. rewrite <- (firstn_skipn (k - j) (skipn j t)) at 1. f_equal. rewrite skipn_skipn'. f_equal. lia.
  - rewrite firstn_length. lia.
  - rewrite firstn_length, skipn_length. lia.
  - rewrite firstn_length, skipn_length. lia. Qed.
Lemma firstn_len (p q : list A) n : length p = n -> firstn n (p ++ q) = p.
Proof. intros <-. rewrite firstn_app, Nat.sub_diag, firstn_all. cbn. apply app_nil_r. Qed.
Lemma skipn_len (p q : list A) n : length p = n -> skipn n (p ++ q) = q.
Proof. intros <-. rewrite skipn_app, Nat.sub_diag, skipn_all. reflexivity. Qed.
Lemma rev_seg_app (P S Q : list A) i j : length P = i -> length S = (j - i)%nat -> (i <= j)%nat -> rev_seg (P ++ S ++ Q) i j = P ++ rev S ++ Q.
Proof. intros H1 H2 H3. unfold rev_seg. rewrite (firstn_len P) by exact H1. rewrite (skipn_len P) by exact H1. rewrite (firstn_len S) by exact H2. rewrite (app_assoc P S Q), (skipn_len (P ++ S)) by (rewrite app_length; lia). reflexivity. Qed.
Lemma nth_at (p q : list A) n d : length p = n -> q <> [] -> nth n (p ++ q) d = hd d q.
Proof. intros <- H. rewrite app_nth2, Nat.sub_diag by lia. destruct q; [congruence|reflexivity]. Qed.
Lemma nth_end (p q : list A) n d : length p = S n -> nth n (p ++ q) d = last p d.
Proof. intros H. rewrite app_nth1 by lia. rewrite last_nth. f_equal. lia. Qed.

Context (Hsym : symmetric g).
Lemma dmax_sym x y : dmax g x y = dmax g y x.
Proof. unfold dmax. rewrite (Hsym x y). reflexivity. Qed.
Lemma opt3_try_exact t delta i j k : (i + 2 <= j)%nat -> (j + 2 <= k)%nat -> (k <= length t)%nat -> (i = 0%nat -> (k < length t)%nat) ->
  exists t', opt3_try g (t, delta) (i, j, k) = (t', delta + (clen (dmax g) t' - clen (dmax g) t)) /\ Permutation t' t /\ clen (dmax g) t' <= clen (dmax g) t /\
    (t' = t \/ clen (dmax g) t' < clen (dmax g) t) /\
    (forall u, In u [rev_seg t i j; rev_seg t j k; firstn i t ++ (firstn (k - j) (skipn j t) ++ firstn (j - i) (skipn i t)) ++ skipn k t; rev_seg t i k] -> clen (dmax g) t' <= clen (dmax g) u).
Proof. intros H1 H2 H3 H4. destruct (split4 t i j k H1 H2 H3) as (P & S1 & S2 & Q & Et & LP & L1 & L2).
  assert (S1 <> []) as N1 by (intros ->; cbn in L1; lia). assert (S2 <> []) as N2 by (intros ->; cbn in L2; lia).
  pose proof Et as Elen. apply (f_equal (@length A)) in Elen. rewrite !app_length in Elen.
  assert (Q ++ P <> []) as NR. { intros C. apply app_eq_nil in C. destruct C as [-> ->]. cbn in *. lia. }
  assert (t <> []) as Nt by (rewrite Et; destruct P; [destruct S1; [congruence|discriminate]|discriminate]). assert (exists h r, t = h :: r) as (h & r & E0) by (clear - Nt; destruct t; [congruence|eauto]).
  assert (forall X Y, X <> [] -> Y <> [] -> clen (dmax g) (P ++ X ++ Y ++ Q) = pl (dmax g) X + pl (dmax g) Y + pl (dmax g) (Q ++ P) + dmax g (last X h) (hd h Y) + dmax g (last Y h) (hd h (Q ++ P)) + dmax g (last (Q ++ P) h) (hd h X)) as HL.
  { intros X Y HX HY. rewrite clen_rotate. rewrite <- !app_assoc. apply clen3; auto. }
  set (n := length t) in *. unfold opt3_try. cbv beta iota. assert (forall (X : list A * Z) Y, match t with [] => X | h' :: _ => Y h' end = Y h) as EM by (intros; rewrite E0; reflexivity). rewrite EM. clear EM. cbv zeta. fold n.
  assert (nth (prev n i) t h = last (Q ++ P) h) as Ea. { unfold prev. destruct i as [|i].
    - destruct P; [|discriminate]. cbn [app] in *. rewrite app_nil_r. assert (Q <> []) as NQ by (intros ->; cbn in Elen; specialize (H4 eq_refl); lia). rewrite <- (last_app (S1 ++ S2) Q h NQ), <- app_assoc, <- Et. symmetry. apply last_nth.
    - rewrite Et, (nth_end P) by exact LP. symmetry. apply last_app. intros ->. discriminate. }
  assert (nth i t h = hd h S1) as Eb. { rewrite Et. rewrite nth_at by (auto; apply app_ne, N1). apply hd_app, N1. }
  assert (nth (j - 1) t h = last S1 h) as Ec. { rewrite Et, app_assoc. rewrite (nth_end (P ++ S1)) by (rewrite app_length; lia). apply last_app, N1. }
  assert (nth j t h = hd h S2) as Ed. { rewrite Et, app_assoc. rewrite (nth_at (P ++ S1)) by (try (rewrite app_length; lia); apply app_ne, N2). apply hd_app, N2. }
  assert (nth (k - 1) t h = last S2 h) as Ee. { rewrite Et, app_assoc, app_assoc. rewrite (nth_end ((P ++ S1) ++ S2)) by (rewrite !app_length; lia). apply last_app, N2. }
  assert (nth (k mod n) t h = hd h (Q ++ P)) as Ef. { destruct (Nat.eq_dec k n) as [->|Hk].
    - rewrite Nat.mod_same by lia. destruct Q; [|cbn in Elen; lia]. cbn [app]. assert (P <> []) as NP by (intros ->; cbn in LP; lia). rewrite <- (hd_app P (S1 ++ S2 ++ []) h NP), <- Et. symmetry. apply hd_nth.
    - rewrite Nat.mod_small by lia. assert (Q <> []) as NQ by (intros ->; cbn in Elen; lia). rewrite Et, app_assoc, app_assoc. rewrite (nth_at ((P ++ S1) ++ S2)) by (try (rewrite !app_length; lia); exact NQ). symmetry. apply hd_app, NQ. }
  rewrite Ea, Eb, Ec, Ed, Ee, Ef. clear Ea Eb Ec Ed Ee Ef.
  assert (rev_seg t i j = P ++ rev S1 ++ S2 ++ Q) as R1 by (rewrite Et; apply rev_seg_app; lia).
  assert (rev_seg t j k = P ++ S1 ++ rev S2 ++ Q) as R2 by (rewrite Et, app_assoc, rev_seg_app; [rewrite <- app_assoc; reflexivity|rewrite app_length; lia|lia|lia]).
  assert (firstn i t ++ (firstn (k - j) (skipn j t) ++ firstn (j - i) (skipn i t)) ++ skipn k t = P ++ S2 ++ S1 ++ Q) as R3.
  { rewrite Et. rewrite (firstn_len P _ i), (skipn_len P _ i), (firstn_len S1 _ (j - i)) by assumption. rewrite (app_assoc P S1). rewrite (skipn_len (P ++ S1)) by (rewrite app_length; lia). rewrite (firstn_len S2) by assumption. rewrite (app_assoc (P ++ S1)). rewrite (skipn_len ((P ++ S1) ++ S2)) by (rewrite !app_length; lia). rewrite <- !app_assoc. reflexivity. }
  assert (rev_seg t i k = P ++ rev S2 ++ rev S1 ++ Q) as R4 by (rewrite Et, (app_assoc S1), rev_seg_app; [rewrite rev_app_distr, <- app_assoc; reflexivity|exact LP|rewrite app_length; lia|lia]).
  rewrite R1, R2, R3, R4. clear R1 R2 R3 R4.
  pose proof (HL S1 S2 N1 N2) as C0. rewrite <- Et in C0. pose proof (HL (rev S1) S2 (rev_ne _ N1) N2) as C1. pose proof (HL S1 (rev S2) N1 (rev_ne _ N2)) as C2. pose proof (HL S2 S1 N2 N1) as C3. pose proof (HL (rev S2) (rev S1) (rev_ne _ N2) (rev_ne _ N1)) as C4.
  rewrite !(pl_rev _ dmax_sym), !last_rev, !hd_rev in C1. rewrite !(pl_rev _ dmax_sym), !last_rev, !hd_rev in C2. rewrite !(pl_rev _ dmax_sym), !last_rev, !hd_rev in C4.
  assert (Permutation (P ++ rev S1 ++ S2 ++ Q) t) as P1 by (rewrite Et; apply Permutation_app_head, Permutation_app_tail; symmetry; apply Permutation_rev).
  assert (Permutation (P ++ S1 ++ rev S2 ++ Q) t) as P2 by (rewrite Et; apply Permutation_app_head, Permutation_app_head, Permutation_app_tail; symmetry; apply Permutation_rev).
  assert (Permutation (P ++ S2 ++ S1 ++ Q) t) as P3 by (rewrite Et; apply Permutation_app_head; rewrite !app_assoc; apply Permutation_app_tail, Permutation_app_comm).
  assert (Permutation (P ++ rev S2 ++ rev S1 ++ Q) t) as P4 by (rewrite Et; apply Permutation_app_head; rewrite !app_assoc, <- rev_app_distr; apply Permutation_app_tail; symmetry; apply Permutation_rev).
  clear HL Et. set (a := last (Q ++ P) h) in *. set (f := hd h (Q ++ P)) in *. set (b := hd h S1) in *. set (c := last S1 h) in *. set (d := hd h S2) in *. set (e := last S2 h) in *.
  rewrite (dmax_sym d c), (dmax_sym b f), (dmax_sym a e) in C4.
  set (d0 := dmax g a b + dmax g c d + dmax g e f) in *. set (d1 := dmax g a c + dmax g b d + dmax g e f). set (d2 := dmax g a b + dmax g c e + dmax g d f). set (d3 := dmax g a d + dmax g e b + dmax g c f). set (d4 := dmax g f b + dmax g c d + dmax g e a).
  set (m1 := if d1 <? fst (d0, t) then _ else _). set (m2 := if d2 <? fst m1 then _ else _). set (m3 := if d3 <? fst m2 then _ else _). set (m4 := if d4 <? fst m3 then _ else _).
  assert (forall m : Z * list A, m = m1 \/ m = m2 \/ m = m3 \/ m = m4 -> fst m - d0 = clen (dmax g) (snd m) - clen (dmax g) t /\ Permutation (snd m) t /\ fst m <= d0) as HM.
  { assert (fst m1 - d0 = clen (dmax g) (snd m1) - clen (dmax g) t /\ Permutation (snd m1) t /\ fst m1 <= d0) as M1. { unfold m1. destruct (d1 <? fst (d0, t)) eqn:E; cbn [fst snd] in *; [apply Z.ltb_lt in E|]; splits; auto; try reflexivity; try lia; unfold d1, d0; lia. }
    assert (fst m2 - d0 = clen (dmax g) (snd m2) - clen (dmax g) t /\ Permutation (snd m2) t /\ fst m2 <= d0) as M2. { unfold m2. destruct (d2 <? fst m1) eqn:E; [|exact M1]; cbn [fst snd] in *; apply Z.ltb_lt in E; splits; auto; try lia; unfold d2, d0; lia. }
    assert (fst m3 - d0 = clen (dmax g) (snd m3) - clen (dmax g) t /\ Permutation (snd m3) t /\ fst m3 <= d0) as M3. { unfold m3. destruct (d3 <? fst m2) eqn:E; [|exact M2]; cbn [fst snd] in *; apply Z.ltb_lt in E; splits; auto; try lia; unfold d3, d0; lia. }
    assert (fst m4 - d0 = clen (dmax g) (snd m4) - clen (dmax g) t /\ Permutation (snd m4) t /\ fst m4 <= d0) as M4. { unfold m4. destruct (d4 <? fst m3) eqn:E; [|exact M3]; cbn [fst snd] in *; apply Z.ltb_lt in E; splits; auto; try lia; unfold d4, d0; lia. }
    intros m [->|[->|[->| ->]]]; assumption. }
  assert (snd m4 = t \/ fst m4 < d0) as K4.
  { unfold m4. destruct (d4 <? fst m3) eqn:E4; [apply Z.ltb_lt in E4; destruct (HM m3) as (_ & _ & K); auto; right; cbn [fst]; lia|]. clear E4.
    unfold m3. destruct (d3 <? fst m2) eqn:E3; [apply Z.ltb_lt in E3; destruct (HM m2) as (_ & _ & K); auto; right; cbn [fst]; lia|]. clear E3.
    unfold m2. destruct (d2 <? fst m1) eqn:E2; [apply Z.ltb_lt in E2; destruct (HM m1) as (_ & _ & K); auto; right; cbn [fst]; lia|]. clear E2.
    unfold m1. destruct (d1 <? fst (d0, t)) eqn:E1; [apply Z.ltb_lt in E1; right; exact E1|left; reflexivity]. }
  assert (fst m1 <= d1) as L1' by (unfold m1; destruct (d1 <? fst (d0, t)) eqn:E; cbn [fst] in *; [lia|apply Z.ltb_ge in E; exact E]).
  assert (fst m2 <= fst m1 /\ fst m2 <= d2) as L2' by (unfold m2; destruct (d2 <? fst m1) eqn:E; cbn [fst] in *; [apply Z.ltb_lt in E|apply Z.ltb_ge in E]; lia).
  assert (fst m3 <= fst m2 /\ fst m3 <= d3) as L3' by (unfold m3; destruct (d3 <? fst m2) eqn:E; cbn [fst] in *; [apply Z.ltb_lt in E|apply Z.ltb_ge in E]; lia).
  assert (fst m4 <= fst m3 /\ fst m4 <= d4) as L4' by (unfold m4; destruct (d4 <? fst m3) eqn:E; cbn [fst] in *; [apply Z.ltb_lt in E|apply Z.ltb_ge in E]; lia).
  destruct (HM m4) as (K1 & K2 & K3); auto. exists (snd m4). splits; [f_equal; lia|exact K2|lia|destruct K4 as [K4|K4]; [left; exact K4|right; lia]|].
  clear HM. clearbody m1 m2 m3 m4. intros u [<-|[<-|[<-|[<-|[]]]]]; unfold d0, d1, d2, d3, d4 in *; lia. Qed.
Lemma opt3_pass l : forall t delta, (forall i j k, In (i, j, k) l -> (i + 2 <= j /\ j + 2 <= k /\ k <= length t /\ (i = 0 -> k < length t))%nat) ->
  exists t', fold_left (opt3_try g) l (t, delta) = (t', delta + (clen (dmax g) t' - clen (dmax g) t)) /\ Permutation t' t /\ clen (dmax g) t' <= clen (dmax g) t.
Proof. induction l as [|[[i j] k] l IH]; intros t delta H; cbn [fold_left]; [exists t; splits; [f_equal; lia|reflexivity|lia]|].
  destruct (H i j k (or_introl eq_refl)) as (H1 & H2 & H3 & H4). destruct (opt3_try_exact t delta i j k H1 H2 H3 H4) as (t1 & -> & P1 & L1 & _). destruct (IH t1 (delta + (clen (dmax g) t1 - clen (dmax g) t))) as (t2 & -> & P2 & L2).
  { intros i' j' k' Hi. rewrite (Permutation_length P1). apply H. right. exact Hi. }
  exists t2. splits; [f_equal; lia|rewrite P2; exact P1|lia]. Qed.
Lemma low_bound (f : list A -> Z) l : exists lo, forall p, In p l -> lo <= f p.
Proof. induction l as [|x l [lo IH]]; [exists 0; intros p []|]. exists (Z.min lo (f x)). intros p [<-|Hp]; [lia|]. specialize (IH p Hp). lia. Qed.
Lemma opt3_ok t : hamiltonian g t -> exists t', returns (fun n => opt3 n g t) (Ok t') /\ hamiltonian g t' /\ clen (dmax g) t' <= clen (dmax g) t.
Proof. intros Ht. destruct (low_bound (clen (dmax g)) (permutations (nodes g))) as [lo Hlo].
  assert (exists r, returns (fun n => loop n (opt3_step g) (t, t, clen (dmax g) t)) r /\ exists t', r = Ok t' /\ hamiltonian g t' /\ clen (dmax g) t' <= clen (dmax g) t) as (r & Hr & t' & -> & H1 & H2).
  { apply (loop_returns_nat (opt3_step g) (fun st => let '(t1, p0, d0) := st in hamiltonian g t1 /\ hamiltonian g p0 /\ d0 = clen (dmax g) p0 /\ d0 <= clen (dmax g) t) (fun st => let '(t1, _, _) := st in Z.to_nat (clen (dmax g) t1 - lo))); [|splits; auto; lia].
    intros ((t1, p0), d0) (I1 & I2 & I3 & I4). unfold opt3_step. destruct (opt3_pass (segments3 (length t1)) t1 0) as (t2 & -> & P2 & L2). { intros i j k H. apply segments3_spec, H. }
    assert (hamiltonian g t2) as Ht2 by (unfold hamiltonian; rewrite P2; exact I1). rewrite (dist_total t2 Ht2). set (pd := if clen (dmax g) t2 <? d0 then _ else _).
    assert (hamiltonian g (snd pd) /\ fst pd = clen (dmax g) (snd pd) /\ fst pd <= clen (dmax g) t) as (Q1 & Q2 & Q3). { unfold pd. destruct (clen (dmax g) t2 <? d0) eqn:E; cbn; splits; auto. apply Z.ltb_lt in E. lia. }
    destruct pd as [d0' p0']. cbn [fst snd] in *. destruct (0 <=? _) eqn:E; [split; [discriminate|exists p0'; splits; auto; lia]|]. apply Z.leb_gt in E. splits; auto. assert (lo <= clen (dmax g) t2) by (apply Hlo, In_permutations, Ht2). lia. }
  exists t'. splits; auto. refine (returns_ext _ _ _ _ Hr). intros n. unfold opt3. rewrite (dist_total t Ht). reflexivity. Qed.
End Tours.
