(** Facts about the greedy construction of a tour *)
From Verif Require Import Prelude PreludeFacts Base BaseFacts BaseFacts2 BaseFacts3 Spec SpecFacts Loop Sp Perms TspSpec Tsp TspFacts.

Section Greedy.
Context {A O : Type} {EA : EqDec A}.
Notation graph := (graph A O Z).
Implicit Types (g : graph) (s t : list A) (segs : list (list A)).

Definition is_end (x : A) s : Prop := hd_error s = Some x \/ exists l, s = l ++ [x].
Lemma end_in x s : is_end x s -> In x s.
Proof. intros [H|[l ->]]; [destruct s; [discriminate|injection H as ->; left; reflexivity]|apply in_app_iff; right; left; reflexivity]. Qed.
Lemma end_rev x s : is_end x (rev s) <-> is_end x s.
Proof. assert (forall s, is_end x s -> is_end x (rev s)) as H.
  { intros s0 [H|[l ->]]; [right|left; rewrite rev_app_distr; reflexivity]. destruct s0 as [|y s0]; [discriminate|]. injection H as ->. exists (rev s0). reflexivity. }
  split; [|apply H]. intros K. rewrite <- (rev_involutive s). apply H, K. Qed.
Lemma last_snoc_eq s d x : s <> [] -> last s d = x -> exists l, s = l ++ [x].
Proof. intros H <-. exists (removelast s). apply app_removelast_last, H. Qed.
Lemma orient_a sa a : is_end a sa -> exists l, (if eq_dec (last sa a) a then sa else rev sa) = l ++ [a] /\ Permutation (l ++ [a]) sa /\ forall x, is_end x (l ++ [a]) <-> is_end x sa.
Proof. intros H. assert (sa <> []) as Hne by (intros ->; apply end_in in H; destruct H). destruct (eq_dec (last sa a) a) as [E|E].
  - destruct (last_snoc_eq sa a a Hne E) as [l ->]. exists l. splits; auto. reflexivity.
  - assert (exists l, rev sa = l ++ [a]) as [l El]. { destruct H as [H|[l ->]]; [destruct sa as [|y r]; [discriminate|]; injection H as ->; exists (rev r); reflexivity|rewrite last_last in E; congruence]. }
    exists l. splits; [exact El|rewrite <- El; symmetry; apply Permutation_rev|]. intros x. rewrite <- El. apply end_rev. Qed.
Lemma orient_b sb b : is_end b sb -> exists l, (if eq_dec (hd b sb) b then sb else rev sb) = b :: l /\ Permutation (b :: l) sb /\ forall x, is_end x (b :: l) <-> is_end x sb.
Proof. intros H. assert (sb <> []) as Hne by (intros ->; apply end_in in H; destruct H). destruct (eq_dec (hd b sb) b) as [E|E].
  - destruct sb as [|y l]; [congruence|]. cbn in E. subst y. exists l. splits; auto. reflexivity.
  - assert (exists l, rev sb = b :: l) as [l El]. { destruct H as [H|[l ->]]; [destruct sb as [|y r]; [discriminate|]; injection H as ->; cbn in E; congruence|rewrite rev_app_distr; eexists; reflexivity]. }
    exists l. splits; [exact El|rewrite <- El; symmetry; apply Permutation_rev|]. intros x. rewrite <- El. apply end_rev. Qed.

Lemma concat_perm segs segs' : Permutation segs segs' -> Permutation (concat segs) (concat segs').
Proof. intros H. induction H; cbn; [reflexivity|rewrite IHPermutation; reflexivity|rewrite !app_assoc; apply Permutation_app_tail, Permutation_app_comm|etransitivity; eassumption]. Qed.
Lemma concat_unique segs x s s' : NoDup (concat segs) -> In s segs -> In s' segs -> In x s -> In x s' -> s = s'.
Proof. induction segs as [|s0 segs IH]; intros ND H1 H2 K1 K2; [destruct H1|]. cbn in ND. apply NoDup_app_iff in ND. destruct ND as (N1 & N2 & N3). destruct H1 as [->|H1], H2 as [->|H2]; auto.
  - exfalso. apply (N3 x K1). apply in_concat. eauto.
  - exfalso. apply (N3 x K2). apply in_concat. eauto. Qed.

Context (ns : list A) (Hns : NoDup ns).
Definition SInv (ep : dict A (list A)) segs : Prop :=
  Permutation (concat segs) ns /\ (forall s, In s segs -> s <> []) /\ NoDup (dkeys ep) /\ forall x s, dget x ep = Some s <-> In s segs /\ is_end x s.
Lemma SInv_nodup ep segs : SInv ep segs -> NoDup (concat segs).
Proof. intros (H & _). apply (Permutation_NoDup (Permutation_sym H) Hns). Qed.

Lemma join_spec ep segs a b sa sb : SInv ep segs -> dget a ep = Some sa -> dget b ep = Some sb -> sa <> sb ->
  exists rest, Permutation segs (sa :: sb :: rest) /\ SInv (fst (join ep sa sb a b)) (snd (join ep sa sb a b) :: rest) /\
    (In a (snd (join ep sa sb a b)) /\ In b (snd (join ep sa sb a b))) /\
    (forall x, is_end x (snd (join ep sa sb a b)) -> is_end x sa \/ is_end x sb) /\ Permutation (snd (join ep sa sb a b)) (sa ++ sb).
Proof. intros HI Ha Hb Hne. pose proof (SInv_nodup ep segs HI) as ND. destruct HI as (Hp & Hn & Hk & Hd). apply Hd in Ha, Hb. destruct Ha as [Ha1 Ha2], Hb as [Hb1 Hb2].
  assert (exists rest, Permutation segs (sa :: sb :: rest)) as [rest Hr].
  { apply in_split in Ha1. destruct Ha1 as (l1 & l2 & ->). assert (In sb (l1 ++ l2)) as Hb3. { apply in_app_iff in Hb1. apply in_app_iff. destruct Hb1 as [?|[?|?]]; auto. congruence. }
    apply in_split in Hb3. destruct Hb3 as (k1 & k2 & E). exists (k1 ++ k2). rewrite <- Permutation_middle, E, <- Permutation_middle. reflexivity. }
  exists rest. split; [exact Hr|]. unfold join, join_seg. cbn [fst snd]. destruct (orient_a sa a Ha2) as (la & -> & Pa & Ea). destruct (orient_b sb b Hb2) as (lb & -> & Pb & Eb).
  set (new := (la ++ [a]) ++ b :: lb). assert (Permutation new (sa ++ sb)) as Pn by (unfold new; rewrite Pa, Pb; reflexivity).
  assert (new <> []) as Hnew by (unfold new; destruct la; discriminate).
  assert (forall x, is_end x new -> is_end x sa \/ is_end x sb) as Hends.
  { intros x [H|[l H]].
    - left. apply Ea. left. unfold new in H. destruct la; exact H.
    - right. apply Eb. assert (exists l' z, b :: lb = l' ++ [z]) as (l' & z & El') by (exists (removelast (b :: lb)), (last (b :: lb) b); apply app_removelast_last; discriminate).
      right. exists l'. unfold new in H. rewrite El', app_assoc in H. apply app_inj_tail in H. destruct H as [_ <-]. exact El'. }
  assert (hd_error new = Some (hd a new)) as Hhd by (destruct new; [congruence|reflexivity]).
  assert (exists l, new = l ++ [last new a]) as Hlast by (apply (last_snoc_eq new a); auto).
  assert (forall x, is_end x sa -> x = a \/ x = hd a new) as HEa.
  { intros x Hx. apply Ea in Hx. destruct Hx as [Hx|[l Hx]]; [right|left; apply app_inj_tail in Hx; symmetry; apply Hx]. unfold new. destruct la as [|y la]; cbn in *; congruence. }
  assert (forall x, is_end x sb -> x = b \/ x = last new a) as HEb.
  { intros x Hx. apply Eb in Hx. destruct Hx as [Hx|[l Hx]]; [left; cbn in Hx; congruence|right]. unfold new. rewrite Hx, app_assoc, last_last. reflexivity. }
  assert (Permutation (concat segs) (new ++ concat rest)) as Pc by (rewrite (concat_perm _ _ Hr); cbn; rewrite app_assoc, Pn; reflexivity).
  assert (NoDup (new ++ concat rest)) as ND' by (apply (Permutation_NoDup Pc ND)). apply NoDup_app_iff in ND'. destruct ND' as (ND1 & ND2 & ND3).
  assert (In a new /\ In b new) as [Ian Ibn] by (unfold new; split; rewrite !in_app_iff; cbn; auto).
  splits; auto. unfold SInv. splits.
  - cbn [concat]. rewrite <- Pc. exact Hp.
  - intros s [<-|Hs]; [exact Hnew|]. apply Hn. apply (Permutation_in _ (Permutation_sym Hr)). right. right. exact Hs.
  - apply NoDup_dset, NoDup_dset, NoDup_ddel, NoDup_ddel, Hk.
  - intros x s. rewrite !dget_dset, !dget_ddel by (try apply NoDup_ddel; exact Hk). split.
    + destruct (eq_dec x (last new a)) as [->|H1]; [intros E; injection E as <-; split; [left; reflexivity|right; exact Hlast]|].
      destruct (eq_dec x (hd a new)) as [->|H2]; [intros E; injection E as <-; split; [left; reflexivity|left; exact Hhd]|].
      destruct (eq_dec x b) as [|H3]; [discriminate|]. destruct (eq_dec x a) as [|H4]; [discriminate|]. intros E. apply Hd in E. destruct E as [E1 E2]. split; [|exact E2]. apply (Permutation_in _ Hr) in E1. destruct E1 as [<-|[<-|E1]]; [| |right; exact E1].
      * destruct (HEa x E2); contradiction.
      * destruct (HEb x E2); contradiction.
    + intros [[<-|Hs] He].
      * destruct (eq_dec x (last new a)) as [|H1]; [reflexivity|]. destruct (eq_dec x (hd a new)) as [|H2]; [reflexivity|]. exfalso. destruct He as [He|[l He]]; [rewrite Hhd in He; congruence|]. apply H1. rewrite He, last_last. reflexivity.
      * assert (~ In x new) as Hx by (intros C; apply (ND3 x C), in_concat; exists s; split; [exact Hs|apply end_in, He]).
        destruct (eq_dec x (last new a)) as [->|H1]; [exfalso; apply Hx; destruct Hlast as [l ->]; rewrite last_last; apply in_app_iff; right; left; reflexivity|].
        destruct (eq_dec x (hd a new)) as [->|H2]; [exfalso; apply Hx; destruct new; [congruence|left; reflexivity]|].
        destruct (eq_dec x b) as [->|]; [contradiction|]. destruct (eq_dec x a) as [->|]; [contradiction|]. apply Hd. split; [|exact He]. apply (Permutation_in _ (Permutation_sym Hr)). right. right. exact Hs. Qed.

(** whatever the loop returns, if it is long enough, visits every node once *)
Lemma greedy_sound ds : forall ep segs seg, SInv ep segs -> (seg = [] \/ In seg segs) -> length (greedy_loop (length ns) ds ep seg) = length ns -> Permutation (greedy_loop (length ns) ds ep seg) ns.
Proof. assert (forall ep segs seg, SInv ep segs -> seg = [] \/ In seg segs -> length seg = length ns -> Permutation seg ns) as Hfin.
  { intros ep segs seg (Hp & _) [->|Hs] E; [destruct ns; [reflexivity|discriminate]|]. apply in_split in Hs. destruct Hs as (l1 & l2 & ->). rewrite (concat_perm _ (seg :: l1 ++ l2)) in Hp by (symmetry; apply Permutation_middle). cbn in Hp. pose proof (Permutation_length Hp) as L. rewrite app_length in L.
    destruct (concat (l1 ++ l2)); [|cbn in L; lia]. rewrite app_nil_r in Hp. exact Hp. }
  induction ds as [|[d [a b]] ds IH]; intros ep segs seg HI Hs E; cbn [greedy_loop] in *; [apply (Hfin ep segs); assumption|].
  destruct (dget a ep) as [sa|] eqn:Ea; [|apply (IH ep segs); assumption]. destruct (dget b ep) as [sb|] eqn:Eb; [|apply (IH ep segs); assumption].
  destruct (list_eq_dec eq_dec sa sb) as [|Hne]; [apply (IH ep segs); assumption|]. destruct (join_spec ep segs a b sa sb HI Ea Eb Hne) as (rest & _ & HI' & _). destruct (join ep sa sb a b) as [ep' seg']. cbn [fst snd] in HI'.
  destruct (length seg' =? length ns)%nat eqn:El.
  - apply Nat.eqb_eq in El. apply (Hfin ep' (seg' :: rest)); auto. right. left. reflexivity.
  - apply (IH ep' (seg' :: rest)); auto. right. left. reflexivity. Qed.

(** as long as there are two segments, the pairs of their ends are still to come *)
Definition pending (ds : list (Z * (A * A))) segs : Prop := forall s s' x y, In s segs -> In s' segs -> s <> s' -> is_end x s -> is_end y s' -> exists d, In (d, (x, y)) ds \/ In (d, (y, x)) ds.
Lemma greedy_complete ds : forall ep segs seg, SInv ep segs -> pending ds segs -> 2 <= length segs -> length (greedy_loop (length ns) ds ep seg) = length ns.
Proof. induction ds as [|[d [a b]] ds IH]; intros ep segs seg HI HP Hl; cbn [greedy_loop].
  - exfalso. destruct segs as [|s [|s' segs]]; cbn in Hl; try lia. pose proof (SInv_nodup _ _ HI) as ND. destruct HI as (_ & Hn & _). assert (s <> []) as N1 by (apply Hn; cbn; auto). assert (s' <> []) as N2 by (apply Hn; cbn; auto).
    destruct s as [|x s]; [congruence|]. destruct s' as [|y s']; [congruence|]. destruct (HP (x :: s) (y :: s') x y) as (d & [[]|[]]); [left; reflexivity|right; left; reflexivity| |left; reflexivity|left; reflexivity].
    intros C. injection C as -> ->. cbn in ND. apply NoDup_cons_iff in ND. destruct ND as [N _]. apply N. apply in_app_iff. right. left. reflexivity.
  - assert (forall ep' segs', SInv ep' segs' -> 2 <= length segs' -> (forall s s' x y, In s segs' -> In s' segs' -> s <> s' -> is_end x s -> is_end y s' -> exists d0, (d0, (x, y)) = (d, (a, b)) \/ (d0, (y, x)) = (d, (a, b)) \/ In (d0, (x, y)) ds \/ In (d0, (y, x)) ds) ->
      (forall s s', In s segs' -> In s' segs' -> s <> s' -> is_end a s -> is_end b s' -> False) -> forall seg', length (greedy_loop (length ns) ds ep' seg') = length ns) as Hgo.
    { intros ep' segs' HI' Hl' H1 H2 seg'. apply (IH ep' segs'); auto. intros s s' x y K1 K2 K3 K4 K5. destruct (H1 s s' x y K1 K2 K3 K4 K5) as (d0 & [E|[E|[E|E]]]).
      - injection E as _ -> ->. exfalso. apply (H2 s s'); assumption.
      - injection E as _ -> ->. exfalso. apply (H2 s' s); auto.
      - exists d0. auto.
      - exists d0. auto. }
    assert (forall s s' x y, In s segs -> In s' segs -> s <> s' -> is_end x s -> is_end y s' -> exists d0, (d0, (x, y)) = (d, (a, b)) \/ (d0, (y, x)) = (d, (a, b)) \/ In (d0, (x, y)) ds \/ In (d0, (y, x)) ds) as HP'.
    { intros s s' x y K1 K2 K3 K4 K5. destruct (HP s s' x y K1 K2 K3 K4 K5) as (d0 & [[E|E]|[E|E]]); exists d0; rewrite ?E; auto. }
    pose proof HI as (_ & _ & _ & Hd). destruct (dget a ep) as [sa|] eqn:Ea.
    2:{ apply (Hgo ep segs HI Hl HP'). intros s s' K1 _ _ K4 _. assert (dget a ep = Some s) by (apply Hd; auto). congruence. }
    destruct (dget b ep) as [sb|] eqn:Eb.
    2:{ apply (Hgo ep segs HI Hl HP'). intros s s' _ K2 _ _ K5. assert (dget b ep = Some s') by (apply Hd; auto). congruence. }
    destruct (list_eq_dec eq_dec sa sb) as [->|Hne].
    { apply (Hgo ep segs HI Hl HP'). intros s s' K1 K2 K3 K4 K5. assert (dget a ep = Some s) by (apply Hd; auto). assert (dget b ep = Some s') by (apply Hd; auto). congruence. }
    destruct (join_spec ep segs a b sa sb HI Ea Eb Hne) as (rest & Hr & HI' & [Ia Ib] & Hends & Hperm). destruct (join ep sa sb a b) as [ep' seg']. cbn [fst snd] in *.
    destruct (length seg' =? length ns)%nat eqn:El; [apply Nat.eqb_eq, El|]. apply Nat.eqb_neq in El. assert (In sa segs /\ In sb segs) as [Isa Isb] by (apply Hd in Ea, Eb; split; [apply Ea|apply Eb]).
    assert (forall s, In s rest -> In s segs) as Hrest by (intros s Hs; apply (Permutation_in _ (Permutation_sym Hr)); right; right; exact Hs).
    pose proof (SInv_nodup _ _ HI') as ND'. cbn in ND'. apply NoDup_app_iff in ND'. destruct ND' as (_ & _ & ND3).
    assert (forall s, In s rest -> s <> sa /\ s <> sb) as Hdiff.
    { intros s Hs. destruct HI' as (_ & Hn' & _). assert (s <> []) as Hsn by (apply Hn'; right; exact Hs). destruct s as [|x s]; [congruence|]. split; intros C; apply (ND3 x); try (apply in_concat; exists (x :: s); split; [exact Hs|left; reflexivity]); apply (Permutation_in _ (Permutation_sym Hperm)), in_app_iff; rewrite <- C; cbn; auto. }
    apply (Hgo ep' (seg' :: rest) HI').
    + destruct rest as [|s rest]; [|cbn; lia]. exfalso. destruct HI' as (Hp' & _). cbn in Hp'. rewrite app_nil_r in Hp'. apply Permutation_length in Hp'. contradiction.
    + intros s s' x y [<-|K1] [<-|K2] K3 K4 K5; [congruence| | |apply (HP' s s'); auto].
      * destruct (Hdiff s' K2). destruct (Hends x K4) as [Hx|Hx]; [apply (HP' sa s')|apply (HP' sb s')]; auto.
      * destruct (Hdiff s K1). destruct (Hends y K5) as [Hy|Hy]; [apply (HP' s sa)|apply (HP' s sb)]; auto.
    + intros s s' K1 K2 K3 K4 K5. assert (forall z u, In z seg' -> In u (seg' :: rest) -> In z u -> u = seg') as Hu. { intros z u Hz [<-|Hu] Hzu; [reflexivity|]. exfalso. apply (ND3 z Hz). apply in_concat. eauto. }
      apply K3. rewrite (Hu a s Ia K1 (end_in _ _ K4)), (Hu b s' Ib K2 (end_in _ _ K5)). reflexivity. Qed.

Lemma SInv_init : SInv (map (fun x => (x, [x])) ns) (map (fun x => [x]) ns).
Proof. unfold SInv. assert (dkeys (map (fun x => (x, [x])) ns) = ns) as Ek by (unfold dkeys; rewrite map_map; apply map_id). splits.
  - clear. induction ns as [|x l IH]; cbn; [reflexivity|]. constructor. exact IH.
  - intros s Hs. apply in_map_iff in Hs. destruct Hs as (x & <- & _). discriminate.
  - rewrite Ek. exact Hns.
  - intros x s. rewrite dget_In_iff by (rewrite Ek; exact Hns). rewrite in_map_iff. split.
    + intros (y & E & Hy). injection E as <- <-. split; [apply (in_map (fun x => [x])), Hy|left; reflexivity].
    + intros [Hs He]. apply in_map_iff in Hs. destruct Hs as (y & <- & Hy). exists y. apply end_in in He. destruct He as [->|[]]. auto. Qed.
End Greedy.

Section Greedy2.
Context {A O : Type} {EA : EqDec A}.
Notation graph := (graph A O Z).
Implicit Types (g : graph).
Context (srt : list (Z * (A * A)) -> list (Z * (A * A))) (Hsrt : forall l, Permutation (srt l) l).
Lemma greedy_tour g t : wf g -> greedy srt g = Ok t -> hamiltonian g t.
Proof. intros W H. unfold greedy in H. destruct (length (greedy_loop (length (nodes g)) (srt (greedy_pairs g)) (map (fun x => (x, [x])) (nodes g)) []) =? length (nodes g))%nat eqn:E; [|discriminate]. injection H as <-. apply Nat.eqb_eq in E. unfold hamiltonian.
  apply (greedy_sound (nodes g) (wf_nodes _ W) _ _ (map (fun x => [x]) (nodes g)) [] (SInv_init (nodes g) (wf_nodes _ W))); auto. Qed.
Lemma pairs_of_in (l : list A) x y : In x l -> In y l -> x <> y -> In (x, y) (pairs_of l) \/ In (y, x) (pairs_of l).
Proof. induction l as [|z l IH]; intros Hx Hy Hne; [destruct Hx|]. cbn [pairs_of]. rewrite !in_app_iff. destruct Hx as [->|Hx], Hy as [->|Hy].
  - congruence.
  - left. left. apply (in_map (fun y => (x, y))), Hy.
  - right. left. apply (in_map (fun x => (y, x))), Hx.
  - destruct (IH Hx Hy Hne); auto. Qed.
Lemma greedy_ok g : wf g -> complete g -> 2 <= length (nodes g) -> exists t, greedy srt g = Ok t /\ hamiltonian g t.
Proof. intros W HC Hn. assert (length (greedy_loop (length (nodes g)) (srt (greedy_pairs g)) (map (fun x => (x, [x])) (nodes g)) []) = length (nodes g)) as E.
  { apply (greedy_complete (nodes g) (wf_nodes _ W) _ _ (map (fun x => [x]) (nodes g)) [] (SInv_init (nodes g) (wf_nodes _ W))); [|rewrite map_length; exact Hn].
    intros s s' x y K1 K2 K3 K4 K5. apply in_map_iff in K1, K2. destruct K1 as (u & <- & Hu), K2 as (v & <- & Hv). apply end_in in K4, K5. destruct K4 as [->|[]], K5 as [->|[]].
    assert (x <> y) as Hne by congruence. assert (forall x y, In x (nodes g) -> In y (nodes g) -> x <> y -> In (x, y) (pairs_of (nodes g)) -> exists d, In (d, (x, y)) (srt (greedy_pairs g))) as Hin.
    { intros p q Hp Hq Hpq Hi. destruct (HC p q Hp Hq Hpq) as (d & Hd & Hd0). exists d. apply (Permutation_in _ (Permutation_sym (Hsrt _))). unfold greedy_pairs. apply in_flat_map. exists (p, q). split; [exact Hi|]. cbn [fst snd]. rewrite Hd. cbn. destruct (d =? 0)%Z eqn:E0; [apply Z.eqb_eq in E0; contradiction|left; reflexivity]. }
    destruct (pairs_of_in (nodes g) x y Hu Hv Hne) as [H|H]; [destruct (Hin x y Hu Hv Hne H) as [d Hd]|destruct (Hin y x Hv Hu (not_eq_sym Hne) H) as [d Hd]]; exists d; auto. }
  eexists. split; [unfold greedy; rewrite E, Nat.eqb_refl; reflexivity|]. apply (greedy_tour g); [exact W|]. unfold greedy. rewrite E, Nat.eqb_refl. reflexivity. Qed.
End Greedy2.
