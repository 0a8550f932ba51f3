(** Proofs about phase_lines and sources. *)
From Verif Require Import Prelude PreludeFacts Base BaseFacts BaseFacts2 BaseFacts3 Spec SpecFacts Loop SearchFacts BaseAlgFacts Topo TopoFacts Dag.

(** ** Levels in a finite relation *)
Section Level.
Context {A : Type} {EA : EqDec A}.
Implicit Types (R : A -> A -> Prop) (x y n : A).

Lemma level_fun R n k k' : level R n k -> level R n k' -> k = k'.
Proof. intros [[a Ha] H1] [[b Hb] H2]. apply Nat.le_antisymm; eauto. Qed.
Lemma level_O R n : (forall y, ~ R y n) -> level R n 0.
Proof. intros H. split; [exists n; constructor|]. intros [|m] a Hs; [lia|]. apply steps_snoc_inv in Hs. destruct Hs as (b & _ & Hb). destruct (H b Hb). Qed.
Lemma level_S R n k y : R y n -> level R y k -> (forall z, R z n -> exists j, level R z j /\ j <= k) -> level R n (S k).
Proof. intros Hy [[a Ha] _] H. split; [exists a; eapply steps_snoc; eauto|]. intros [|m] b Hs; [lia|].
  apply steps_snoc_inv in Hs. destruct Hs as (z & Hz & Hzn). destruct (H z Hzn) as (j & [_ Hj] & Hjk). specialize (Hj _ _ Hz). lia. Qed.
Lemma level_not_behind R n k : level R n k -> ~ behind_cycle R n.
Proof. intros [_ H] (c & (d & Hcd & Hdc) & Hcn). apply reach_steps in Hdc, Hcn. destruct Hdc as (m1 & Hm1), Hcn as (m2 & Hm2).
  assert (forall i, exists m, steps R m c n /\ i <= m) as G.
  { induction i as [|i (m & Hm & Hi)]; [exists m2; split; [exact Hm2|lia]|]. exists (S (m1 + m)). split; [|lia].
    econstructor; [exact Hcd|]. clear - Hm1 Hm. induction Hm1 as [|m1 x y z Hxy _ IH]; cbn; [exact Hm|]. econstructor; eauto. }
  destruct (G (S k)) as (m & Hm & Hi). specialize (H _ _ Hm). lia. Qed.
Lemma behind_pred R n : behind_cycle R n -> exists y, R y n /\ behind_cycle R y.
Proof. intros (c & Hc & Hn). assert (reach1 R c n) as H1.
  { apply reach_cases in Hn. destruct Hn as [<-|Hn]; auto. }
  apply reach1_last in H1. destruct H1 as (y & Hcy & Hyn). exists y. split; [exact Hyn|]. exists c. auto. Qed.
Lemma behind_step R x y : behind_cycle R x -> R x y -> behind_cycle R y.
Proof. intros (c & Hc & Hx) HR. exists c. split; [exact Hc|]. eapply reach_snoc; eauto. Qed.
Lemma acyclic_not_behind R x : acyclic R -> ~ behind_cycle R x.
Proof. intros H (c & Hc & _). apply (H c Hc). Qed.
Lemma path_dup_behind R a p b : path R a p b -> ~ NoDup p -> behind_cycle R b.
Proof. intros H Hn. destruct (path_dup_cycle R a p b H Hn) as (x & Hx & Hc). exists x. split; [exact Hc|].
  apply in_split in Hx. destruct Hx as (p1 & p2 & ->). apply path_split in H. destruct H as [_ H]. exists (x :: p2). exact H. Qed.
Lemma pred_closed_behind R (l : list A) x : In x l -> (forall y, In y l -> exists z, In z l /\ R z y) -> behind_cycle R x.
Proof. intros H0 HS.
  assert (forall k, exists a p, path R a p x /\ length p = S k /\ incl p l) as G.
  { induction k as [|k IH].
    - exists x, [x]. splits; [constructor|reflexivity|intros y [<-|[]]; exact H0].
    - destruct IH as (a & p & Hp & Hl & Hi). destruct (HS a) as (y & Hy & HR); [apply Hi; eapply path_start_In; eauto|].
      exists y, (y :: p). splits; [econstructor; eauto|cbn; lia|intros z [<-|Hz]; auto]. }
  destruct (G (length l)) as (a & p & Hp & Hl & Hi). apply (path_dup_behind R a p x Hp). intros Hn. apply (NoDup_incl_length Hn) in Hi. lia. Qed.

(** all nodes k steps before x *)
Fixpoint anc (preds : A -> list A) (k : nat) (x : A) : list A :=
  match k with 0 => [x] | S k => flat_map (anc preds k) (preds x) end.
Lemma anc_spec R preds : (forall x y, In x (preds y) <-> R x y) -> forall k x a, In a (anc preds k x) <-> steps R k a x.
Proof. intros HP. induction k as [|k IH]; intros x a; cbn.
  - split; [intros [->|[]]; constructor|]. intros H. apply steps_0_inv in H. auto.
  - rewrite in_flat_map. split.
    + intros (y & Hy & Ha). apply HP in Hy. apply IH in Ha. eapply steps_snoc; eauto.
    + intros H. apply steps_snoc_inv in H. destruct H as (y & Hy & HR). exists y. split; [apply HP, HR|apply IH, Hy]. Qed.
Lemma level_or_behind R preds (l : list A) : (forall x y, In x (preds y) <-> R x y) -> (forall x y, R x y -> In x l) ->
  forall x, In x l -> (exists k, level R x k) \/ behind_cycle R x.
Proof. intros HP HL x Hx. pose proof (anc_spec R preds HP) as HA.
  assert (forall K, (exists k, k < K /\ level R x k) \/ exists a, In a (anc preds K x)) as G.
  { induction K as [|K IH]; [right; exists x; cbn; auto|]. destruct IH as [(k & Hk & Hl)|(a & Ha)]; [left; exists k; split; [lia|exact Hl]|].
    destruct (anc preds (S K) x) as [|b t] eqn:E; [left|right; exists b; cbn; auto].
    exists K. split; [lia|]. split; [exists a; apply HA, Ha|]. intros m c Hm.
    destruct (le_lt_dec m K) as [h|h]; [exact h|exfalso].
    assert (exists d, steps R (S K) d x) as (d & Hd).
    { replace m with ((m - S K) + S K) in Hm by lia. clear - Hm. revert c Hm. induction (m - S K) as [|i IH]; intros c Hm; cbn in Hm; [exists c; exact Hm|].
      inversion Hm as [|i' u v w Huv Hvw]; subst. eapply IH; eauto. }
    apply HA in Hd. rewrite E in Hd. destruct Hd. }
  destruct (G (length l)) as [(k & _ & Hk)|(a & Ha)]; [left; exists k; exact Hk|right].
  apply HA in Ha. apply steps_path in Ha. destruct Ha as (p & Hp & Hlen). apply (path_dup_behind R a p x Hp). intros Hn.
  assert (incl p l) as Hi.
  { intros y Hy. apply in_split in Hy. destruct Hy as (p1 & p2 & ->). apply path_split in Hp. destruct Hp as [_ Hp].
    destruct p2 as [|z p2]; [apply path_inv1 in Hp; destruct Hp as [_ ->]; exact Hx|]. apply path_inv2 in Hp. destruct Hp as (_ & Hr & _). eapply HL; eauto. }
  apply (NoDup_incl_length Hn) in Hi. lia. Qed.
Lemma finite_choice {B} (P : A -> B -> Prop) (d : B) (l : list A) : (forall x, In x l -> exists b, P x b) -> exists f, forall x, In x l -> P x (f x).
Proof. induction l as [|y l IH]; intros H; [exists (fun _ => d); intros x []|].
  destruct IH as (f & Hf); [intros; apply H; cbn; auto|]. destruct (H y) as (b & Hb); [cbn; auto|].
  exists (fun x => if eq_dec x y then b else f x). intros x [<-|Hx]; [destruct (eq_dec y y); congruence|].
  destruct (eq_dec x y) as [->|]; auto. Qed.
End Level.

Section F.
Context {A O V : Type} {EA : EqDec A}.
Notation graph := (graph A O V).
Implicit Types (g : graph) (a b x y u : A).

Lemma graph_level g x : wf g -> In x (nodes g) -> (exists k, level (has_edge g) x k) \/ behind_cycle (has_edge g) x.
Proof. intros W. apply (level_or_behind (has_edge g) (nodes_to g) (nodes g)).
  - intros a b. apply In_to, W.
  - intros a b H. apply (has_edge_nodes g a b W H). Qed.

Lemma in_degree_present g n : wf g -> In n (nodes g) -> exists d, in_degree g n = (d, g) /\ (d = 0%Z <-> forall y, ~ has_edge g y n).
Proof. intros W Hn. unfold in_degree. assert (In n (dkeys (g_indeg g))) as Hk by (apply (wf_ink _ W), Hn). destruct (dget_key _ _ Hk) as (z & Hz). rewrite Hz.
  exists z. split; [reflexivity|]. assert (z = Z.of_nat (length (inner (g_rev g) n))) as -> by (rewrite <- (wf_in _ W); unfold deg; rewrite Hz; reflexivity).
  split.
  - intros H y Hy. apply (In_to g y n W) in Hy. unfold nodes_to in Hy. destruct (inner (g_rev g) n); [destruct Hy|cbn in H; lia].
  - intros H. destruct (inner (g_rev g) n) as [|[y v] t] eqn:E; [reflexivity|exfalso]. apply (H y), (In_to g y n W). unfold nodes_to. rewrite E. cbn; auto. Qed.

(** the first for loop *)
Lemma pl_mark_spec pc g2 : wf g2 -> forall q ph q2, incl q (nodes g2) ->
  exists ph' q2', fold_left (pl_mark pc) q (g2, ph, q2) = (g2, ph', q2') /\
    (incl q (dkeys ph) -> dkeys ph' = dkeys ph) /\
    (forall x, In x q -> (forall y, ~ has_edge g2 y x) -> dget x ph' = Some pc) /\
    (forall x, ~ (In x q /\ forall y, ~ has_edge g2 y x) -> dget x ph' = dget x ph) /\
    (forall x, In x q2' <-> In x q2 \/ (In x q /\ exists y, has_edge g2 y x) \/ exists z, In z q /\ (forall y, ~ has_edge g2 y z) /\ has_edge g2 z x) /\
    (NoDup q2 -> NoDup q2').
Proof. intros W. induction q as [|n1 q IH]; intros ph q2 Hq.
  - exists ph, q2. cbn. splits; auto; intros x; [intros []|]. split; [auto|]. intros [H|[[[] _]|(z & [] & _)]]; exact H.
  - cbn [fold_left]. unfold pl_mark at 2. destruct (in_degree_present g2 n1 W) as (d & -> & Hd); [apply Hq; cbn; auto|].
    assert (incl q (nodes g2)) as Hq' by (intros x Hx; apply Hq; cbn; auto). destruct (Z.eqb_spec d 0) as [E|E]; cbn [negb].
    + assert (forall y, ~ has_edge g2 y n1) as Hno by (apply Hd, E).
      destruct (IH (dset n1 pc ph) (sunion q2 (nodes_from g2 n1)) Hq') as (ph' & q2' & -> & P1 & P2 & P3 & P4 & P5). exists ph', q2'. splits; auto.
      * intros Hi. assert (dkeys (dset n1 pc ph) = dkeys ph) as Ek by (apply dkeys_dset_in, Hi; cbn; auto). rewrite Ek in P1. apply P1. intros x Hx. apply Hi. cbn; auto.
      * intros x [<-|Hx] Hn; [|auto]. destruct (In_dec' n1 q) as [h|h]; [auto|]. rewrite P3 by tauto. rewrite dget_dset. destruct (eq_dec n1 n1); congruence.
      * intros x Hx. rewrite P3 by (intros [H1 H2]; apply Hx; cbn; auto). rewrite dget_dset. destruct (eq_dec x n1) as [->|]; [|reflexivity]. exfalso. apply Hx. cbn; auto.
      * intros x. rewrite P4, In_sunion, (In_from g2 n1 x W). split.
        -- intros [[H|H]|[[H1 H2]|(z & H1 & H2 & H3)]]; auto.
           ++ right. right. exists n1. cbn; auto.
           ++ right. left. cbn; auto.
           ++ right. right. exists z. cbn; auto.
        -- intros [H|[[[<-|H1] (y & H2)]|(z & [<-|H1] & H2 & H3)]]; auto.
           ++ destruct (Hno y H2).
           ++ right. left. split; [exact H1|exists y; exact H2].
           ++ right. right. exists z. auto.
      * intros Hn. apply P5, NoDup_sunion, Hn.
    + assert (exists y, has_edge g2 y n1) as Hex.
      { destruct (nodes_to g2 n1) as [|y t] eqn:Et; [exfalso; apply E, Hd; intros y Hy; apply (In_to g2 y n1 W) in Hy; rewrite Et in Hy; destruct Hy|].
        exists y. apply (In_to g2 y n1 W). rewrite Et. cbn; auto. }
      destruct (IH ph (sadd n1 q2) Hq') as (ph' & q2' & -> & P1 & P2 & P3 & P4 & P5). exists ph', q2'. splits; auto.
      * intros Hi. apply P1. intros x Hx. apply Hi. cbn; auto.
      * intros x [<-|Hx] Hn; [|auto]. exfalso. destruct Hex as (y & Hy). apply (Hn y Hy).
      * intros x Hx. apply P3. intros [H1 H2]. apply Hx. cbn; auto.
      * intros x. rewrite P4, In_sadd. split.
        -- intros [[->|H]|[[H1 H2]|(z & H1 & H2 & H3)]]; auto.
           ++ right. left. cbn; auto.
           ++ right. left. cbn; auto.
           ++ right. right. exists z. cbn; auto.
        -- intros [H|[[[<-|H1] H2]|(z & [<-|H1] & H2 & H3)]]; auto.
           ++ destruct Hex as (y & Hy). destruct (H2 y Hy).
           ++ right. right. exists z. auto.
      * intros Hn. apply P5, NoDup_sadd, Hn. Qed.

Lemma foldM_del_filter q2 q : forall g, foldM (fun g n1 => if mem n1 q2 then Ok g else del_node g n1) q g =
  foldM (fun g n1 => del_node g n1) (filter (fun n => negb (mem n q2)) q) g.
Proof. induction q as [|n q IH]; intros g; cbn; [reflexivity|]. destruct (mem n q2); cbn; [apply IH|]. destruct (del_node g n); cbn; auto. Qed.

Record pli g (st : graph * dict A Z * list A * nat) : Prop := {
  pi_wf : let '(g2, ph, q, pc) := st in wf g2 /\ clean g2;
  pi_sub : let '(g2, ph, q, pc) := st in incl (nodes g2) (nodes g);
  pi_edge : let '(g2, ph, q, pc) := st in forall x y v, edge g2 x y = Some v <-> edge g x y = Some v /\ In x (nodes g2) /\ In y (nodes g2);
  pi_keys : let '(g2, ph, q, pc) := st in dkeys ph = nodes g;
  pi_done : let '(g2, ph, q, pc) := st in forall x, In x (nodes g) -> ~ In x (nodes g2) -> exists k, k < pc /\ level (has_edge g) x k /\ dget x ph = Some (Z.of_nat k);
  pi_todo : let '(g2, ph, q, pc) := st in forall x, In x (nodes g2) -> dget x ph = Some (Z.of_nat (length (nodes g)) + 1)%Z;
  pi_q : let '(g2, ph, q, pc) := st in incl q (nodes g2);
  pi_src : let '(g2, ph, q, pc) := st in forall x, In x (nodes g2) -> (forall y, ~ has_edge g2 y x) -> In x q;
  pi_low : let '(g2, ph, q, pc) := st in pc <> 0 -> forall x, In x (nodes g2) -> exists y, has_edge g y x /\ (In y (nodes g2) \/ level (has_edge g) y (pc - 1));
  pi_front : let '(g2, ph, q, pc) := st in forall u v, In u (nodes g) -> ~ In u (nodes g2) -> has_edge g u v -> In v (nodes g2) -> In v q;
  pi_back : let '(g2, ph, q, pc) := st in forall x, In x q -> (forall y, ~ has_edge g y x) \/ exists u, has_edge g u x /\ ~ In u (nodes g2) }.

(** what phase_lines promises *)
Definition pl_post g (r : res (dict A Z)) : Prop :=
  (r = Err AttributeError /\ exists u v, has_edge g u v /\ ~ behind_cycle (has_edge g) u /\ behind_cycle (has_edge g) v) \/
  (exists ph, r = Ok ph /\ dkeys ph = nodes g /\
     (forall u v, has_edge g u v -> behind_cycle (has_edge g) v -> behind_cycle (has_edge g) u) /\
     forall x, In x (nodes g) -> (exists k, level (has_edge g) x k /\ dget x ph = Some (Z.of_nat k)) \/
        (behind_cycle (has_edge g) x /\ dget x ph = Some (Z.of_nat (length (nodes g)) + 1)%Z)).

Lemma level_has_edge_dec g2 x : wf g2 -> (forall y, ~ has_edge g2 y x) \/ exists y, has_edge g2 y x.
Proof. intros W. destruct (nodes_to g2 x) as [|y t] eqn:Et; [left|right].
  - intros y Hy. apply (In_to g2 y x W) in Hy. rewrite Et in Hy. destruct Hy.
  - exists y. apply (In_to g2 y x W). rewrite Et. cbn; auto. Qed.

Lemma phase_loop g ord : wf g -> (forall i l, Permutation (ord i l) l) ->
  forall st, pli g st -> exists r, returns (fun n => loop n (pl_step ord) st) r /\ pl_post g r.
Proof. intros W Ho. apply (loop_returns_nat (pl_step ord) (pli g) (fun st => length (nodes (fst (fst (fst st))))) (pl_post g)).
  intros [[[g2 ph] q] pc] [[W2 C2] P2 P3 P4 P5 P6 P7 P8 P9 P10 P11]. unfold pl_step.
  set (R := has_edge g) in *.
  assert (forall x y, has_edge g2 x y <-> R x y /\ In x (nodes g2) /\ In y (nodes g2)) as HE.
  { intros x y. split; [intros (v & Hv); apply P3 in Hv; destruct Hv as (Hv & ? & ?); splits; auto; exists v; exact Hv|].
    intros ((v & Hv) & Hx & Hy). exists v. apply P3. auto. }
  (* nodes without predecessor in g2 have level pc *)
  assert (forall x, In x (nodes g2) -> (forall y, ~ has_edge g2 y x) -> level R x pc) as HL.
  { intros x Hx Hno.
    assert (forall z, R z x -> exists j, level R z j /\ j < pc) as Hz.
    { intros z Hz. destruct (In_dec' z (nodes g2)) as [h|h]; [exfalso; apply (Hno z), HE; auto|].
      destruct (P5 z) as (k & Hk & Hlk & _); [apply (has_edge_nodes g z x W Hz)|exact h|]. eauto. }
    destruct pc as [|pc]; [apply level_O; intros y Hy; destruct (Hz y Hy) as (j & _ & Hj); lia|].
    destruct (P9 ltac:(lia) x Hx) as (y & Hy & [h|h]); [exfalso; apply (Hno y), HE; auto|].
    replace (S pc - 1) with pc in h by lia.
    apply (level_S R x pc y Hy h). intros z Hzx. destruct (Hz z Hzx) as (j & Hj & Hlt). exists j. split; [exact Hj|lia]. }
  assert ((forall x, In x q -> exists y, has_edge g2 y x) -> forall x, In x (nodes g2) -> behind_cycle R x) as HB.
  { intros Hq x Hx. apply (pred_closed_behind R (nodes g2) x Hx). intros y Hy. destruct (level_has_edge_dec g2 y W2) as [h|(z & Hz)].
    - destruct (Hq y (P8 y Hy h)) as (z & Hz). apply HE in Hz. exists z. tauto.
    - apply HE in Hz. exists z. tauto. }
  destruct (is_nil q) eqn:Eq.
  { destruct q; [|discriminate]. split; [discriminate|]. right. exists ph. splits; auto.
    - intros u v Huv Hv. destruct (has_edge_nodes g u v W Huv) as [Hu Hv'].
      destruct (In_dec' u (nodes g2)) as [h|h]; [apply HB; auto; intros x []|exfalso].
      destruct (In_dec' v (nodes g2)) as [h'|h']; [apply (P10 u v Hu h Huv h')|].
      destruct (P5 v Hv' h') as (k & _ & Hk & _). apply (level_not_behind R v k Hk Hv).
    - intros x Hx. destruct (In_dec' x (nodes g2)) as [h|h].
      + right. split; [apply HB; auto; intros y []|apply P6, h].
      + left. destruct (P5 x Hx h) as (k & _ & Hk & Hd). eauto. }
  destruct (pl_mark_spec (Z.of_nat pc) g2 W2 q ph [] P7) as (ph' & q2 & -> & M1 & M2 & M3 & M4 & M5).
  assert (dkeys ph' = nodes g) as Hk' by (rewrite M1; [exact P4|rewrite P4; intros x Hx; apply P2, P7, Hx]).
  rewrite foldM_del_filter.
  destruct (del_nodes_spec (filter (fun n => negb (mem n q2)) q) g2 W2 C2) as (g3 & -> & W3 & C3 & N3 & E3).
  assert (forall x, In x q2 <-> (In x q /\ exists y, has_edge g2 y x) \/ exists z, In z q /\ (forall y, ~ has_edge g2 y z) /\ has_edge g2 z x) as Hq2.
  { intros x. rewrite M4. cbn. tauto. }
  assert (forall x, In x (filter (fun n => negb (mem n q2)) q) <-> In x (nodes g2) /\ forall y, ~ has_edge g2 y x) as HZ.
  { intros x. rewrite filter_In, negb_true_iff, mem_notIn, Hq2. split.
    - intros [Hx Hn]. split; [apply P7, Hx|]. destruct (level_has_edge_dec g2 x W2) as [h|h]; [exact h|]. exfalso. apply Hn. auto.
    - intros [Hx Hn]. split; [apply P8; auto|]. intros [[_ (y & Hy)]|(z & _ & _ & Hz)]; eapply Hn; eauto. }
  assert (forall x, In x (nodes g3) <-> In x (nodes g2) /\ exists y, has_edge g2 y x) as N3'.
  { intros x. rewrite N3, HZ. split; intros [Hx Hn]; (split; [exact Hx|]).
    - destruct (level_has_edge_dec g2 x W2) as [h|h]; [tauto|exact h].
    - intros [_ Hno]. destruct Hn as (y & Hy). apply (Hno y Hy). }
  destruct (same_set q q2) eqn:Es.
  { split; [discriminate|]. left. split; [reflexivity|]. unfold same_set in Es. apply andb_true_iff in Es. destruct Es as [Es _]. rewrite forallb_forall in Es.
    assert (forall x, In x q -> exists y, has_edge g2 y x) as Hall.
    { intros x Hx. destruct (level_has_edge_dec g2 x W2) as [h|h]; [exfalso|exact h].
      assert (In x (filter (fun n => negb (mem n q2)) q)) as Hf by (apply HZ; split; [apply P7, Hx|exact h]).
      apply filter_In in Hf. destruct Hf as [_ Hf]. rewrite (Es x Hx) in Hf. discriminate. }
    destruct q as [|x q]; [discriminate|]. assert (In x (nodes g2)) as Hx by (apply P7; cbn; auto).
    pose proof (HB Hall x Hx) as HBx. destruct (P11 x) as [h|(u & Hu & Hug)]; [cbn; auto| |].
    - exfalso. destruct (behind_pred R x HBx) as (y & Hy & _). apply (h y Hy).
    - exists u, x. splits; auto. destruct (P5 u) as (k & _ & Hk & _); [apply (has_edge_nodes g u x W Hu)|exact Hug|]. eapply level_not_behind; eauto. }
  assert (Permutation (ord pc q2) q2) as Hp by apply Ho.
  assert (forall x, In x (ord pc q2) <-> In x q2) as Hoq by (intros x; split; apply Permutation_in; [|symmetry]; exact Hp).
  split.
  - constructor.
    + auto.
    + intros x Hx. apply P2. apply N3' in Hx. tauto.
    + intros x y v. rewrite E3, P3, !N3. tauto.
    + exact Hk'.
    + intros x Hx Hn. destruct (In_dec' x (nodes g2)) as [h|h].
      * destruct (level_has_edge_dec g2 x W2) as [h'|h']; [|exfalso; apply Hn, N3'; auto].
        exists pc. splits; [lia|apply HL; auto|]. apply M2; auto.
      * destruct (P5 x Hx h) as (k & Hk & Hlk & Hd). exists k. splits; [lia|exact Hlk|]. rewrite M3; [exact Hd|]. intros [Hxq _]. apply h, P7, Hxq.
    + intros x Hx. apply N3' in Hx. destruct Hx as [Hx (y & Hy)]. rewrite M3; [apply P6, Hx|]. intros [_ Hno]. apply (Hno y Hy).
    + intros x Hx. apply Hoq, Hq2 in Hx. apply N3'. destruct Hx as [[Hx Hy]|(z & _ & _ & Hz)]; [split; [apply P7, Hx|exact Hy]|].
      split; [apply HE in Hz; tauto|exists z; exact Hz].
    + intros x Hx Hno. apply Hoq, Hq2. apply N3' in Hx. destruct Hx as [Hx (y & Hy)]. destruct (In_dec' y (nodes g3)) as [h|h].
      * exfalso. apply (Hno y). apply HE in Hy. destruct Hy as [(v & Hv) Hin]. exists v. apply E3. rewrite P3. splits; try tauto.
        -- apply N3 in h. tauto.
        -- assert (In x (nodes g3)) as Hx3 by (apply N3'; split; [exact Hx|exists y; apply HE; split; [exists v; exact Hv|exact Hin]]). apply N3 in Hx3. tauto.
      * right. exists y. assert (In y (nodes g2)) as Hyg by (apply HE in Hy; tauto).
        assert (forall u, ~ has_edge g2 u y) as Hny by (destruct (level_has_edge_dec g2 y W2) as [h'|h']; [exact h'|exfalso; apply h, N3'; auto]).
        splits; [apply P8; auto|exact Hny|exact Hy].
    + intros _ x Hx. apply N3' in Hx. destruct Hx as [Hx (y & Hy)]. exists y. apply HE in Hy. destruct Hy as (Hy & Hyg & _). split; [exact Hy|].
      replace (S pc - 1) with pc by lia. destruct (level_has_edge_dec g2 y W2) as [h|h]; [right; apply HL; auto|left; apply N3'; auto].
    + intros u v Hu Hn Huv Hv. apply N3' in Hv. destruct Hv as [Hv (y & Hy)]. apply Hoq, Hq2. destruct (In_dec' u (nodes g2)) as [h|h].
      * right. exists u. assert (forall u', ~ has_edge g2 u' u) as Hnu by (destruct (level_has_edge_dec g2 u W2) as [h'|h']; [exact h'|exfalso; apply Hn, N3'; auto]).
        splits; [apply P8; auto|exact Hnu|apply HE; auto].
      * left. split; [|exists y; exact Hy]. eapply P10; eauto.
    + intros x Hx. apply Hoq, Hq2 in Hx. right. destruct Hx as [[Hx (y & Hy)]|(z & Hz & Hno & Hzx)].
      * destruct (P11 x Hx) as [h|(u & Hu & Hug)]; [exfalso; apply HE in Hy; apply (h y); tauto|]. exists u. split; [exact Hu|]. intros C. apply N3' in C. tauto.
      * exists z. split; [apply HE in Hzx; tauto|]. intros C. apply N3' in C. destruct C as [_ (y & Hy)]. apply (Hno y Hy).
  - cbn [fst]. destruct (filter (fun n => negb (mem n q2)) q) as [|t z] eqn:EZ.
    + exfalso. assert (forall x, In x q -> In x q2) as Hin.
      { intros x Hx. apply Hq2. left. split; [exact Hx|]. destruct (level_has_edge_dec g2 x W2) as [h|h]; [|exact h]. exfalso. apply (HZ x). auto. }
      assert (same_set q q2 = true) as C; [|congruence]. unfold same_set. apply andb_true_iff. rewrite !forallb_forall.
      split; intros x Hx; apply mem_In; [apply Hin, Hx|]. apply Hq2 in Hx. destruct Hx as [[Hx _]|(z & Hz & Hno & _)]; [exact Hx|].
      exfalso. apply (HZ z). split; [apply P7, Hz|exact Hno].
    + assert (In t (nodes g2)) as Ht by (apply HZ; cbn; auto).
      apply (NoDup_incl_length' (t :: nodes g3) (nodes g2)).
      * constructor; [|apply W3]. rewrite N3. cbn. tauto.
      * intros x [<-|Hx]; [exact Ht|apply N3 in Hx; tauto]. Qed.

Lemma phase_lines_of_spec c g ord : wf g -> (forall i l, Permutation (ord i l) l) ->
  ((forall x, In x (nodes g) -> exists y, has_edge g y x) /\ (forall n, phase_lines_of c ord n g = Err AttributeError)) \/
  ((exists x, In x (nodes g) /\ forall y, ~ has_edge g y x) /\ exists r, returns (fun n => phase_lines_of c ord n g) r /\ pl_post g r).
Proof. intros W Ho. unfold phase_lines_of. destruct (copy_of_spec c g W) as (g0 & -> & W0 & C0 & Hn & He). cbn [bind].
  destruct (nodes_in_degree_0 g0 W0 C0) as [_ Hq].
  assert (forall x y, has_edge g0 x y <-> has_edge g x y) as Hhe by (intros x y; unfold has_edge; rewrite He; tauto).
  setoid_rewrite Hn in Hq. destruct (nodes_in_degree g0 0) as [|x0 q] eqn:EQ; cbn [is_nil].
  - left. split; [|reflexivity]. intros x Hx. destruct (level_has_edge_dec g x W) as [h|h]; [|exact h]. exfalso. apply (Hq x). split; [exact Hx|].
    intros y Hy. apply (h y), Hhe, Hy.
  - right. split.
    { exists x0. destruct (proj1 (Hq x0)) as [H1 H2]; [cbn; auto|]. split; [exact H1|]. intros y Hy. apply (H2 y), Hhe, Hy. }
    destruct (phase_loop g ord W Ho (g0, map (fun n => (n, (Z.of_nat (length (nodes g)) + 1)%Z)) (nodes g), x0 :: q, 0)) as (r & Hr & HP).
    + constructor; auto.
      * intros x Hx. apply Hn, Hx.
      * intros x y v. rewrite He, !Hn. split; [|tauto]. intros Hv. split; [exact Hv|]. apply (wf_ends _ W x y v Hv).
      * unfold dkeys. rewrite map_map. cbn. apply map_id.
      * intros x Hx C. rewrite Hn in C. tauto.
      * intros x Hx. apply Hn in Hx. generalize (Z.of_nat (length (nodes g)) + 1)%Z as zz. intros zz. clear - Hx. induction (nodes g) as [|y l IH] in Hx |- *; [destruct Hx|]. cbn. destruct (eq_dec x y); [reflexivity|]. destruct Hx as [->|Hx]; [congruence|auto].
      * intros x Hx. apply Hn. apply Hq in Hx. tauto.
      * intros x Hx Hno. apply Hn in Hx. apply Hq. auto.
      * intros C. congruence.
      * intros u v Hu C. rewrite Hn in C. tauto.
      * intros x Hx. left. apply Hq in Hx. intros y Hy. apply (proj2 Hx y), Hhe, Hy.
    + exists r. auto. Qed.

(** ** sources *)
Fixpoint qsum {B} (w : B -> nat) (q : list B) : nat := match q with [] => 0 | x :: q => w x + qsum w q end.
Lemma qsum_app {B} (w : B -> nat) q q' : qsum w (q ++ q') = qsum w q + qsum w q'.
Proof. induction q as [|x q IH]; cbn; [reflexivity|]. rewrite IH. lia. Qed.
Lemma qsum_le {B} (w : B -> nat) q c : (forall x : B, In x q -> w x <= c) -> qsum w q <= length q * c.
Proof. induction q as [|x q IH]; cbn; [lia|]. intros H. assert (w x <= c) by (apply H; auto). specialize (IH ltac:(auto)). lia. Qed.

Lemma src_push_spec l : forall ns q ns' q', NoDup ns -> fold_left src_push l (ns, q) = (ns', q') ->
  NoDup ns' /\ (forall x, In x ns' <-> In x ns \/ In x l) /\ (forall x, In x q' <-> In x q \/ In x l) /\
  exists new, q' = q ++ new /\ incl new l /\ length new <= length l.
Proof. induction l as [|y l IH]; intros ns q ns' q' Hn E; cbn [fold_left] in E.
  - inv E. splits; auto; try (intros x; cbn; tauto). exists []. rewrite app_nil_r. splits; auto. intros x [].
  - cbn [src_push] in E. destruct (IH _ _ _ _ (NoDup_sadd y ns Hn) E) as (H1 & H2 & H3 & new & -> & H5 & H6). splits; auto.
    + intros x. rewrite H2, In_sadd. cbn. intuition auto.
    + intros x. rewrite H3. destruct (mem_spec y q) as [h|h]; [|rewrite in_app_iff]; cbn; intuition (subst; auto).
    + destruct (mem_spec y q) as [h|h].
      * exists new. splits; auto; [intros x Hx; right; apply H5, Hx|cbn; lia].
      * exists (y :: new). rewrite <- app_assoc. splits; [reflexivity| |cbn; lia]. intros x [<-|Hx]; [cbn; auto|right; apply H5, Hx]. Qed.

Lemma sources_dag g n : wf g -> In n (nodes g) -> ~ behind_cycle (has_edge g) n ->
  exists r, returns (fun k => sources k g n) (Ok r) /\ NoDup r /\ forall x, In x r <-> reach1 (has_edge g) x n.
Proof. intros W Hn Hb. set (R := has_edge g) in *.
  assert (forall x, reach R x n -> ~ behind_cycle R x) as Hanc.
  { intros x Hx (c & Hc & Hcx). apply Hb. exists c. split; [exact Hc|]. eapply reach_trans; eauto. }
  assert (forall x, reach R x n -> In x (nodes g)) as Hin.
  { intros x Hx. apply reach_cases in Hx. destruct Hx as [->|(y & Hy & _)]; [exact Hn|]. apply (has_edge_nodes g x y W Hy). }
  destruct (finite_choice (fun x k => reach R x n -> level R x k) 0 (nodes g)) as (lev & Hlev).
  { intros x Hx. destruct (graph_level g x W Hx) as [(k & Hk)|H]; [exists k; auto|]. exists 0. intros Hr. destruct (Hanc x Hr H). }
  set (B := S (length (nodes g))). set (w := fun x => B ^ lev x).
  assert (forall x y, reach R x n -> R y x -> lev y < lev x) as Hlt.
  { intros x y Hx Hy. destruct (Hlev x (Hin x Hx) Hx) as [_ Hm]. assert (reach R y n) as Hyn by (eapply reach_cons; eauto).
    destruct (Hlev y (Hin y Hyn) Hyn) as [[a Ha] _]. specialize (Hm _ _ (steps_snoc R _ _ _ _ Ha Hy)). lia. }
  destruct (loop_returns_nat (src_step g)
    (fun st => let '(ns, q) := st in NoDup ns /\ In n ns /\ (forall x, In x ns -> reach R x n) /\ incl q ns /\ (forall x y, In x ns -> ~ In x q -> R y x -> In y ns))
    (fun st => qsum w (snd st)) (fun r => exists ns, r = Ok ns /\ NoDup ns /\ forall x, In x ns <-> reach R x n)) with (s := ([n], [n])) as (r & Hr & ns & -> & Hnd & Hns).
  - intros [ns q] (I1 & I2 & I3 & I4 & I5). unfold src_step. destruct q as [|new q].
    + split; [discriminate|]. exists ns. splits; auto. intros x. split; [apply I3|]. intros Hx. apply (reach_rev R x n) in Hx.
      apply (reach_closed_in (fun a b => R b a) n ns x I2); [|exact Hx]. intros u v Hu Hv. eapply I5; eauto.
    + destruct (fold_left src_push (nodes_to g new) (ns, q)) as [ns' q'] eqn:E.
      destruct (src_push_spec _ _ _ _ _ I1 E) as (H1 & H2 & H3 & nw & H4 & H5 & H6). assert (reach R new n) as Hnew by (apply I3, I4; cbn; auto).
      split; [splits|].
      * exact H1.
      * apply H2. auto.
      * intros x Hx. apply H2 in Hx. destruct Hx as [Hx|Hx]; [auto|]. apply (In_to g x new W) in Hx. eapply reach_cons; [exact Hx|exact Hnew].
      * intros x Hx. apply H2. apply H3 in Hx. destruct Hx as [Hx|Hx]; [left; apply I4; cbn; auto|auto].
      * intros x y Hx Hxq HR. apply H2. destruct (eq_dec x new) as [->|Hne]; [right; apply (In_to g y new W), HR|].
        apply H2 in Hx. destruct Hx as [Hx|Hx].
        -- left. apply (I5 x y Hx); [|exact HR]. intros [->|C]; [congruence|]. apply Hxq, H3. auto.
        -- exfalso. apply Hxq, H3. auto.
      * cbn [snd qsum]. rewrite H4, qsum_app. assert (qsum w nw < w new); [|lia].
        destruct nw as [|y0 nw0] eqn:Enw; [cbn; unfold w; pose proof (Nat.pow_nonzero B (lev new)); unfold B in *; lia|]. rewrite <- Enw in *.
        assert (forall y, In y nw -> lev y < lev new) as Hly by (intros y Hy; apply Hlt; [exact Hnew|]; apply (In_to g y new W), H5, Hy).
        destruct (lev new) as [|m] eqn:Em; [specialize (Hly y0); rewrite Enw in Hly; cbn in Hly; specialize (Hly ltac:(auto)); lia|].
        assert (qsum w nw <= length nw * B ^ m) as Hq by (apply qsum_le; intros y Hy; unfold w; apply Nat.pow_le_mono_r; [unfold B; lia|specialize (Hly y Hy); lia]).
        assert (length nw <= length (nodes g)) as Hl.
        { etransitivity; [exact H6|]. apply NoDup_incl_length; [apply NoDup_nodes_to, W|]. intros x Hx. apply (In_to g x new W) in Hx. apply (has_edge_nodes g x new W Hx). }
        unfold w at 2. rewrite Em. cbn [Nat.pow]. pose proof (Nat.pow_nonzero B m). assert (0 < B ^ m) by (unfold B in *; lia).
        assert (length nw * B ^ m < B * B ^ m); [|lia]. apply Nat.mul_lt_mono_pos_r; [assumption|unfold B; lia].
  - splits.
    + constructor; [intros []|constructor].
    + cbn; auto.
    + intros x [<-|[]]. apply reach_refl.
    + intros x Hx. exact Hx.
    + intros x y [<-|[]] C; cbn in C; tauto.
  - exists (sremove n ns). splits.
    + unfold sources. assert (contains g n = true) as -> by (apply contains_In, Hn). cbn [negb].
      apply (returns_bind _ _ ns (Ok (sremove n ns)) Hr). assert (mem n ns = true) as -> by (apply mem_In, Hns, reach_refl). apply returns_const. discriminate.
    + apply NoDup_sremove, Hnd.
    + intros x. rewrite In_sremove, Hns. split.
      * intros [Hx Hne]. apply reach_cases in Hx. destruct Hx as [->|Hx]; [congruence|exact Hx].
      * intros Hx. split; [apply reach1_reach, Hx|]. intros ->. apply Hb. exists n. split; [exact Hx|apply reach_refl]. Qed.

Lemma sources_cycle g n : wf g -> In n (nodes g) -> behind_cycle (has_edge g) n -> diverges (fun k => sources k g n).
Proof. intros W Hn Hb k. unfold sources. assert (contains g n = true) as -> by (apply contains_In, Hn). cbn [negb].
  assert (loop k (src_step g) ([n], [n]) = OutOfFuel) as ->; [|reflexivity].
  apply (loop_diverges (src_step g) (fun st => NoDup (fst st) /\ exists x, In x (snd st) /\ behind_cycle (has_edge g) x)).
  - intros [ns q] (Hnd & x & Hx & Hbx). cbn [fst snd] in *. destruct q as [|new q]; [destruct Hx|]. cbn [src_step]. eexists. split; [reflexivity|].
    destruct (fold_left src_push (nodes_to g new) (ns, q)) as [ns' q'] eqn:E. destruct (src_push_spec _ _ _ _ _ Hnd E) as (H1 & _ & H3 & _). cbn [fst snd]. split; [exact H1|].
    destruct Hx as [<-|Hx].
    + destruct (behind_pred _ _ Hbx) as (y & Hy & Hby). exists y. split; [apply H3; right; apply (In_to g y new W), Hy|exact Hby].
    + exists x. split; [apply H3; auto|exact Hbx].
  - cbn. split; [constructor; [intros []|constructor]|]. exists n. auto. Qed.
End F.
Notation phase_lines_spec := (phase_lines_of_spec IsGraph).
