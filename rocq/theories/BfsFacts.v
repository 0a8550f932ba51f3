(** Proofs about breadth first search. *)
From Coq Require Import Sorted.
From Verif Require Import Prelude PreludeFacts Base BaseFacts BaseFacts2 BaseFacts3 Spec SpecFacts Loop SearchFacts BaseAlgFacts Bfs.

Section F.
Context {A O V : Type} {EA : EqDec A}.
Notation graph := (graph A O V).
Implicit Types (g : graph) (a b x y : A).

Lemma dkeys_app {X} (d1 d2 : dict A X) : dkeys (d1 ++ d2) = dkeys d1 ++ dkeys d2.
Proof. apply map_app. Qed.

(** what the for loop over the successors does *)
Lemma bfs_push_spec node l : forall vis q vis' q', bfs_push node l vis q = (vis', q') ->
  exists new, vis' = vis ++ map (fun x => (x, Some node)) new /\ q' = q ++ new /\ NoDup new /\
    (forall x, In x new <-> In x l /\ ~ In x (dkeys vis)).
Proof. induction l as [|n l IH]; intros vis q vis' q' E; cbn in E.
  - inv E. exists []. splits; cbn; try (rewrite app_nil_r; reflexivity); [constructor|tauto].
  - destruct (dmem n vis) eqn:Em.
    + destruct (IH _ _ _ _ E) as (new & -> & -> & Hn & Hi). exists new. splits; auto. intros x. rewrite Hi. cbn.
      apply dmem_key in Em. intuition (subst; tauto).
    + apply dmem_nokey in Em. destruct (IH _ _ _ _ E) as (new & -> & -> & Hn & Hi). exists (n :: new).
      rewrite dset_notin in * by exact Em. rewrite <- !app_assoc. splits; auto.
      * constructor; [|exact Hn]. rewrite Hi, dkeys_app, in_app_iff. cbn. tauto.
      * intros x. cbn. rewrite Hi, dkeys_app, in_app_iff. cbn. destruct (eq_dec x n) as [->|Hne]; [tauto|].
        intuition congruence. Qed.

Section Gen.
Variable R : A -> A -> Prop.
Variable succ : A -> list A.
Hypothesis Hsucc : forall a b, In b (succ a) <-> R a b.
Variable U : list A.
Hypothesis HU : forall a b, R a b -> In b U.
Variable s : A.
Hypothesis Hs : In s U.

(** [done]: nodes already taken from the queue; [dep]: their hop distance *)
Record binv (vis : dict A (option A)) (q done : list A) (dep : A -> nat) : Prop := {
  b_keys : dkeys vis = done ++ q;
  b_nd : NoDup (dkeys vis);
  b_start : exists t, dkeys vis = s :: t;
  b_U : incl (dkeys vis) U;
  b_hops : forall v, In v (dkeys vis) -> hops R s v (dep v);
  b_sort : StronglySorted (fun x y => dep x <= dep y) (done ++ q);
  b_bound : forall h t, q = h :: t -> forall v, In v (dkeys vis) -> dep v <= dep h + 1;
  b_done : forall x y, In x done -> R x y -> In y (dkeys vis);
  b_parent : forall l1 v o l2, vis = l1 ++ (v, o) :: l2 ->
     match o with None => v = s | Some p => In p (dkeys l1) /\ R p v /\ dep v = S (dep p) end }.

Lemma binv_init : binv [(s, None)] [s] [] (fun _ => 0).
Proof. constructor; cbn; auto.
  - constructor; [intros []|constructor].
  - eauto.
  - intros x [<-|[]]; exact Hs.
  - intros v [<-|[]]. split; [constructor|intros; lia].
  - repeat constructor.
  - intros l1 v o l2 E. destruct l1 as [|p l1]; cbn in E; [inv E; reflexivity|]. destruct l1; discriminate. Qed.

Lemma binv_early vis h q done dep : binv vis (h :: q) done dep ->
  forall m y, steps R m s y -> m <= dep h -> In y (dkeys vis).
Proof. intros B. induction m as [|m IH]; intros y Hst Hm.
  - apply steps_0_inv in Hst. subst y. destruct (b_start _ _ _ _ B) as [t ->]. cbn; auto.
  - apply steps_snoc_inv in Hst. destruct Hst as (x & Hx & Hxy). assert (In x (dkeys vis)) as Hv by (apply IH; [exact Hx|lia]).
    assert (dep x <= m) as Hd by (apply (b_hops _ _ _ _ B x Hv), Hx).
    apply (b_done _ _ _ _ B x y); [|exact Hxy].
    rewrite (b_keys _ _ _ _ B) in Hv. apply in_app_iff in Hv. destruct Hv as [Hv|Hv]; [exact Hv|exfalso].
    pose proof (b_sort _ _ _ _ B) as HS. apply SSorted_app in HS. destruct HS as (_ & HS & _). inv HS. rewrite Forall_forall in H2.
    destruct Hv as [->|Hv]; [lia|]. specialize (H2 x Hv). cbn in H2. lia. Qed.

Lemma binv_step vis node q done dep vis' q' : binv vis (node :: q) done dep ->
  bfs_push node (succ node) vis q = (vis', q') -> exists dep', binv vis' q' (done ++ [node]) dep'.
Proof. intros B E. apply bfs_push_spec in E. destruct E as (new & -> & -> & Hnn & Hnew).
  pose proof (b_keys _ _ _ _ B) as K. pose proof (b_sort _ _ _ _ B) as HS.
  assert (forall x, In x new -> R node x /\ ~ In x (dkeys vis)) as Hnw by (intros x Hx; apply Hnew in Hx; rewrite Hsucc in Hx; exact Hx).
  assert (In node (dkeys vis)) as Hnode by (rewrite K, in_app_iff; cbn; auto).
  set (dep' := fun x => if mem x new then S (dep node) else dep x). exists dep'.
  assert (forall x, In x (dkeys vis) -> dep' x = dep x) as Hold.
  { intros x Hx. unfold dep'. destruct (mem_spec x new) as [h|h]; [|reflexivity]. apply Hnw in h. tauto. }
  assert (forall x, In x new -> dep' x = S (dep node)) as Hnewd.
  { intros x Hx. unfold dep'. destruct (mem_spec x new); [reflexivity|tauto]. }
  assert (forall v, In v (dkeys vis) -> dep v <= S (dep node)) as Hb by (intros v Hv; pose proof (b_bound _ _ _ _ B node q eq_refl v Hv); lia).
  assert (dkeys (vis ++ map (fun x => (x, Some node)) new) = dkeys vis ++ new) as Ek.
  { rewrite dkeys_app. f_equal. unfold dkeys. rewrite map_map. cbn. apply map_id. }
  constructor; rewrite ?Ek.
  - rewrite K, <- !app_assoc. reflexivity.
  - apply NoDup_app_iff. splits; [apply B|exact Hnn|intros x Hx Hx'; apply Hnw in Hx'; tauto].
  - destruct (b_start _ _ _ _ B) as [t ->]. exists (t ++ new). reflexivity.
  - intros x Hx. apply in_app_iff in Hx. destruct Hx as [Hx|Hx]; [apply B, Hx|]. apply Hnw in Hx. apply (HU node x), Hx.
  - intros v Hv. apply in_app_iff in Hv. destruct Hv as [Hv|Hv]; [rewrite Hold by exact Hv; apply B, Hv|]. rewrite Hnewd by exact Hv.
    destruct (Hnw v Hv) as [HR Hnv]. split; [eapply steps_snoc; [apply (b_hops _ _ _ _ B node Hnode)|exact HR]|].
    intros m Hm. destruct (Nat.leb_spec (S (dep node)) m) as [h|h]; [exact h|exfalso]. apply Hnv.
    apply (binv_early _ _ _ _ _ B m v Hm). lia.
  - rewrite <- app_assoc. cbn [app]. change (node :: q ++ new) with ((node :: q) ++ new). rewrite app_assoc. apply SSorted_app. splits.
    + eapply SSorted_mono; [|exact HS]. cbn. intros x y Hx Hy Hxy. rewrite !Hold; auto; rewrite K; assumption.
    + apply SSorted_const. intros x y Hx Hy. rewrite !Hnewd by assumption. lia.
    + intros x y Hx Hy. rewrite (Hnewd y Hy). rewrite <- K in Hx. rewrite Hold by exact Hx. auto.
  - intros h t Eq v Hv. assert (dep node <= dep' h) as Hh.
    { destruct q as [|h0 q]; cbn in Eq.
      - assert (In h new) as Hh by (rewrite Eq; cbn; auto). rewrite Hnewd by exact Hh. lia.
      - inv Eq. assert (In h (dkeys vis)) as Hh by (rewrite K, in_app_iff; cbn; auto). rewrite Hold by exact Hh.
        apply SSorted_app in HS. destruct HS as (_ & HS & _). inv HS. rewrite Forall_forall in H2. apply (H2 h). cbn; auto. }
    apply in_app_iff in Hv. destruct Hv as [Hv|Hv]; [rewrite Hold by exact Hv; specialize (Hb v Hv); lia|rewrite Hnewd by exact Hv; lia].
  - intros x y Hx Hxy. rewrite in_app_iff. apply in_app_iff in Hx. destruct Hx as [Hx|[<-|[]]].
    + left. eapply (b_done _ _ _ _ B); eauto.
    + destruct (In_dec' y (dkeys vis)) as [h|h]; [auto|right]. apply Hnew. rewrite Hsucc. auto.
  - intros l1 v o l2 El.
    assert (In (v, o) (vis ++ map (fun x => (x, Some node)) new)) as Hin by (rewrite El; apply in_or_app; cbn; auto).
    (* either the pair lies in the old part, or in the new part *)
    assert ((exists l2', vis = l1 ++ (v, o) :: l2') \/ (exists l1', l1 = vis ++ l1' /\ In (v, o) (map (fun x => (x, Some node)) new))) as [(l2' & Ev)|(l1' & -> & Hm)].
    { clear - El. revert vis El. induction l1 as [|p l1 IH]; intros vis El.
      - destruct vis as [|p vis]; cbn in El; [right; exists []; split; [reflexivity|rewrite El; cbn; auto]|].
        inv El. left. exists vis. reflexivity.
      - destruct vis as [|p' vis]; cbn in El.
        + right. exists (p :: l1). split; [reflexivity|]. rewrite El. right. apply in_or_app; cbn; auto.
        + inv El. destruct (IH vis H1) as [(l2' & ->)|(l1' & -> & Hm)]; [left; exists l2'; reflexivity|right; exists l1'; auto]. }
    + pose proof (b_parent _ _ _ _ B _ _ _ _ Ev) as Hp. destruct o as [p|]; [|exact Hp]. destruct Hp as (H1 & H2 & H3).
      splits; auto. rewrite (Hold v), (Hold p); [exact H3| |]; rewrite Ev, dkeys_app, in_app_iff; cbn; auto.
    + apply in_map_iff in Hm. destruct Hm as (x & Ex & Hx). inv Ex. splits.
      * rewrite dkeys_app, in_app_iff. auto.
      * apply Hnw, Hx.
      * rewrite Hnewd by exact Hx. rewrite Hold by exact Hnode. reflexivity. Qed.

Lemma binv_len vis q done dep : binv vis q done dep -> length done + length q <= length U.
Proof. intros B. rewrite <- app_length, <- (b_keys _ _ _ _ B). apply NoDup_incl_length; apply B. Qed.
Lemma binv_all vis done dep : binv vis [] done dep -> forall x, In x done <-> reach R s x.
Proof. intros B x. pose proof (b_keys _ _ _ _ B) as K. rewrite app_nil_r in K. split.
  - intros Hx. rewrite <- K in Hx. apply (b_hops _ _ _ _ B) in Hx. destruct Hx as [Hx _]. eapply steps_reach; eauto.
  - apply reach_closed_in; [destruct (b_start _ _ _ _ B) as [t Ht]; rewrite <- K, Ht; cbn; auto|].
    intros u w Hu Huw. rewrite <- K. eapply (b_done _ _ _ _ B); eauto. Qed.

(** the parents lead back to s along a path of [dep v] edges *)
Lemma trace_spec vis q done dep : binv vis q done dep -> forall k l1 v o l2, length l1 < k -> vis = l1 ++ (v, o) :: l2 ->
  exists p, path R s p v /\ length p = S (dep v) /\
    (forall f acc, length l1 < f -> bfs_trace f vis (Some v) acc = Ok (p ++ acc)) /\
    (forall f acc, bfs_trace f vis (Some v) acc = OutOfFuel \/ bfs_trace f vis (Some v) acc = Ok (p ++ acc)).
Proof. intros B. induction k as [|k IH]; intros l1 v o l2 Hk E; [lia|].
  pose proof (b_parent _ _ _ _ B _ _ _ _ E) as Hp.
  assert (dget v vis = Some o) as Hg by (apply In_dget; [apply B|rewrite E; apply in_or_app; cbn; auto]).
  destruct o as [p|].
  - destruct Hp as (Hp & HR & Hd). unfold dkeys in Hp. apply in_map_iff in Hp. destruct Hp as ([p' o'] & Ep & Hin). cbn in Ep. subst p'.
    apply in_split in Hin. destruct Hin as (l3 & l4 & ->).
    destruct (IH l3 p o' (l4 ++ (v, Some p) :: l2)) as (pp & P1 & P2 & P3 & P4).
    { rewrite app_length in Hk. cbn in Hk. lia. } { rewrite E, <- app_assoc. reflexivity. }
    exists (pp ++ [v]). splits.
    + eapply path_snoc; eauto.
    + rewrite app_length. cbn. lia.
    + intros f acc Hf. destruct f as [|f]; [lia|]. cbn [bfs_trace]. rewrite Hg. rewrite P3 by (rewrite app_length in Hf; cbn in Hf; lia).
      rewrite <- app_assoc. reflexivity.
    + intros f acc. destruct f as [|f]; [left; reflexivity|]. cbn [bfs_trace]. rewrite Hg. rewrite <- app_assoc. apply (P4 f (v :: acc)).
  - subst v. assert (dep s = 0) as D0.
    { assert (In s (dkeys vis)) as Hv by (eapply dget_Some_key; eauto). apply (b_hops _ _ _ _ B) in Hv. destruct Hv as [_ Hv].
      specialize (Hv 0 (steps_0 R s)). lia. }
    exists [s]. splits.
    + constructor.
    + rewrite D0. reflexivity.
    + intros f acc Hf. destruct f as [|f]; [lia|]. cbn [bfs_trace]. rewrite Hg. destruct f; reflexivity.
    + intros f acc. destruct f as [|f]; [left; reflexivity|]. cbn [bfs_trace]. rewrite Hg. right. destruct f; reflexivity. Qed.
End Gen.

Lemma bfs_spec g a b : wf g -> In a (nodes g) -> In b (nodes g) ->
  exists p, returns (fun n => breadth_first_search n g a b) (Ok p) /\
    ((exists n, p <> [] /\ path (has_edge g) a p b /\ length p = S n /\ hops (has_edge g) a b n) \/
     (p = [] /\ ~ reach (has_edge g) a b)).
Proof. intros W Ha Hb. set (R := has_edge g). unfold breadth_first_search.
  assert (contains g a = true) as -> by (apply contains_In, Ha). assert (contains g b = true) as -> by (apply contains_In, Hb). cbn [negb].
  assert (forall x y, In y (nodes_from g x) <-> R x y) as HR by (intros; apply In_from, W).
  assert (forall x y, R x y -> In y (nodes g)) as HU by (intros x y H; apply (has_edge_nodes g x y W H)).
  pose (I := fun st : dict A (option A) * list A => exists done dep, binv R (nodes g) a (fst st) (snd st) done dep /\ ~ In b done).
  destruct (loop_returns2 (fun m => bfs_step g b m) I (fun s' s => (fun s => length (nodes g) + length (snd s) - length (fst s)) s' < (fun s => length (nodes g) + length (snd s) - length (fst s)) s)
    (fun r => exists p, r = Ok p /\ ((exists n, p <> [] /\ path R a p b /\ length p = S n /\ hops R a b n) \/ (p = [] /\ ~ reach R a b))))
    with (s := ([(a, @None A)], [a])) as (r & Hr & p & -> & HN).
  - apply (well_founded_ltof _ (fun s : dict A (option A) * list A => length (nodes g) + length (snd s) - length (fst s))).
  - intros [vis q] (done & dep & B & Hnb). cbn [fst snd] in B. unfold bfs_step. destruct q as [|node q].
    + eexists. split; [apply settles_const; discriminate|]. cbn. exists []. split; [reflexivity|right]. split; [reflexivity|].
      intros Hr. apply Hnb. apply (binv_all R (nodes g) a vis done dep B). exact Hr.
    + destruct (eq_dec node b) as [->|Hne].
      * assert (In b (dkeys vis)) as Hin by (rewrite (b_keys _ _ _ _ _ _ _ B), in_app_iff; cbn; auto).
        unfold dkeys in Hin. pose proof Hin as Hin'. apply in_map_iff in Hin. destruct Hin as ([v o] & Ev & Hin). cbn in Ev. subst v.
        apply in_split in Hin. destruct Hin as (l1 & l2 & El).
        destruct (trace_spec R (nodes g) a vis _ done dep B (S (length l1)) l1 b o l2 (Nat.lt_succ_diag_r _) El) as (p & P1 & P2 & P3 & P4).
        exists (inr (Ok p)). split.
        -- hnf; splits; [discriminate| |].
           ++ exists (S (length l1)). intros n Hn. rewrite P3 by lia. rewrite app_nil_r. reflexivity.
           ++ intros n. destruct (P4 n []) as [-> | ->]; rewrite ?app_nil_r; auto.
        -- exists p. split; [reflexivity|left]. exists (dep b). splits; auto; [destruct p; [discriminate|congruence]|]. apply B, Hin'.
      * destruct (bfs_push node (nodes_from g node) vis q) as [vis' q'] eqn:E. eexists. split; [apply settles_const; discriminate|]. cbn [fst snd].
        destruct (binv_step R (nodes_from g) HR (nodes g) HU a vis node q done dep vis' q' B E) as (dep' & B').
        split.
        -- exists (done ++ [node]), dep'. split; [exact B'|]. rewrite in_app_iff. cbn. intros [?|[?|[]]]; congruence.
        -- pose proof (binv_len _ _ _ _ _ _ _ B') as L. pose proof (binv_len _ _ _ _ _ _ _ B) as L0.
           pose proof (b_keys _ _ _ _ _ _ _ B') as K'. pose proof (b_keys _ _ _ _ _ _ _ B) as K.
           apply (f_equal (@length A)) in K, K'. rewrite dkeys_length, app_length in K, K'. rewrite app_length in *. cbn in *. lia.
  - exists [], (fun _ => 0). split; [apply binv_init; exact Ha|auto].
  - exists p. split; [apply returns2_diag in Hr; exact Hr|exact HN]. Qed.

Definition hop_ordered (R : A -> A -> Prop) (s : A) (l : list A) : Prop :=
  forall l1 x l2 y l3 n m, l = l1 ++ x :: l2 ++ y :: l3 -> hops R s x n -> hops R s y m -> n <= m.

Lemma bfw_full R succ U s : (forall a b, In b (succ a) <-> R a b) -> (forall a b, R a b -> In b U) -> In s U ->
  exists full, returns (fun n => loop n (bfw_step succ None) ([(s, None)], [s], [])) (Ok full) /\
    NoDup full /\ (exists t, full = s :: t) /\ (forall x, In x full <-> reach R s x) /\ hop_ordered R s full.
Proof. intros Hsucc HU Hs.
  pose (I := fun st : dict A (option A) * list A * list A => exists dep, binv R U s (fst (fst st)) (snd (fst st)) (snd st) dep).
  destruct (loop_returns_nat (bfw_step succ None) I (fun st => length U - length (snd st))
    (fun r => exists full, r = Ok full /\ NoDup full /\ (exists t, full = s :: t) /\ (forall x, In x full <-> reach R s x) /\ hop_ordered R s full))
    with (s := ([(s, @None A)], [s], @nil A)) as (r & Hr & full & -> & HN).
  - intros [[vis q] out] (dep & B). cbn [fst snd] in B. unfold bfw_step. destruct q as [|node q].
    + split; [discriminate|]. exists out. pose proof (b_keys _ _ _ _ _ _ _ B) as K. rewrite app_nil_r in K. splits; auto.
      * rewrite <- K. apply B.
      * rewrite <- K. apply B.
      * apply (binv_all R U s vis out dep B).
      * intros l1 x l2 y l3 n m E Hn Hm. pose proof (b_sort _ _ _ _ _ _ _ B) as HS. rewrite app_nil_r in HS.
        pose proof (SSorted_nth _ _ HS _ _ _ _ _ E) as L. cbn in L.
        assert (n = dep x) by (eapply hops_unique; [exact Hn|]; apply B; rewrite K, E; apply in_or_app; cbn; auto).
        assert (m = dep y) by (eapply hops_unique; [exact Hm|]; apply B; rewrite K, E; apply in_or_app; cbn; right; right; apply in_or_app; cbn; auto).
        lia.
    + destruct (eq_dec (Some node) None) as [C|_]; [discriminate C|].
      destruct (bfs_push node (succ node) vis q) as [vis' q'] eqn:E. cbn [fst snd].
      destruct (binv_step R succ Hsucc U HU s vis node q out dep vis' q' B E) as (dep' & B'). split; [exists dep'; exact B'|].
      pose proof (binv_len _ _ _ _ _ _ _ B) as L0. rewrite app_length. cbn in *. lia.
  - exists (fun _ => 0). apply binv_init. exact Hs.
  - exists full. split; [exact Hr|exact HN]. Qed.

Lemma bfw_prefix succ e : forall n vis q out full, loop n (bfw_step succ None) (vis, q, out) = Ok full ->
  exists rest, full = out ++ rest /\
   (~ In e rest -> loop n (bfw_step succ (Some e)) (vis, q, out) = Ok full) /\
   (forall l1 l2, rest = l1 ++ e :: l2 -> ~ In e l1 -> loop n (bfw_step succ (Some e)) (vis, q, out) = Ok (out ++ l1 ++ [e])).
Proof. induction n as [|n IH]; intros vis q out full E; [discriminate E|]. cbn [loop] in E |- *. cbn [bfw_step] in E |- *.
  destruct q as [|node q].
  - inv E. exists []. rewrite app_nil_r. splits; auto. intros [|? l1] l2 C; discriminate C.
  - destruct (eq_dec (Some node) None) as [C|_]; [discriminate C|].
    destruct (bfs_push node (succ node) vis q) as [vis' q'] eqn:Ep. destruct (IH _ _ _ _ E) as (rest & -> & H1 & H2).
    exists (node :: rest). splits.
    + rewrite <- app_assoc. reflexivity.
    + intros Hn. destruct (eq_dec (Some node) (Some e)) as [C|_]; [exfalso; apply Hn; left; congruence|]. apply H1. intros C; apply Hn; cbn; auto.
    + intros l1 l2 El Hn. destruct l1 as [|x l1]; cbn in El; inv El.
      * destruct (eq_dec (Some e) (Some e)) as [_|C]; [|congruence]. reflexivity.
      * destruct (eq_dec (Some x) (Some e)) as [C|_]; [exfalso; apply Hn; left; congruence|].
        rewrite (H2 l1 l2 eq_refl) by (intros C; apply Hn; cbn; auto). rewrite <- app_assoc. reflexivity. Qed.

Lemma bfw_spec g a (reversed : bool) : wf g -> In a (nodes g) ->
  let R := fun x y => if reversed then has_edge g y x else has_edge g x y in
  exists full, returns (fun n => breadth_first_walk n g a None reversed) (Ok full) /\
    NoDup full /\ (exists t, full = a :: t) /\ (forall x, In x full <-> reach R a x) /\ hop_ordered R a full /\
    (forall e, In e (nodes g) ->
       (~ In e full -> returns (fun n => breadth_first_walk n g a (Some e) reversed) (Ok full)) /\
       (forall l1 l2, full = l1 ++ e :: l2 -> ~ In e l1 -> returns (fun n => breadth_first_walk n g a (Some e) reversed) (Ok (l1 ++ [e])))).
Proof. intros W Ha R. set (succ := if reversed then nodes_to g else nodes_from g).
  destruct (bfw_full R succ (nodes g) a) as (full & Hr & HN).
  - intros x y. unfold succ, R. destruct reversed; [apply In_to, W|apply In_from, W].
  - intros x y. unfold R. destruct reversed; intros H; apply (has_edge_nodes g _ _ W H).
  - exact Ha.
  - assert (contains g a = true) as Ca by (apply contains_In, Ha).
    exists full. splits; try apply HN.
    + unfold breadth_first_walk. rewrite Ca. exact Hr.
    + intros e He. assert (contains g e = true) as Ce by (apply contains_In, He).
      apply returns_loop_at in Hr. destruct Hr as (n & Hn & _). destruct (bfw_prefix succ e _ _ _ _ _ Hn) as (rest & Er & H1 & H2).
      cbn in Er. subst rest. unfold breadth_first_walk. rewrite Ca, Ce. cbn [negb]. fold succ. split.
      * intros Hni. apply (loop_returns_at _ n); [auto|discriminate].
      * intros l1 l2 El Hni. apply (loop_returns_at _ n); [apply (H2 l1 l2 El Hni)|discriminate]. Qed.
End F.
