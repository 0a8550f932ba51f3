(** Facts about the traffic jam solver: input check and the whole solver *)
From Verif Require Import Prelude PreludeFacts Base BaseFacts BaseFacts2 BaseFacts3 Spec SpecFacts Loop SearchFacts BaseAlgFacts
  MaxFlowFacts HashFacts Sp SpFacts Bfs BfsFacts Fw DmFacts TrafficSpec Traffic TrafficFacts Jam JamFacts JamFacts2 JamFacts3.

Section Check.
Context {L N O : Type} {EL : EqDec L} {EN : EqDec N}.
Notation graph := (graph N O Z).
Notation state := (list (L * N)).
Notation rawt := (N * option (list N) * option (list N))%type.
Context (ordN : list N -> list N) (HordN : forall l, Permutation (ordN l) l) (apsrt : dict L (list N) -> dict L (list N)) (pick : nat -> list N -> N) (g : graph) (W : wf g).
Implicit Types (raw : dict L rawt) (all : dict L (load N)).

Definition load_rel (r : rawt) (ld : load N) : Prop := ld_start ld = raw_start r /\ (forall x, In x (ld_ends ld) <-> In x (raw_ends r)) /\ (forall x, In x (ld_proh ld) <-> In x (raw_proh r)) /\ NoDup (ld_ends ld) /\ ld_ends ld <> [].
Lemma load_new_spec r : if match snd (fst r) with Some [] => true | _ => false end then load_new r = Err ValueError else exists ld, load_new r = Ok ld /\ load_rel r ld.
Proof. destruct r as [[s e] p]. cbn. assert (forall x, In x (match p with Some l => set_of l | None => [] end) <-> In x (raw_proh (s, e, p))) as Hp by (intros x; destruct p; cbn; [apply In_set_of|tauto]).
  destruct e as [[|e0 e]|]; [reflexivity| |].
  - eexists. split; [reflexivity|]. unfold load_rel. cbn [ld_start ld_ends ld_proh raw_start raw_ends fst snd]. splits; [reflexivity|intros x; apply In_set_of|exact Hp|apply NoDup_set_of|].
    intros C. assert (In e0 (set_of (e0 :: e))) as Q by (apply In_set_of; left; reflexivity). rewrite C in Q. destruct Q.
  - eexists. split; [reflexivity|]. unfold load_rel. cbn [ld_start ld_ends ld_proh raw_start raw_ends fst snd]. splits; [reflexivity|tauto|exact Hp|constructor; [intros []|constructor]|discriminate]. Qed.
Definition loads_rel raw all : Prop := Forall2 (fun x y => fst x = fst y /\ load_rel (snd x) (snd y)) raw all.
Lemma loads_rel_keys raw all : loads_rel raw all -> dkeys all = dkeys raw.
Proof. intros H. induction H as [|x y a b [E _] H IH]; [reflexivity|]. change (fst y :: dkeys b = fst x :: dkeys a). rewrite IH, E. reflexivity. Qed.
Lemma loads_rel_starts raw all : loads_rel raw all -> S0 all = starts raw.
Proof. intros H. induction H as [|x y a b [E (E2 & _)] H IH]; cbn; [reflexivity|]. unfold S0, starts in IH. rewrite IH, E, E2. reflexivity. Qed.
Lemma loads_rel_get raw all l : loads_rel raw all -> match dget l raw, dget l all with Some r, Some ld => load_rel r ld | None, None => True | _, _ => False end.
Proof. intros H. induction H as [|[k r] [k' ld] a b [E E2] H IH]; cbn in *; [exact Logic.I|]. subst k'. destruct (eq_dec l k); auto. Qed.

Lemma read_loads_spec raw : forall acc ns, NoDup (dkeys acc ++ dkeys raw) ->
  (read_loads raw acc ns = Err ValueError /\ exists l r, In (l, r) raw /\ snd (fst r) = Some []) \/
  (exists ls ns', read_loads raw acc ns = Ok (acc ++ ls, ns') /\ loads_rel raw ls /\ forall x, In x ns' <-> In x ns \/ exists l ld, In (l, ld) ls /\ (x = ld_start ld \/ In x (ld_ends ld))).
Proof. induction raw as [|[k r] raw IH]; intros acc ns D; cbn [read_loads].
  - right. exists [], ns. rewrite app_nil_r. splits; [reflexivity|constructor|]. intros x. split; [auto|intros [?|(l & ld & [] & _)]; assumption].
  - pose proof (load_new_spec r) as Hl. destruct (match snd (fst r) with Some [] => true | _ => false end) eqn:Em.
    + rewrite Hl. left. split; [reflexivity|]. exists k, r. split; [left; reflexivity|]. destruct (snd (fst r)) as [[|]|]; [reflexivity|discriminate|discriminate].
    + destruct Hl as (ld & -> & Hr). cbn [bind]. cbn in D. apply NoDup_remove in D as D'. destruct D' as [D1 D2]. rewrite dset_notin by (intros C; apply D2, in_app_iff; auto).
      destruct (IH (acc ++ [(k, ld)]) (sunion (sadd (ld_start ld) ns) (ld_ends ld))) as [[E (l & r' & H1 & H2)]|(ls & ns' & E & H1 & H2)].
      * unfold dkeys. rewrite map_app, <- app_assoc. exact D.
      * left. split; [exact E|]. exists l, r'. split; [right; exact H1|exact H2].
      * right. exists ((k, ld) :: ls), ns'. splits; [rewrite E, <- app_assoc; reflexivity|constructor; [split; [reflexivity|exact Hr]|exact H1]|].
        intros x. rewrite H2, In_sunion, In_sadd. split.
        -- intros [[[->|?]|?]|(l & ld' & ? & ?)]; [right; exists k, ld; cbn; auto|auto|right; exists k, ld; cbn; auto|right; exists l, ld'; cbn; auto].
        -- intros [?|(l & ld' & [E'|Hin] & [->|Hx])]; [auto|inversion E'; subst; auto|inversion E'; subst; auto|right; exists l, ld'; auto|right; exists l, ld'; auto]. Qed.

Lemma diff_check_spec diff ls : diff_check diff ls = Ok tt /\ (forall ld, In ld ls -> ~ In (ld_start ld) diff /\ forall x, In x (ld_ends ld) -> ~ In x diff) \/ diff_check diff ls = Err ValueError.
Proof. induction ls as [|ld ls IH]; cbn; [left; split; [reflexivity|intros ld []]|]. destruct (mem (ld_start ld) diff) eqn:E1; [auto|]. destruct (existsb (fun x => mem x diff) (ld_ends ld)) eqn:E2; [auto|]. destruct (existsb (fun x => mem x diff) (ld_proh ld)); [auto|].
  destruct IH as [[E H]|E]; [|auto]. left. split; [exact E|]. intros ld' [<-|Hin]; [|apply H, Hin]. split; [apply mem_notIn, E1|]. intros x Hx C. assert (existsb (fun x => mem x diff) (ld_ends ld) = true); [|congruence]. apply existsb_exists. exists x. split; [exact Hx|apply mem_In, C]. Qed.

Lemma del_nodes_spec : forall ns (g0 : graph), wf g0 -> exists g', foldM (fun gc n => del_node gc n) ns g0 = Ok g' /\ wf g' /\ (forall x, In x (nodes g') <-> In x (nodes g0) /\ ~ In x ns) /\
  (forall x y, has_edge g' x y <-> has_edge g0 x y /\ ~ In x ns /\ ~ In y ns).
Proof. induction ns as [|n ns IH]; intros g0 W0; cbn [foldM].
  - exists g0. splits; auto; intros; cbn; tauto.
  - destruct (del_node_spec g0 n W0) as (g1 & -> & W1 & _ & N1 & E1). cbn [bind]. destruct (IH g1 W1) as (g' & E & W' & N' & H'). exists g'. splits; auto.
    + intros x. rewrite N'. unfold nodes. rewrite N1, In_dkeys_ddel by apply (wf_nodes _ W0). cbn. split; [intros [[? ?] ?]; split; [assumption|intros [?|?]; congruence || tauto]|intros [? ?]; split; [split; [assumption|intros ->; tauto]|tauto]].
    + intros x y. rewrite H'. unfold has_edge. rewrite E1. cbn. destruct (eq_dec x n) as [->|Hx]; [split; [intros ((v & ?) & _); discriminate|tauto]|]. destruct (eq_dec y n) as [->|Hy]; [split; [intros ((v & ?) & _); discriminate|tauto]|].
      split; [intros (? & ? & ?)|intros (? & ? & ?)]; splits; auto; intros [?|?]; congruence || tauto. Qed.
Definition has_route (ld : load N) : Prop := In (ld_start ld) (nodes g) /\ ~ In (ld_start ld) (ld_proh ld) /\ exists e, In e (ld_ends ld) /\ reach (fun x y => has_edge g x y /\ ~ In y (ld_proh ld)) (ld_start ld) e.
Lemma route_check_spec : forall ls, exists r, returns (fun n => route_check ordN n g ls) r /\ (r = Ok tt \/ r = Err ValueError \/ r = Err UnSolvable) /\ ((forall ld, In ld ls -> has_route ld) -> r = Ok tt) /\ (r = Ok tt -> forall ld, In ld ls -> has_route ld).
Proof. induction ls as [|ld ls (r & Hr & H1 & H2 & H3)]; cbn [route_check].
  - exists (Ok tt). splits; [apply returns_const; discriminate|auto|auto|intros _ ld []].
  - assert (exists gc, (if is_nil (ld_proh ld) then Ok g else gc <- copy g ;; foldM (fun gc n => del_node gc n) (ordN (ld_proh ld)) gc) = Ok gc /\ wf gc /\ (forall x, In x (nodes gc) <-> In x (nodes g) /\ ~ In x (ld_proh ld)) /\
      (forall x y, has_edge gc x y <-> has_edge g x y /\ ~ In x (ld_proh ld) /\ ~ In y (ld_proh ld))) as (gc & -> & Wc & Nc & Ec).
    { destruct (ld_proh ld) as [|p0 ps] eqn:Ep; cbn [is_nil]; [exists g; splits; auto; cbn; tauto|]. destruct (copy_spec g W) as (g1 & -> & W1 & _ & N1 & E1 & _). cbn [bind].
      destruct (del_nodes_spec (ordN (p0 :: ps)) g1 W1) as (gc & E & Wc & Nc & Hc). exists gc.
      assert (forall x, In x (ordN (p0 :: ps)) <-> In x (p0 :: ps)) as Hp by (intros x; split; [apply Permutation_in, HordN|apply Permutation_in, Permutation_sym, HordN]).
      splits; auto.
      - intros x. rewrite Nc, Hp. unfold nodes. rewrite N1. tauto.
      - intros x y. rewrite Hc, !Hp. unfold has_edge, edge. rewrite E1. tauto. }
    cbn [bind]. destruct (contains gc (ld_start ld)) eqn:Es.
    + assert (In (ld_start ld) (nodes gc)) as Hs by (apply contains_In, Es). destruct (bfw_spec gc (ld_start ld) false Wc Hs) as (full & Hf & _ & _ & Hin & _).
      assert (forall e, In e full <-> reach (fun x y => has_edge g x y /\ ~ In y (ld_proh ld)) (ld_start ld) e) as Hfull.
      { apply Nc in Hs. intros e. rewrite Hin. split; intros Hr'.
        - revert Hr'. apply reach_mono. intros x y. rewrite Ec. tauto.
        - apply (reach_ind_r _ _ (fun x => reach (has_edge gc) (ld_start ld) x /\ ~ In x (ld_proh ld))) in Hr'; [apply Hr'|split; [apply reach_refl|tauto]|].
          intros b c _ [K1 K2] [K3 K4]. split; [|exact K4]. eapply reach_snoc; [exact K1|]. apply Ec. auto. }
      destruct (existsb (fun n => mem n (ld_ends ld)) full) eqn:Ef.
      * exists r. splits; [| exact H1| |].
        -- refine (returns_bind _ (fun n walk => if existsb (fun n => mem n (ld_ends ld)) walk then route_check ordN n g ls else Err UnSolvable) full r Hf _). rewrite Ef. exact Hr.
        -- intros H. apply H2. intros ld' Hld'. apply H. right. exact Hld'.
        -- intros E ld' [<-|Hld']; [|apply H3; auto]. apply existsb_exists in Ef. destruct Ef as (e & He & Hm). apply mem_In in Hm. apply Nc in Hs. split; [tauto|]. split; [tauto|]. exists e. split; [exact Hm|apply Hfull, He].
      * exists (Err UnSolvable). splits; [|auto| |discriminate].
        -- refine (returns_bind _ (fun n walk => if existsb (fun n => mem n (ld_ends ld)) walk then route_check ordN n g ls else Err UnSolvable) full _ Hf _). rewrite Ef. apply returns_const. discriminate.
        -- intros H. exfalso. destruct (H ld (or_introl eq_refl)) as (_ & _ & e & He & Hre). assert (existsb (fun n => mem n (ld_ends ld)) full = true); [|congruence]. apply existsb_exists. exists e. split; [apply Hfull, Hre|apply mem_In, He].
    + exists (Err ValueError). splits; [|auto| |discriminate].
      * apply returns_bind_err. unfold breadth_first_walk. rewrite Es. apply returns_const. discriminate.
      * intros H. exfalso. destruct (H ld (or_introl eq_refl)) as (K1 & K2 & _). assert (contains gc (ld_start ld) = true); [|congruence]. apply contains_In, Nc. auto. Qed.

Lemma check_spec raw : NoDup (dkeys raw) -> exists r, returns (fun n => check_user_input ordN apsrt pick n g raw) r /\
  match r with Ok all => loads_rel raw all /\ (forall l ld, dget l all = Some ld -> In (ld_start ld) (nodes g) /\ has_route ld) /\ (forall l ld x, dget l all = Some ld -> In x (ld_ends ld) -> In x (nodes g))
  | Err e => e = ValueError \/ e = UnSolvable | OutOfFuel => False end /\
  ((forall l r0, In (l, r0) raw -> snd (fst r0) <> Some [] /\ forall x, In x (raw_ends r0) -> In x (nodes g)) ->
   (forall all, loads_rel raw all -> is_ap_solvable apsrt pick (map (fun x => (fst x, ld_ends (snd x))) all) = true /\ forall l ld, In (l, ld) all -> has_route ld) -> exists all, r = Ok all).
Proof. intros D. unfold check_user_input. destruct (read_loads_spec raw [] [] D) as [[E (l & r0 & H1 & H2)]|(all & ns & E & Hrel & Hns)]; cbn [app] in *.
  - rewrite E. cbn [bind]. exists (Err ValueError). splits; [apply returns_const; discriminate|auto|]. intros H _. destruct (H l r0 H1). congruence.
  - rewrite E. cbn [bind app]. set (diff := filter (fun n => negb (contains g n)) ns). pose proof (loads_rel_keys _ _ Hrel) as Hk. assert (NoDup (dkeys all)) as Da by (rewrite Hk; exact D).
    assert (forall x, In x diff <-> In x ns /\ ~ In x (nodes g)) as Hdiff. { intros x. unfold diff. rewrite filter_In, negb_true_iff. split; intros [K1 K2]; (split; [exact K1|]); [intros C; apply contains_In in C; congruence|]. destruct (contains g x) eqn:C; [apply contains_In in C; contradiction|reflexivity]. }
    assert (forall l ld, In (l, ld) all -> exists r0, In (l, r0) raw /\ load_rel r0 ld) as Hback.
    { intros l ld Hin. apply In_dget in Hin; [|exact Da]. pose proof (loads_rel_get raw all l Hrel) as Q. rewrite Hin in Q. destruct (dget l raw) as [r0|] eqn:Er; [|destruct Q]. exists r0. split; [apply dget_In, Er|exact Q]. }
    assert ((if is_nil diff then Ok tt else diff_check diff (dvals all)) = Ok tt /\ (forall l ld, In (l, ld) all -> In (ld_start ld) (nodes g) /\ forall x, In x (ld_ends ld) -> In x (nodes g)) \/
            ((if is_nil diff then Ok tt else diff_check diff (dvals all)) = Err ValueError /\ diff <> [])) as [[-> Hin]|[-> Hne]].
    { assert (forall x, In x ns -> ~ In x diff -> In x (nodes g)) as K by (intros x K1 K2; destruct (In_dec' x (nodes g)); [assumption|exfalso; apply K2, Hdiff; auto]).
      destruct diff as [|x0 d] eqn:Ed; cbn [is_nil].
      - left. split; [reflexivity|]. intros l ld Hl. split; [apply K; [apply Hns; right; exists l, ld; auto|intros []]|]. intros x Hx. apply K; [apply Hns; right; exists l, ld; auto|intros []].
      - destruct (diff_check_spec (x0 :: d) (dvals all)) as [[Q1 Q2]|Q]; [left|right; split; [exact Q|discriminate]]. split; [exact Q1|]. intros l ld Hl. destruct (Q2 ld) as [K1 K2]; [apply in_map_iff; exists (l, ld); auto|].
        split; [apply K; [apply Hns; right; exists l, ld; auto|exact K1]|]. intros x Hx. apply K; [apply Hns; right; exists l, ld; auto|apply K2, Hx]. }
    + cbn [bind]. destruct (is_ap_solvable apsrt pick (map (fun x => (fst x, ld_ends (snd x))) all)) eqn:Eap; cbn [negb].
      * destruct (route_check_spec (dvals all)) as (r & Hr & H1 & H2 & H3). destruct H1 as [->|[-> | ->]].
        -- exists (Ok all). splits.
           ++ apply (returns_bind_ok _ (fun _ => all) tt Hr).
           ++ exact Hrel.
           ++ intros l ld Hl. apply dget_In in Hl. split; [exact (proj1 (Hin l ld Hl))|]. apply H3; [reflexivity|]. apply in_map_iff. exists (l, ld). auto.
           ++ intros l ld x Hl. apply dget_In in Hl. exact (proj2 (Hin l ld Hl) x).
           ++ eauto.
        -- exists (Err ValueError). splits; [apply (returns_bind_err _ (fun _ _ => Ok all)); exact Hr|auto|]. intros _ H. destruct (H all Hrel) as [_ K]. discriminate H2. intros ld Hld. apply In_dvals in Hld. destruct Hld as [l Hl]. apply (K l ld Hl).
        -- exists (Err UnSolvable). splits; [apply (returns_bind_err _ (fun _ _ => Ok all)); exact Hr|auto|]. intros _ H. destruct (H all Hrel) as [_ K]. discriminate H2. intros ld Hld. apply In_dvals in Hld. destruct Hld as [l Hl]. apply (K l ld Hl).
      * exists (Err UnSolvable). splits; [apply returns_const; discriminate|auto|]. intros _ H. destruct (H all Hrel). congruence.
    + cbn [bind]. exists (Err ValueError). splits; [apply returns_const; discriminate|auto|]. intros H H'. exfalso. destruct diff as [|x d]; [congruence|]. destruct (proj1 (Hdiff x) (or_introl eq_refl)) as [K1 K2]. apply Hns in K1. destruct K1 as [[]|(l & ld & Hl & K1)].
      destruct (Hback l ld Hl) as (r0 & Hr0 & (Q1 & Q2 & _)). destruct K1 as [->|K1]; [|apply K2, (H l r0 Hr0), Q2, K1]. destruct (H' all Hrel) as [_ K]. destruct (K l ld Hl) as [K1 _]. contradiction. Qed.
End Check.

Section Solver.
Context {L N O : Type} {EL : EqDec L} {EN : EqDec N}.
Notation graph := (graph N O Z).
Notation state := (list (L * N)).
Notation rawt := (N * option (list N) * option (list N))%type.
Context (srt : list (Z * N) -> list (Z * N)) (Hsrt : forall l, Permutation (srt l) l) (ordN : list N -> list N) (HordN : forall l, Permutation (ordN l) l)
  (ordS : list state -> list state) (HordS : forall l, Permutation (ordS l) l) (apsrt : dict L (list N) -> dict L (list N)) (pick : nat -> list N -> N) (t0 : Z) (now : nat -> Z)
  (g : graph) (W : wf g) (Hnn : nonneg g).
Implicit Types (raw : dict L rawt) (all : dict L (load N)).

Lemma plan_mono (may may' : L -> N -> N -> Prop) (P : state) ms P' : (forall l a b, may l a b -> may' l a b) -> plan_from may P ms P' -> plan_from may' P ms P'.
Proof. intros H HP. induction HP; constructor; auto. Qed.
Lemma plan_track (may : L -> N -> N -> Prop) (P : state) ms P' : plan_from may P ms P' -> forall l a, dget l P = Some a -> exists b, dget l P' = Some b /\ reach (may l) a b.
Proof. intros HP. induction HP as [P|P k a0 b0 ms P' Ha Hb Hm HP IH]; intros l a Hl; [exists a; split; [exact Hl|apply reach_refl]|].
  destruct (eq_dec l k) as [->|Hne].
  - assert (a0 = a) by congruence. subst a0. destruct (IH k b0) as (b & H1 & H2); [rewrite dget_dset; destruct (eq_dec k k); congruence|]. exists b. split; [exact H1|]. eapply reach_cons; eauto.
  - apply IH. rewrite dget_dset. destruct (eq_dec l k); congruence. Qed.
Lemma may_rel raw all strict l a b : loads_rel raw all -> may_ld g all strict l a b -> if strict then may_move g raw l a b else may_move_or_end g raw l a b.
Proof. intros Hr (ld & d & Hl & He & Hp). pose proof (loads_rel_get raw all l Hr) as Q. rewrite Hl in Q. destruct (dget l raw) as [r|] eqn:Er; [|destruct Q]. destruct Q as (_ & Q2 & Q3 & _). destruct strict; exists r, d; splits; auto.
  - destruct Hp as [Hp|[? _]]; [rewrite <- Q3; exact Hp|discriminate].
  - destruct Hp as [Hp|[_ Hp]]; [left; rewrite <- Q3; exact Hp|right; rewrite <- Q2; exact Hp]. Qed.
Lemma may_rel' raw all l a b : loads_rel raw all -> may_move g raw l a b -> may_ld g all true l a b.
Proof. intros Hr (r & d & Hl & He & Hp). pose proof (loads_rel_get raw all l Hr) as Q. rewrite Hl in Q. destruct (dget l all) as [ld|] eqn:Er; [|destruct Q]. destruct Q as (_ & Q2 & Q3 & _). exists ld, d. splits; auto. left. rewrite Q3. exact Hp. Qed.
Lemma goal_rel raw all s : loads_rel raw all -> (goal all s <-> arrived raw s).
Proof. intros Hr. unfold goal, arrived. rewrite (loads_rel_keys _ _ Hr). split; intros (H1 & H2 & H3); splits; auto; intros l a Hla; destruct (H3 l a Hla) as (x & Hx & Ha); pose proof (loads_rel_get raw all l Hr) as Q; rewrite Hx in Q.
  - destruct (dget l raw) as [r|] eqn:Er; [|destruct Q]. exists r. split; [reflexivity|]. apply Q, Ha.
  - destruct (dget l all) as [r|] eqn:Er; [|destruct Q]. exists r. split; [reflexivity|]. apply Q, Ha. Qed.

Lemma jam_solver_spec raw timeout sync rof : NoDup (dkeys raw) -> (sync = true -> NoDup (dvals (starts raw))) ->
  exists r, returns (fun n => jam_solver srt ordN ordS apsrt pick t0 now n g raw timeout sync rof) r /\
    match r with Ok groups => exists P', plan_from (may_move_or_end g raw) (starts raw) (sequence groups) P' /\ arrived raw P' | Err e => e = ValueError \/ e = UnSolvable \/ e = NoSolution | OutOfFuel => False end /\
    (timeout = None -> forall ms P', plan_from (may_move g raw) (starts raw) ms P' -> arrived raw P' ->
       r <> Err NoSolution /\
       ((forall l r0, In (l, r0) raw -> snd (fst r0) <> Some [] /\ (forall x, In x (raw_ends r0) -> In x (nodes g)) /\ In (raw_start r0) (nodes g) /\ ~ In (raw_start r0) (raw_proh r0)) ->
        (forall all, loads_rel raw all -> is_ap_solvable apsrt pick (map (fun x => (fst x, ld_ends (snd x))) all) = true) -> exists groups, r = Ok groups) /\
       (NoDup (dvals (starts raw)) -> length ms <= 3 \/ (length ms <= 4 /\ (forall P2, arrived raw P2 -> P2 = P')) -> forall groups, r = Ok groups -> (plan_length g (sequence groups) <= plan_length g ms)%Z)).
Proof. intros D Hsync. destruct (check_spec ordN HordN apsrt pick g W raw D) as (rc & Hrc & Hc & Hcomp).
  destruct rc as [all|e|]; [| |destruct Hc].
  2: { exists (Err e). splits; [unfold jam_solver; apply returns_bind_err, Hrc|tauto|]. intros _ ms P' HP HA. splits; [destruct Hc as [-> | ->]; discriminate| |intros _ _ groups C; discriminate]. intros Hin Hap. exfalso. destruct Hcomp as [all Q]; [intros l r0 Hl; destruct (Hin l r0 Hl); tauto| |discriminate].
    intros all Hrel. split; [apply Hap, Hrel|]. intros l ld Hl. pose proof (loads_rel_keys _ _ Hrel) as Hk. assert (NoDup (dkeys all)) as Da by (rewrite Hk; exact D). apply In_dget in Hl; [|exact Da].
    pose proof (loads_rel_get raw all l Hrel) as Q. rewrite Hl in Q. destruct (dget l raw) as [r0|] eqn:Er; [|destruct Q]. destruct Q as (Q1 & Q2 & Q3 & _). destruct (Hin l r0 (dget_In _ _ _ Er)) as (_ & K2 & K3 & K4).
    unfold has_route. rewrite Q1. splits; [exact K3|rewrite Q3; exact K4|].
    assert (dget l (starts raw) = Some (raw_start r0)) as Hs. { apply In_dget; [unfold starts, dkeys; rewrite map_map; exact D|]. apply in_map_iff. exists (l, r0). split; [reflexivity|apply dget_In, Er]. }
    destruct (plan_track _ _ _ _ HP l _ Hs) as (b & Hb & Hreach). destruct HA as (A1 & A2 & A3). destruct (A3 l b (dget_In _ _ _ Hb)) as (r1 & Hr1 & Hb1). assert (r1 = r0) by congruence. subst r1.
    exists b. split; [apply Q2, Hb1|]. revert Hreach. apply reach_mono. intros x y (r2 & d & E2 & He & Hp). assert (r2 = r0) by congruence. subst r2. split; [exists d; exact He|rewrite Q3; exact Hp]. }
  destruct Hc as (Hrel & Hroute & Hends). clear Hcomp. pose proof (loads_rel_keys _ _ Hrel) as Hk. assert (NoDup (dkeys all)) as Da by (rewrite Hk; exact D). pose proof (loads_rel_starts _ _ Hrel) as Hs0.
  assert (forall l ld, dget l all = Some ld -> NoDup (ld_ends ld) /\ ld_ends ld <> []) as Hnd. { intros l ld Hl. pose proof (loads_rel_get raw all l Hrel) as Q. rewrite Hl in Q. destruct (dget l raw); [|destruct Q]. apply Q. }
  assert (forall l ld, dget l all = Some ld -> In (ld_start ld) (nodes g)) as Hst by (intros l ld Hl; apply (Hroute l ld Hl)).
  destruct (timer_new timeout t0) as [tm|e|] eqn:Etm.
  2: { exists (Err e). assert (e = ValueError) as ->. { unfold timer_new in Etm. destruct timeout as [t|]; [destruct (t <? 0)%Z|]; congruence. } splits; [|auto|].
       - unfold jam_solver. rewrite Etm. refine (returns_bind _ (fun n all => bind (Err ValueError) _) all (Err ValueError) Hrc _). apply returns_const. discriminate.
       - intros -> . discriminate. }
  2: { unfold timer_new in Etm. destruct timeout as [t|]; [destruct (t <? 0)%Z|]; congruence. }
  destruct (dms_spec ordN HordN g W all Da Hends Hnd) as (dms & Hdm & Hdms).
  pose proof (fun s => In_end_states ordN HordN all Da s) as Hfin.
  pose proof (init_inv ordN HordN srt g all Da Hst Hends Hnd) as Hinit. cbv zeta in Hinit. set (J0 := mkJ _ _ _ _ _) in Hinit.
  destruct (jam_search_spec srt Hsrt ordS now g W all Da (end_states ordN all) dms Hdms (fun J => J = J0 \/ early srt g all (end_states ordN all) J) rof J0 tm) as (M & tm' & i & Hloop & HM & Hlim & Hnone); [|left; reflexivity|exact Hinit|discriminate|].
  { intros J J' HI HQ HRo. right. refine (early_keep srt Hsrt g W all Da (end_states ordN all) ordS dms Hdms J0 J J' _ _ _ _ _ HI HQ HRo); try reflexivity; [discriminate|intros e [<-|[]]; reflexivity|]. cbn. rewrite map_map. apply map_id. }
  destruct (shortest_multi_spec g Hnn all M (ordS (end_states ordN all)) HM) as (d & p & Hsm & Hp).
  set (fin := fun n => match p with None | Some [] => if fst (expired tm' (now i)) then Err UnSolvable else Err NoSolution
     | Some p => m <- path_to_moves p ;; if sync then moves_to_synchronous_moves n m (S0 all) else Ok m end).
  assert (forall r, returns fin r -> returns (fun n => jam_solver srt ordN ordS apsrt pick t0 now n g raw timeout sync rof) r) as Hmain.
  { intros r Hr. unfold jam_solver. refine (returns_bind _ (fun n all => tm <- timer_new timeout t0 ;; _) all r Hrc _). rewrite Etm. cbn [bind].
    refine (returns_bind _ (fun n c => let '(start, finals, dms, J) := c in _) (S0 all, end_states ordN all, dms, J0) r _ _); [apply (returns_bind_ok _ (fun dms => (S0 all, end_states ordN all, dms, J0)) dms Hdm)|].
    refine (returns_bind _ (fun n r => let '(mov, tm, i) := r in _) (M, tm', i) r Hloop _).
    refine (returns_bind _ (fun n r => match snd r with None | Some [] => _ | Some p => _ end) (d, p) r Hsm _). exact Hr. }
  assert (timeout = None -> forall ms P', plan_from (may_move g raw) (starts raw) ms P' -> arrived raw P' -> exists q, p = Some q) as Hex.
  { intros Et ms P' HP HA. destruct p as [q|]; [eauto|exfalso]. destruct Hp as [_ Hp].
    assert (t_limit tm = Inf /\ t_expired tm = false) as [T1 T2]. { rewrite Et in Etm. inversion Etm. auto. } destruct (Hnone T1 T2) as (_ & J' & I' & EM & Q1 & Q2 & _).
    destruct (search_complete srt Hsrt g W all Da (end_states ordN all) Hfin J' I' Q1 Q2 ms P') as (e & He & Hre).
    - rewrite Hs0. revert HP. apply plan_mono. intros l a b. apply may_rel', Hrel.
    - apply (goal_rel _ _ _ Hrel), HA.
    - apply (Hp e); [apply (Permutation_in _ (Permutation_sym (HordS _))), He|]. rewrite <- EM. exact Hre. }
  destruct p as [[|s0 p]|].
  - exfalso. destruct Hp as (e & _ & Hp). inversion Hp.
  - destruct Hp as (e & He & Hp). apply (Permutation_in _ (HordS _)) in He. apply Hfin in He. apply (goal_rel _ _ _ Hrel) in He.
    destruct (path_plan g all Da M (S0 all) (s0 :: p) e HM Hp) as (t & Et & Hplan). inversion Et; subst s0 p. clear Et.
    assert (plan_from (may_move_or_end g raw) (starts raw) (flat_moves (path_moves (S0 all) t)) e) as Hplan'. { rewrite <- Hs0. revert Hplan. apply plan_mono. intros l a b. apply (may_rel raw all false l a b Hrel). }
    assert (exists groups, returns fin (Ok groups) /\ sequence groups = flat_moves (path_moves (S0 all) t)) as (groups & Hg & Eg).
    { unfold fin. cbn [path_to_moves bind]. destruct sync.
      - destruct (sync_spec (may_move_or_end g raw) (starts raw) (path_moves (S0 all) t) e Hplan') as (out & Hout & (P1 & _ & _ & _ & _ & E5 & _)); [unfold starts, dkeys; rewrite map_map; exact D|auto|].
        exists out. split; [rewrite Hs0 in *; exact Hout|]. rewrite E5, app_nil_r. unfold sequence. rewrite flat_map_concat_map. reflexivity.
      - exists (path_moves (S0 all) t). split; [apply returns_const; discriminate|]. unfold sequence, flat_moves. rewrite flat_map_concat_map. reflexivity. }
    exists (Ok groups). splits; [apply Hmain, Hg|exists e; rewrite Eg; auto|]. intros Etn ms P' HP HA. splits; [discriminate|eauto|].
    intros NDs Hlen groups' Egr. injection Egr as <-. rewrite Eg.
    assert (t_limit tm = Inf /\ t_expired tm = false) as [T1 T2]. { rewrite Etn in Etm. inversion Etm. auto. } destruct (Hnone T1 T2) as (_ & J' & I' & EM & Q1 & Q2 & [Q3|Q3]); [subst J'; discriminate Q1|].
    destruct (shortest_multi_min g Hnn all M (ordS (end_states ordN all)) HM) as (d2 & p2 & Hsm2 & Hw & Hmin). pose proof (returns_fun _ _ _ Hsm2 Hsm) as Es. injection Es as -> ->.
    destruct Hw as (e2 & z & -> & Hw). destruct (path_length g all Da M (S0 all) _ e2 z HM Hw) as (t2 & Et2 & <-). injection Et2 as <-.
    assert (goal all P') as HG by (apply (goal_rel _ _ _ Hrel), HA).
    destruct (short_plan srt Hsrt g W Hnn all Da (end_states ordN all) Hfin J' ms P' I' Q1 Q2 Q3) as (q & z & Hq & Hz).
    + hnf; splits.
      * apply S0_keys.
      * rewrite Hs0. exact NDs.
      * intros l a ld Ha Hl. apply dget_In, In_S0 in Ha; [|exact Da]. destruct Ha as (ld' & Hl' & ->). assert (ld' = ld) by congruence. subst ld'. apply (Hroute l ld Hl).
    + rewrite Hs0. revert HP. apply plan_mono. intros l a b. apply may_rel', Hrel.
    + exact HG.
    + destruct Hlen as [Hlen|[Hlen Hu]]; [left; exact Hlen|right]. split; [|exact Hlen].
      assert (forall x, In x (end_states ordN all) -> x = P') as Hu' by (intros x Hx; apply Hu, (goal_rel _ _ _ Hrel), Hfin, Hx). apply Hfin in HG.
      pose proof (NoDup_end_states ordN HordN all Da Hnd) as Hn. destruct (end_states ordN all) as [|x [|y r]]; [destruct HG|rewrite (Hu' x (or_introl eq_refl)); reflexivity|].
      exfalso. apply NoDup_cons_iff in Hn. apply (proj1 Hn). left. rewrite (Hu' x), (Hu' y); cbn; auto.
    + rewrite EM in Hq. specialize (Hmin P' q z). unfold ext_leb in Hmin. apply Z.leb_le in Hmin; [lia| |exact Hq]. apply (Permutation_in _ (Permutation_sym (HordS _))), Hfin, HG.
  - exists (fin 0). splits.
    + apply Hmain. unfold fin. apply returns_const. destruct (fst (expired tm' (now i))); discriminate.
    + unfold fin. destruct (fst (expired tm' (now i))); auto.
    + intros Et ms P' HP HA. destruct (Hex Et ms P' HP HA). discriminate. Qed.

(** return_on_first has no influence *)
Lemma jam_solver_dead n raw timeout sync rof rof' : jam_solver srt ordN ordS apsrt pick t0 now n g raw timeout sync rof = jam_solver srt ordN ordS apsrt pick t0 now n g raw timeout sync rof'.
Proof. unfold jam_solver. destruct (check_user_input ordN apsrt pick n g raw) as [all| |]; [|reflexivity|reflexivity]. cbn [bind]. destruct (timer_new timeout t0) as [tm| |]; [|reflexivity|reflexivity]. cbn [bind].
  unfold jam_init. cbn zeta. destruct (foldM _ all []) as [dms| |]; [|reflexivity|reflexivity]. cbn [bind]. fold (S0 all).
  erewrite loop_ext; [reflexivity|]. intros st. apply jam_step_dead. Qed.
End Solver.
