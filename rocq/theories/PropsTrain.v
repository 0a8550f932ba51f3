(** C84: trains; C75: which jobs find accepts. *)
From Verif Require Import Prelude PreludeFacts Base BaseFacts BaseFacts2 BaseFacts3 Spec SpecFacts Loop Sp SpFacts Rail RailSpec RailFacts PropsRail Train.

Section P.
Context {A O : Type} {EA : EqDec A}.
Notation graph := (graph A O Z).
Implicit Types (g : graph) (loc : A) (access stops : list A) (jobs : list (A * A)) (t : train A O).

(** the stops on the route are there, and each is joined to the next by an edge *)
Definition stops_joined g stops (route : list A) : Prop :=
  exists x y, path (has_edge g) x (filter (fun z => mem z stops) route) y.
Definition shortest_route g (a b : A) (route : list A) : Prop :=
  exists d, wpath (edge g) a route b d /\ dist (edge g) a b (Fin d).

Lemma has_path_loop_path g (p : list A) h : has_path_loop g h p = true <-> exists y, path (has_edge g) h (h :: p) y.
Proof. revert h. induction p as [|y p IH]; intros h; cbn.
  - split; [intros _; exists h; constructor|reflexivity].
  - destruct (edge g h y) as [w|] eqn:E.
    + rewrite IH. split; intros [z Hz]; exists z; [apply (path_cons _ h y (y :: p)); [exists w; exact E|exact Hz]|]. apply path_inv2 in Hz. apply Hz.
    + split; [discriminate|]. intros [z Hz]. apply path_inv2 in Hz. destruct Hz as (_ & [w Hw] & _). congruence. Qed.

(** a job that find may refuse: unknown ends, no route, or a shortest route on which the stops are not joined *)
Definition refusable g stops (j : A * A) : Prop :=
  contains g (fst j) = false \/ contains g (snd j) = false \/ ~ reach (has_edge g) (fst j) (snd j) \/
  exists route, shortest_route g (fst j) (snd j) route /\ ~ stops_joined g stops route.
Lemma find_exact g stops jobs : reachable g -> nonneg g ->
  exists r, returns (fun n => find_jobs n g stops jobs) r /\ match r with Ok _ => True | Err _ => exists j, In j jobs /\ refusable g stops j | OutOfFuel => False end.
Proof. intros HR Hn. apply reachable_wf in HR. unfold find_jobs. set (f := fun n subs (j : A * A) =>
    if negb (contains g (fst j)) then Err ValueError else
    if negb (contains g (snd j)) then Err ValueError else
    r <- shortest_path n g (fst j) (snd j) [] ;;
    let part := filter (fun p => mem p stops) (snd r) in
    b <- has_path g part ;;
    if negb b then Err ValueError else
    match part with [] => Err IndexError | h :: _ => Ok (subs ++ [(h, last part h)]) end).
  change (exists r, returns (fun n => foldM (f n) jobs []) r /\ match r with Ok _ => True | Err _ => exists j, In j jobs /\ refusable g stops j | OutOfFuel => False end).
  generalize (@nil (A * A)) as acc. induction jobs as [|[a b] jobs IH]; intros acc.
  - exists (Ok acc). split; [apply returns_const; discriminate|exact Logic.I].
  - assert (exists r1, returns (fun n => f n acc (a, b)) r1 /\ forall e, r1 = Err e -> refusable g stops (a, b)) as (r1 & Hr1 & Hbad).
    { unfold f. cbn [fst snd]. destruct (contains g a) eqn:Ea; cbn [negb]; [|exists (Err ValueError); split; [apply returns_const; discriminate|left; exact Ea]]. destruct (contains g b) eqn:Eb; cbn [negb]; [|exists (Err ValueError); split; [apply returns_const; discriminate|right; left; exact Eb]].
      apply contains_In in Ea, Eb. destruct (shortest_path_dist g a b HR Hn Ea Eb) as (d & p & Hsp & Hd & Hp). set (part := filter (fun x => mem x stops) p).
      exists (b <- has_path g part ;; if negb b then Err ValueError else match part with [] => Err IndexError | h :: _ => Ok (acc ++ [(h, last part h)]) end). split.
      - refine (returns_bind _ (fun n r => let part := filter (fun p => mem p stops) (snd r) in b <- has_path g part ;; if negb b then Err ValueError else match part with [] => Err IndexError | h :: _ => Ok (acc ++ [(h, last part h)]) end) (d, p) _ Hsp _). cbn [snd]. fold part. apply returns_const.
        destruct part as [|h q]; [discriminate|]. cbn [has_path bind]. destruct (has_path_loop g h q); discriminate.
      - intros e He. destruct d as [z|].
        + right; right; right. exists p. split; [exists z; split; assumption|]. intros (x & y & Hxy). fold part in Hxy. destruct part as [|h q]; [apply path_nonempty in Hxy; exact Hxy|]. pose proof (path_cons_head _ _ _ _ _ Hxy) as E. subst h. cbn [has_path bind] in He.
          rewrite (proj2 (has_path_loop_path g q x)) in He by eauto. discriminate.
        + right; right; left. cbn [fst snd]. intros [q Hq]. apply (path_mono _ (erel (edge g))) in Hq; [|auto]. apply path_wpath in Hq. destruct Hq as [z Hz]. apply (Hd q z Hz). }
    destruct r1 as [acc1|e|]; [| |destruct Hr1 as [C _]; congruence].
    + destruct (IH acc1) as (r & R1 & R2). exists r. split; [refine (returns_bind _ (fun n s => foldM (f n) jobs s) acc1 r Hr1 R1)|].
      destruct r; [exact R2| |exact R2]. destruct R2 as (j & Hj & R2). exists j. split; [right; exact Hj|exact R2].
    + exists (Err e). split; [refine (returns_bind_err _ (fun n s => foldM (f n) jobs s) e Hr1)|]. exists (a, b). split; [left; reflexivity|exact (Hbad e eq_refl)]. Qed.
(** C75: find accepts the jobs if on every shortest route of every job the stops are joined *)
Theorem C75_find_accepts g stops jobs : reachable g -> nonneg g ->
  (forall a b, In (a, b) jobs -> contains g a = true /\ contains g b = true /\ reach (has_edge g) a b /\ forall route, shortest_route g a b route -> stops_joined g stops route) ->
  exists r, returns (fun n => find_jobs n g stops jobs) (Ok r).
Proof. intros HR Hn H. destruct (find_exact g stops jobs HR Hn) as (r & H1 & H2). destruct r as [r|e|]; [eauto| |destruct H2]. exfalso. destruct H2 as ([a b] & Hj & H2). specialize (H a b Hj). destruct H as (K1 & K2 & K3 & K4).
  unfold refusable in H2. cbn [fst snd] in H2. destruct H2 as [H2|[H2|[H2|(route & H2 & H3)]]]; [congruence|congruence|tauto|apply H3, K4, H2]. Qed.
(** ... and it refuses them if there is a job where that holds on no shortest route *)
Theorem C75_find_refuses g stops jobs a b : reachable g -> nonneg g -> In (a, b) jobs ->
  (forall route, shortest_route g a b route -> ~ stops_joined g stops route) ->
  exists e, returns (fun n => find_jobs n g stops jobs) (Err e).
Proof. intros HR Hn Hj H. destruct (find_exact g stops jobs HR Hn) as (r & H1 & H2). destruct r as [r|e|]; [|eauto|destruct H2]. exfalso.
  pose proof (C75_find_sections g stops jobs r HR Hn H1) as F. clear H1 H2. induction F as [|j s jobs r (route & d & P1 & P2 & part & P3 & P4) F IH]; [destruct Hj|]. destruct Hj as [->|Hj]; [|auto]. cbn [fst snd] in *.
  apply (H route); [exists d; auto|]. subst part. exists (fst s), (snd s). exact P4. Qed.

(** ** C84 *)
(** the trains that arise from a call of the constructor by any calls of schedule *)
Inductive made g loc access : train A O -> Prop :=
| made_new t : train_new g loc access = Ok t -> made g loc access t
| made_call t (js : option (list (A * A))) t' x : made g loc access t -> returns (fun n => train_call n t js) (Ok (t', x)) -> made g loc access t'.

(** the constructor takes known nodes only, and the train has no schedule *)
Theorem C84_constructor g loc access :
  (contains g loc = true /\ (forall x, In x access -> contains g x = true) -> exists t, train_new g loc access = Ok t /\ t_sched t = []) /\
  (contains g loc = false \/ (exists x, In x access /\ contains g x = false) -> train_new g loc access = Err AssertionError).
Proof. unfold train_new. split.
  - intros [H1 H2]. exists (mk_train g loc access []). change (contains g loc) with (mem loc (nodes g)) in H1. rewrite H1. cbn [negb]. rewrite (proj2 (forallb_forall _ _) H2). split; reflexivity.
  - intros [H|(x & Hx & H)]; [change (contains g loc) with (mem loc (nodes g)) in H; rewrite H; reflexivity|]. destruct (mem loc (nodes g)); [|reflexivity]. cbn [negb]. destruct (forallb (contains g) access) eqn:E; [|reflexivity]. rewrite forallb_forall in E. specialize (E x Hx). congruence. Qed.

Lemma train_call_some t jobs n : train_call n t (Some jobs) =
  match (new <- find_jobs n (t_net t) (t_access t) jobs ;; schedule n (t_net t) (t_loc t) new) with
  | Ok r => Ok (mk_train (t_net t) (t_loc t) (t_access t) r, Returned r) | Err e => Ok (t, Raised e) | OutOfFuel => OutOfFuel end.
Proof. reflexivity. Qed.
Lemma section_access g stops jobs secs : Forall2 (section_of g stops) jobs secs -> forall a b, In (a, b) secs -> In a stops /\ In b stops /\ reach (has_edge g) a b.
Proof. intros F a b. induction F as [|j s jobs r (route & d & P1 & P2 & part & P3 & P4) F IH]; [intros []|]. intros [E|Hin]; [|auto]. subst s. cbn [fst snd] in P4.
  pose proof (path_start_In _ _ _ _ P4) as Q1. pose proof (path_end_In _ _ _ _ P4) as Q2. subst part. apply filter_In in Q1, Q2. splits; [apply mem_In, Q1|apply mem_In, Q2|exists (filter (fun x => mem x stops) route); exact P4]. Qed.

(** one call, on a train with known nodes: the sections of the jobs, in an order that can be travelled, if there is one *)
Definition train_ok t : Prop := contains (t_net t) (t_loc t) = true /\ forall x, In x (t_access t) -> contains (t_net t) x = true.
Lemma train_call_spec t jobs : reachable (t_net t) -> nonneg (t_net t) -> train_ok t ->
  (exists e, returns (fun n => find_jobs n (t_net t) (t_access t) jobs) (Err e) /\ returns (fun n => train_call n t (Some jobs)) (Ok (t, Raised e))) \/
  (exists secs, returns (fun n => find_jobs n (t_net t) (t_access t) jobs) (Ok secs) /\ Forall2 (section_of (t_net t) (t_access t)) jobs secs /\ known (t_net t) (t_loc t) secs /\
    (forall q, Permutation q secs -> feasible (t_net t) (t_loc t) q -> exists r, Permutation r secs /\ returns (fun n => schedule n (t_net t) (t_loc t) secs) (Ok r) /\
       returns (fun n => train_call n t (Some jobs)) (Ok (mk_train (t_net t) (t_loc t) (t_access t) r, Returned r))) /\
    ((forall q, Permutation q secs -> ~ feasible (t_net t) (t_loc t) q) -> diverges (fun n => train_call n t (Some jobs)))).
Proof. intros HR Hn [K1 K2]. destruct (find_exact (t_net t) (t_access t) jobs HR Hn) as (r & H1 & H2). 
  assert (forall x y, returns (fun n => new <- find_jobs n (t_net t) (t_access t) jobs ;; schedule n (t_net t) (t_loc t) new) x ->
    match x with Ok r => Ok (mk_train (t_net t) (t_loc t) (t_access t) r, Returned r) | Err e => Ok (t, Raised e) | OutOfFuel => OutOfFuel end = y ->
    returns (fun n => train_call n t (Some jobs)) y) as HX.
  { intros x y (X1 & [N X2] & X3) <-. hnf. splits.
    - destruct x; [discriminate|discriminate|congruence].
    - exists N. intros n Hle. rewrite train_call_some, X2 by exact Hle. reflexivity.
    - intros n. rewrite train_call_some. destruct (X3 n) as [E|E]; rewrite E; [left; reflexivity|right; reflexivity]. }
  destruct r as [secs|e|]; [|left|destruct H2].
  - right. exists secs. pose proof (C75_find_sections _ _ _ _ HR Hn H1) as F. assert (known (t_net t) (t_loc t) secs) as Kn. { split; [exact K1|]. intros a b Hab. destruct (section_access _ _ _ _ F a b Hab) as (Q1 & Q2 & _). auto. }
    splits; [exact H1|exact F|exact Kn| |].
    + intros q Hq Hf. destruct (C64_schedule_permutes _ _ _ q HR Hn Kn Hq Hf) as (r & R1 & R2). exists r. splits; [exact R2|exact R1|]. refine (HX (Ok r) _ _ eq_refl). refine (returns_bind _ (fun n new => schedule n (t_net t) (t_loc t) new) secs _ H1 R1).
    + intros Hf n. pose proof (C64_diverges_otherwise _ _ _ HR Hn Kn Hf n) as D. cbv beta in *. rewrite train_call_some. destruct H1 as (_ & _ & H1). destruct (H1 n) as [E|E]; cbv beta in E; rewrite E; cbn [bind]; [reflexivity|]. rewrite D. reflexivity.
  - exists e. split; [exact H1|]. refine (HX (Err e) _ _ eq_refl). refine (returns_bind_err _ (fun n new => schedule n (t_net t) (t_loc t) new) e H1). Qed.

(** every schedule a train ever holds keeps to its access nodes, whatever calls were made and however they ended *)
Theorem C84_keeps_to_access g loc access t : reachable g -> nonneg g -> made g loc access t ->
  t_net t = g /\ t_loc t = loc /\ t_access t = access /\ contains g loc = true /\ (forall x, In x access -> contains g x = true) /\
  forall a b, In (a, b) (t_sched t) -> In a access /\ In b access /\ reach (has_edge g) a b.
Proof. intros HR Hn H. induction H as [t H|t jobs t' x H IH Hc].
  - unfold train_new in H. destruct (mem loc (nodes g)) eqn:E1; [|discriminate]. destruct (forallb (contains g) access) eqn:E2; [|discriminate]. cbn [negb] in H. injection H as <-. cbn. rewrite forallb_forall in E2. splits; auto. intros a b [].
  - destruct IH as (I1 & I2 & I3 & I4 & I5 & I6). destruct jobs as [jobs|].
    + assert (reachable (t_net t)) as HR' by (rewrite I1; exact HR). assert (nonneg (t_net t)) as Hn' by (rewrite I1; exact Hn). assert (train_ok t) as Hok by (split; rewrite I1; [rewrite I2; exact I4|rewrite I3; exact I5]).
      destruct (train_call_spec t jobs HR' Hn' Hok) as [(e & H1 & H2)|(secs & H1 & H2 & H3 & H4 & H5)].
      * pose proof (returns_fun _ _ _ Hc H2) as E. injection E as -> _. splits; auto.
      * pose proof Hc as Hc'. destruct Hc' as (_ & [N HN] & _). specialize (HN N (le_n _)). cbv beta in HN. rewrite train_call_some in HN.
        destruct (new <- find_jobs N (t_net t) (t_access t) jobs ;; schedule N (t_net t) (t_loc t) new) as [r| |] eqn:E; [| |discriminate].
        -- injection HN as <- _. cbn. splits; auto. assert (find_jobs N (t_net t) (t_access t) jobs = Ok secs) as Ef. { apply (returns_of _ _ N H1). intros C. rewrite C in E. discriminate. } rewrite Ef in E. cbn [bind] in E.
           destruct H3 as [Ks Kj]. destruct (sched_spec (t_net t) (t_loc t) secs) as [(r' & q & z & Q1 & Q2 & Q3 & Q4 & _)|(D & _)]; auto using reachable_wf.
           { apply contains_In, Ks. } { intros a b Hab. destruct (Kj a b Hab) as [L1 L2]. split; apply contains_In; assumption. }
           { intros a b Hab. assert (Permutation r secs) as HP. { pose proof (returns_of _ _ N Q1) as E'. cbv beta in E'. rewrite E in E'. assert (Ok r = Ok r') as X by (apply E'; discriminate). injection X as ->. assumption. }
             rewrite <- I1, <- I3. apply (section_access _ _ _ _ H2), (Permutation_in _ HP Hab). }
           { rewrite D in E. discriminate. }
        -- injection HN as <- _. splits; auto.
    + destruct Hc as (_ & [N HN] & _). specialize (HN N (le_n _)). cbn in HN. injection HN as <- _. splits; auto. Qed.

(** schedule(jobs): find refuses the jobs, and the train is unchanged; or the sections of the jobs have an order that can
    be travelled, and an order of the sections is returned and stored; or they have none, and the call never returns *)
Theorem C84_schedule g loc access t jobs : reachable g -> nonneg g -> made g loc access t ->
  (exists e, returns (fun n => find_jobs n g access jobs) (Err e) /\ returns (fun n => train_call n t (Some jobs)) (Ok (t, Raised e))) \/
  (exists secs, Forall2 (section_of g access) jobs secs /\ 
    ((exists q r, Permutation q secs /\ feasible g loc q /\ Permutation r secs /\ returns (fun n => train_call n t (Some jobs)) (Ok (mk_train g loc access r, Returned r))) \/
     (forall q, Permutation q secs -> ~ feasible g loc q) /\ diverges (fun n => train_call n t (Some jobs)))).
Proof. intros HR Hn Hm. destruct (C84_keeps_to_access _ _ _ _ HR Hn Hm) as (I1 & I2 & I3 & I4 & I5 & _). 
  destruct (train_call_spec t jobs) as [(e & H1 & H2)|(secs & H1 & H2 & H3 & H4 & H5)]; rewrite ?I1, ?I2, ?I3 in *; auto.
  - split; [rewrite I1, I2; exact I4|rewrite I1, I3; exact I5].
  - left. eauto.
  - right. exists secs. split; [exact H2|]. destruct H3 as [Ks Kj].
    destruct (sched_spec g loc secs (reachable_wf _ HR) Hn) as [(r' & q & z & Q1 & Q2 & Q3 & Q4 & _)|(D & _ & Q)].
    { apply contains_In, Ks. } { intros a b Hab. destruct (Kj a b Hab) as [L1 L2]. split; apply contains_In; assumption. }
    + left. assert (feasible g loc q) as Hf. { apply (legs_fin g (reachable_wf _ HR) Hn); [apply contains_In, Ks| |eauto]. intros a b Hab. destruct (Kj a b (Permutation_in _ Q3 Hab)) as [L1 L2]. split; apply contains_In; assumption. }
      destruct (H4 q Q3 Hf) as (r & R1 & _ & R3). exists q, r. splits; assumption.
    + right. split; [exact Q|]. apply H5. exact Q. Qed.
(** schedule() gives the stored schedule *)
Theorem C84_read t : returns (fun n => train_call n t None) (Ok (t, Returned (t_sched t))).
Proof. apply returns_const. discriminate. Qed.

(** schedule_rail_system: the trains are scheduled in order, up to the first that refuses the jobs or whose sections have no
    order that can be travelled; the trains after that are not touched *)
Definition rescheduled jobs t t' : Prop := exists r, returns (fun n => train_call n t (Some jobs)) (Ok (t', Returned r)).
Definition made_train t : Prop := exists g loc access, reachable g /\ nonneg g /\ made g loc access t.
Lemma call_ends t jobs : made_train t -> (exists t' x, returns (fun n => train_call n t (Some jobs)) (Ok (t', x)) /\ forall e, x = Raised e -> t' = t) \/ diverges (fun n => train_call n t (Some jobs)).
Proof. intros (g & loc & access & HR & Hn & Hm). destruct (C84_schedule _ _ _ _ jobs HR Hn Hm) as [(e & _ & H)|(secs & _ & [(q & r & _ & _ & _ & H)|(_ & H)])].
  - left. exists t, (Raised e). split; [exact H|auto].
  - left. eexists _, (Returned r). split; [exact H|discriminate].
  - right. exact H. Qed.
Theorem C84_system ts jobs : Forall made_train ts ->
  (exists done done' rest x, ts = done ++ rest /\ Forall2 (rescheduled jobs) done done' /\
     returns (fun n => schedule_rail_system n ts jobs) (Ok (done' ++ rest, x)) /\
     match x with
     | Returned _ => rest = []
     | Raised e => exists t rest', rest = t :: rest' /\ returns (fun n => train_call n t (Some jobs)) (Ok (t, Raised e))
     end) \/
  (exists done done' t rest, ts = done ++ t :: rest /\ Forall2 (rescheduled jobs) done done' /\
     diverges (fun n => train_call n t (Some jobs)) /\ diverges (fun n => schedule_rail_system n ts jobs)).
Proof. induction 1 as [|t ts Ht Hts IH].
  - left. exists [], [], [], (Returned tt). splits; auto. apply returns_const. discriminate.
  - destruct (call_ends t jobs Ht) as [(t' & [e|r] & H1 & H2)|H1].
    + left. rewrite (H2 e eq_refl) in H1. exists [], [], (t :: ts), (Raised e). splits; auto; [|exists t, ts; split; [reflexivity|exact H1]].
      destruct H1 as (_ & [N H1] & H3). hnf. splits; [discriminate|exists N; intros n Hle; cbn [schedule_rail_system]; rewrite H1 by exact Hle; reflexivity|].
      intros n. cbn [schedule_rail_system]. destruct (H3 n) as [E|E]; cbv beta in E; rewrite E; auto.
    + assert (forall n, train_call n t (Some jobs) = OutOfFuel \/ train_call n t (Some jobs) = Ok (t', Returned r)) as H3 by apply H1.
      destruct IH as [(dn & dn' & rest & x & I1 & I2 & I3 & I4)|(dn & dn' & u & rest & I1 & I2 & I3 & I4)].
      * left. exists (t :: dn), (t' :: dn'), rest, x. splits; [cbn; congruence|constructor; [exists r; exact H1|exact I2]| |exact I4].
        destruct H1 as (_ & [N H1] & _). destruct I3 as (_ & [M I3] & I5). hnf. splits; [discriminate|exists (N + M); intros n Hle; cbn [schedule_rail_system]; rewrite H1, I3 by lia; reflexivity|].
        intros n. cbn [schedule_rail_system]. destruct (H3 n) as [E|E]; rewrite E; auto. destruct (I5 n) as [E'|E']; cbv beta in E'; rewrite E'; auto.
      * right. exists (t :: dn), (t' :: dn'), u, rest. splits; [cbn; congruence|constructor; [exists r; exact H1|exact I2]|exact I3|].
        intros n. cbn [schedule_rail_system]. destruct (H3 n) as [E|E]; rewrite E; auto. specialize (I4 n). cbv beta in I4. rewrite I4. reflexivity.
    + right. exists [], [], t, ts. splits; auto. intros n. cbn [schedule_rail_system]. specialize (H1 n). cbv beta in H1. rewrite H1. reflexivity. Qed.
End P.

(** ** Concrete cases: a train with access to 0 and 2 on the line 1 - 0 - 2; a job to an unknown node is refused, and the
    schedule of the accepted jobs is kept; the second train of a system is not touched *)
Example ex_train : exists t1 t2, train_new rail_abc 0 [0; 2] = Ok t1 /\ train_new rail_abc 3 [0; 2] = Err AssertionError /\
  train_call 30 t1 (Some [(1, 2); (2, 0)]) = Ok (t2, Returned [(0, 2); (2, 0)]) /\
  train_call 30 t2 (Some [(1, 9)]) = Ok (t2, Raised ValueError) /\ train_call 30 t2 None = Ok (t2, Returned [(0, 2); (2, 0)]) /\
  schedule_rail_system 30 [t1; t2] [(1, 2); (2, 0)] = Ok ([t2; t2], Returned tt) /\
  schedule_rail_system 30 [t2; t1] [(1, 9)] = Ok ([t2; t1], Raised ValueError).
Proof. exists (mk_train rail_abc 0 [0; 2] []), (mk_train rail_abc 0 [0; 2] [(0, 2); (2, 0)]). splits; vm_compute; reflexivity. Qed.
(** C75: the hypothesis of find_accepts holds of the job 1 -> 2 and the stops 0 and 2, that of find_refuses of the stops 3 *)
Example ex_find : (forall route, shortest_route rail_abc 1 2 route -> route = [1; 0; 2]) /\ stops_joined rail_abc [0; 2] [1; 0; 2] /\ ~ stops_joined rail_abc [3] [1; 0; 2].
Proof. assert (reachable rail_abc /\ nonneg rail_abc) as [HR Hn] by rail_ok. pose proof (reachable_wf _ HR) as W.
  assert (forall x y w, edge rail_abc x y = Some w -> In (x, y, w) (edges rail_abc)) as He by (intros x y w; apply (In_edges _ x y w W)).
  assert (edges rail_abc = [(0, 1, 1%Z); (0, 2, 1%Z); (1, 0, 1%Z); (2, 0, 1%Z)]) as Ee by (vm_compute; reflexivity). rewrite Ee in He. clear Ee.
  assert (forall x p y d, wpath (edge rail_abc) x p y d -> (0 <= d)%Z) as Hd by (intros x p y d; apply wpath_nonneg, Hn).
  assert (wpath (edge rail_abc) 1 [1; 0; 2] 2 2) as Hw. { apply (wpath_eq _ _ _ _ (1 + (1 + 0))%Z); [|reflexivity]. apply (wpath_cons _ 1 0 [0; 2]); [vm_compute; reflexivity|]. apply (wpath_cons _ 0 2 [2]); [vm_compute; reflexivity|constructor]. }
  splits.
  - clear W HR. revert He Hn Hd Hw. generalize rail_abc as g. intros g He Hn Hd Hw. intros route (d & H & _ & Hmin). specialize (Hmin _ _ Hw). cbn in Hmin.
    inversion H as [|? b q ? w z E1 H1]; subst. apply He in E1. cbn in E1. repeat (destruct E1 as [E1|E1]; [inversion E1; subst; try discriminate|]); [|destruct E1]. 
    inversion H1 as [|? c r ? w' z' E2 H2]; subst. apply He in E2. cbn in E2. repeat (destruct E2 as [E2|E2]; [inversion E2; subst|]); [| |destruct E2].
    + inversion H2 as [|? c r2 ? w2 z2 E3 H3]; subst. apply He in E3. cbn in E3. pose proof (Hd _ _ _ _ H3). repeat (destruct E3 as [E3|E3]; [inversion E3; subst; try discriminate; lia|]). destruct E3.
    + inversion H2 as [|? c r2 ? w2 z2 E3 H3]; subst; [reflexivity|]. apply He in E3. cbn in E3. pose proof (Hd _ _ _ _ H3). repeat (destruct E3 as [E3|E3]; [inversion E3; subst; try discriminate; lia|]). destruct E3.
  - exists 0, 2. change (filter (fun z => mem z [0; 2]) [1; 0; 2]) with [0; 2]. apply (path_cons _ 0 2 [2]); [exists 1%Z; vm_compute; reflexivity|constructor].
  - intros (x & y & H). change (filter (fun z => mem z [3]) [1; 0; 2]) with (@nil nat) in H. apply path_nonempty in H. exact H. Qed.
