(** C93: critical_path when durations are floats. *)
From Coq Require Import ZArith SpecFloat.
From Verif Require Import Prelude PreludeFacts Base BaseFacts BaseFacts2 BaseFacts3 Spec SpecFacts Loop SearchFacts BaseAlgFacts Topo TopoFacts Cpm CpmFacts GSp GSpec Float64 FloatExact FloatSigned GCpm GCpmSpec GCpmFacts CpmFloat PropsFloat.
Open Scope nat_scope.

Section Any.
Context {A W V : Type} {EA : EqDec A} (ar : arith W) (sub : W -> W -> W) (good : W -> Prop) (cl : gclass).
Notation graph := (graph A W V).
Implicit Types (g : graph) (srt : list A -> list A).
(** [y] is not smaller than [x] *)
Notation le x y := (a_ltb ar y x = false).
(** Any arithmetic that keeps the order (C86_floats_lawful: floats do; PropsFloat.exact_lawful: integers do), whatever the
    subtraction: every task is scheduled once; earliest_finish is the largest rounded length of a chain of tasks into the
    task, the critical path length is the largest of all, and no task is scheduled to start before a predecessor ends. *)
Theorem C93_early_any g srt : lawful ar good -> reachable g -> (forall l, Permutation (srt l) l) -> gplan good g -> acyclic (has_edge g) ->
  exists cpl d, returns (fun n => gcritical_path_of ar sub cl srt n g) (Ok (cpl, d)) /\
    Permutation (dkeys d) (nodes g) /\
    (nodes g = [] -> cpl = a_zero ar) /\
    (nodes g <> [] -> exists a p b, path (has_edge g) a p b /\ contains g b = true /\ cpl = chain_sum ar g p) /\
    (forall a p b, contains g b = true -> path (has_edge g) a p b -> le (chain_sum ar g p) cpl) /\
    (forall x t, dget x d = Some t ->
       node g x = Some (gt_dur t) /\ gt_ef t = a_add ar (gt_es t) (gt_dur t) /\ gt_ls t = sub (gt_lf t) (gt_dur t) /\ le (a_zero ar) (gt_es t) /\ le (gt_es t) (gt_ef t) /\ le (gt_ef t) cpl /\
       (exists a p, path (has_edge g) a p x /\ gt_ef t = chain_sum ar g p) /\ (forall a p, path (has_edge g) a p x -> le (chain_sum ar g p) (gt_ef t))) /\
    (forall x y tx ty, has_edge g x y -> dget x d = Some tx -> dget y d = Some ty -> le (gt_ef tx) (gt_es ty)).
Proof. intros LW H Hs HP Hac. apply reachable_wf in H. rename H into W0.
  destruct (gcritical_path_eqs ar sub cl srt g W0 Hs) as (cpl & d & order & Hr & Heq & Hnd & Hperm & Hpf); [|exact Hac|].
  { intros x Hx E. apply contains_In in Hx. destruct (HP x Hx) as (dd & E2 & _). congruence. }
  pose proof (early_all ar sub good LW g order cpl d W0 HP Heq Hperm Hpf) as HE. destruct Heq as (K1 & K2 & K3).
  assert (forall x, In x order <-> In x (nodes g)) as Ho by (intros y; split; apply Permutation_in; [|symmetry]; exact Hperm).
  assert (forall x, In x (nodes g) -> exists t, dget x d = Some t /\ efd ar d x = gt_ef t /\ esd ar d x = gt_es t /\ early ar g d x t /\ late ar sub g cpl d x t) as HT.
  { intros x Hx. destruct (dget_key x d) as (t & Et); [rewrite K1; apply Ho, Hx|]. exists t. unfold efd, esd. rewrite Et. destruct (K2 _ _ Et). splits; auto. }
  assert (forall x, In x order -> good (efd ar d x) /\ a_ltb ar (efd ar d x) (a_zero ar) = false) as HF.
  { intros x Hx. apply Ho in Hx. destruct (HE x Hx) as (G1 & G2 & G3 & _). split; [exact G2|]. destruct (HT x Hx) as (t & _ & E2 & E3 & (En & _ & Ef) & _). destruct (gplan_dur ar good g x HP Hx) as [En2 Gd].
    rewrite E2, Ef, <- E3. rewrite En in En2. injection En2 as ->. apply (l_trans _ _ LW) with (esd ar d x); auto; [apply LW|apply (l_add _ _ LW); auto|apply (l_infl _ _ LW); auto]. }
  destruct (cpl_spec ar good LW d order HF) as (Gc & Hc & Hmax). rewrite <- K3 in *.
  assert (forall p, csum (a_add ar) (a_zero ar) (gduration (a_zero ar) g) p = chain_sum ar g p) as Ecs by reflexivity.
  exists cpl, d. splits; auto.
  - rewrite K1. exact Hperm.
  - intros E. destruct Hc as [[_ E2]|(x & Hx & _)]; [exact E2|]. apply Ho in Hx. rewrite E in Hx. destruct Hx.
  - intros Hne. destruct Hc as [[E _]|(x & Hx & E)].
    + destruct (nodes g) as [|h l] eqn:En; [congruence|]. exfalso. assert (In h order) as Hh by (apply Ho; cbn; auto). rewrite E in Hh. destruct Hh.
    + apply Ho in Hx. destruct (HE x Hx) as (_ & _ & _ & _ & _ & (a & p & Hp & Ep) & _). exists a, p, x. splits; auto; [apply contains_In, Hx|congruence].
  - intros a p b Hb Hp. apply contains_In in Hb. destruct (HE b Hb) as (_ & G2 & _ & _ & _ & _ & Hm). specialize (Hm _ _ Hp). rewrite Ecs in Hm. apply (l_trans _ _ LW) with (efd ar d b); auto; [|apply Hmax, Ho, Hb].
    rewrite <- Ecs. apply (csum_good _ _ _ _ _ (early_laws ar good LW) order); [intros z Hz; apply (gplan_dur ar good g z HP), Ho, Hz|].
    intros z Hz. apply Ho. apply (path_nodes (fun z => In z (nodes g)) (has_edge g) a p b); [|intros u v Huv; apply (has_edge_nodes g u v W0 Huv)|exact Hp|exact Hz].
    inversion Hp as [u|u v q w Huv Hq]; subst; [exact Hb|apply (has_edge_nodes g a v W0 Huv)].
  - intros x t Et. assert (In x (nodes g)) as Hx by (apply Ho; rewrite <- K1; eapply dget_Some_key; eauto). destruct (HT x Hx) as (t' & Et' & E2 & E3 & (En & _ & Ef) & (_ & El)). rewrite Et in Et'. injection Et' as <-.
    destruct (HE x Hx) as (G1 & G2 & G3 & _ & _ & (a & p & Hp & Ep) & Hm). rewrite E2, E3 in *. destruct (gplan_dur ar good g x HP Hx) as [En2 Gd]. rewrite En in En2. injection En2 as Ed. rewrite <- Ed in Gd.
    splits; auto.
    + rewrite Ef. apply (l_infl _ _ LW); auto.
    + rewrite <- E2. apply Hmax, Ho, Hx.
    + exists a, p. split; [exact Hp|exact Ep].
  - intros x y tx ty Hxy Ex Ey. destruct (has_edge_nodes g x y W0 Hxy) as [Hx Hy]. destruct (HE y Hy) as (_ & _ & _ & _ & Hm & _). specialize (Hm x Hxy). unfold efd, esd in Hm. rewrite Ex, Ey in Hm. exact Hm. Qed.
Theorem C93_cyclic_raises g srt : reachable g -> (forall l, Permutation (srt l) l) -> ~ acyclic (has_edge g) ->
  returns (fun n => gcritical_path_of ar sub cl srt n g) (Err AttributeError).
Proof. intros H Hs Hnc. apply reachable_wf in H. destruct (topological_sort_of_spec cl srt g H Hs) as (order & err & Hr & _ & _ & _ & Hc).
  destruct Hc as [(_ & Hac & _)|(_ & x & _ & _ & Hx)]; [tauto|]. eapply gcritical_path_cyclic; eauto. Qed.
End Any.

Section Fl.
Context {A V : Type} {EA : EqDec A} (cl : gclass).
Notation graph := (graph A spec_float V).
Implicit Types (g : graph) (srt : list A -> list A).
Notation fcp srt n g := (gcritical_path_of f64 fsub cl srt n g).
Notation le x y := (SFltb y x = false).
Notation sv := (sval 53 1024).
(** The late schedule, for floats: latest_start is the least of the lengths of the chains out of the task, subtracted from
    the critical path length from the last task of the chain to the first; no task may end later than a successor starts;
    and if the critical path length is finite, some task has slack exactly 0. *)
Theorem C93_late_floats g srt : reachable g -> (forall l, Permutation (srt l) l) -> gplan finite_duration g -> acyclic (has_edge g) ->
  exists cpl d, returns (fun n => fcp srt n g) (Ok (cpl, d)) /\
    (forall x t, dget x d = Some t ->
       gt_lf t <> S754_nan /\ gt_ls t = fsub (gt_lf t) (gt_dur t) /\ le (gt_ls t) (gt_lf t) /\ le (gt_lf t) cpl /\
       (exists b p, path (has_edge g) x p b /\ gt_ls t = chain_back f0 fsub g cpl p) /\ (forall b p, path (has_edge g) x p b -> le (gt_ls t) (chain_back f0 fsub g cpl p))) /\
    (forall x y tx ty, has_edge g x y -> dget x d = Some tx -> dget y d = Some ty -> le (gt_lf tx) (gt_ls ty)) /\
    (nodes g <> [] -> sv cpl <> None -> exists x t, dget x d = Some t /\ sv (gt_slack fsub t) = Some 0%Z).
Proof. intros H Hs HP Hac. apply reachable_wf in H. rename H into W0.
  destruct (gcritical_path_eqs f64 fsub cl srt g W0 Hs) as (cpl & d & order & Hr & Heq & Hnd & Hperm & Hpf); [|exact Hac|].
  { intros x Hx E. apply contains_In in Hx. destruct (HP x Hx) as (dd & E2 & _). congruence. }
  pose proof (late_x g W0 HP cpl d order Heq Hnd Hperm Hpf) as HL. pose proof (early_x g W0 HP cpl d order Heq Hperm Hpf) as HE. pose proof (cpl_facts g W0 HP cpl d order Heq Hperm Hpf) as (Gc & Hc & Hmax). pose proof (good_num _ Gc) as Nc.
  assert (forall x, In x order <-> In x (nodes g)) as Ho by (intros y; split; apply Permutation_in; [|symmetry]; exact Hperm).
  pose proof Heq as (K1 & K2 & K3).
  exists cpl, d. splits; auto.
  - intros x t Et. assert (In x (nodes g)) as Hx by (apply Ho; rewrite <- K1; eapply dget_Some_key; eauto). destruct (K2 _ _ Et) as [(En & _) (_ & El)].
    destruct (HL x Hx) as (G4 & G3 & H5 & _). pose proof (late_chain g W0 HP cpl d order Heq Hnd Hperm Hpf x Hx) as LC. unfold lfd, lsd in *. rewrite Et in *. splits; auto; [apply G4| |apply LC|apply LC].
    rewrite lt_val by auto. apply Z.ltb_ge. rewrite El. apply fsub_infl; [exact G4|]. pose proof (dur_fd g HP x) as FD. unfold gduration in FD. rewrite En in FD. exact FD.
  - intros x y tx ty Hxy Ex Ey. destruct (has_edge_nodes g x y W0 Hxy) as [Hx Hy]. destruct (HL x Hx) as (_ & _ & _ & _ & Hm & _). specialize (Hm y Hxy). unfold lfd, lsd in Hm. rewrite Ex, Ey in Hm. exact Hm.
  - intros Hne Hfin. destruct (sv cpl) as [cz|] eqn:Ecz; [|congruence].
    (* the last task in the order that attains the length has no successors *)
    assert (exists l1 x l2, order = l1 ++ x :: l2 /\ val (efd f64 d x) = val cpl /\ forall y, In y l2 -> val (efd f64 d y) <> val cpl) as (l1 & x & l2 & E & Ex & Hl2).
    { assert (exists x, In x order /\ val (efd f64 d x) = val cpl) as Hex. { destruct Hc as [[E _]|(x & Hx & E)]; [|exists x; split; [exact Hx|congruence]]. destruct (nodes g) as [|h l] eqn:En; [congruence|]. exfalso. assert (In h order) as Hh by (apply Ho; cbn; auto). rewrite E in Hh. destruct Hh. }
      clear - Hex. induction order as [|z l IH]; [destruct Hex as (x & [] & _)|]. destruct (in_dec Z.eq_dec (val cpl) (map (fun y => val (efd f64 d y)) l)) as [Hi|Hi].
      - destruct IH as (l1 & x & l2 & -> & H1 & H2); [apply in_map_iff in Hi; destruct Hi as (x & Hx1 & Hx2); eauto|]. exists (z :: l1), x, l2. splits; auto.
      - exists [], z, l. splits; [reflexivity| |].
        + destruct Hex as (x & [<-|Hx] & Ev); [exact Ev|]. exfalso. apply Hi, in_map_iff. eauto.
        + intros y Hy Ev. apply Hi, in_map_iff. eauto. }
    assert (In x (nodes g)) as Hx by (apply Ho; rewrite E; apply in_app_iff; cbn; auto). destruct (dget_key x d) as (t & Et); [rewrite K1; apply Ho, Hx|]. exists x, t. split; [exact Et|].
    assert (forall y, ~ has_edge g x y) as No.
    { intros y Hxy. destruct (has_edge_nodes g x y W0 Hxy) as [_ Hy]. pose proof (succs_later (has_edge g) order (rev l2) x (rev l1) Hnd Hpf) as SL. assert (In y (rev l2)) as Hyl. { apply SL; [|rewrite E, rev_app_distr; cbn [rev]; rewrite <- app_assoc; reflexivity|exact Hxy]. intros a b Hab. apply Ho, (has_edge_nodes g a b W0 Hab). }
      apply in_rev in Hyl. apply (Hl2 y Hyl). destruct (HE y Hy) as (G1 & G2 & _ & _ & Hm & _). specialize (Hm x Hxy). destruct (HE x Hx) as (_ & G2x & _). apply ge_val in Hm; [|apply good_num, G2x|apply good_num, G1]. specialize (Hmax y (proj2 (Ho y) Hy)). apply ge_val in Hmax; [|apply good_num, G2|apply good_num, Gc].
      assert (val (esd f64 d y) <= val (efd f64 d y))%Z as L3. { destruct (dget_key y d) as (ty & Ety); [rewrite K1; apply Ho, Hy|]. destruct (K2 _ _ Ety) as [(En & _ & Ef) _]. unfold esd, efd in *. rewrite Ety in *. rewrite Ef. apply ge_val; [apply good_num, G1| |].
        - rewrite <- Ef. apply good_num, G2.
        - apply (l_infl _ _ f64_lawful); [exact G1|]. pose proof (dur_fd g HP y) as FD. unfold gduration in FD. rewrite En in FD. apply FD. }
      clear - Hm Hmax L3 Ex. lia. }
    destruct (HL x Hx) as (_ & _ & _ & [[_ E4]|(y & Hy & _)] & _); [|destruct (No y Hy)]. unfold lfd, efd in *. rewrite Et in *. unfold gt_slack. rewrite E4.
    destruct (HE x Hx) as (_ & G2 & _). unfold efd in G2. rewrite Et in G2. pose proof (sval_xv 53 1024 cpl cz Ecz) as CV. pose proof (sval_lt 53 1024 ltac:(lia) ltac:(lia) cpl cz (proj1 Gc) Ecz) as CB.
    assert (sv (gt_ef t) = Some cz) as Se. { rewrite <- CV, <- Ex. apply sval_num; [apply good_num, G2|]. rewrite Ex, CV. exact CB. }
    replace 0%Z with (cz - cz)%Z by lia. apply (fsub_fits cpl (gt_ef t) cz cz (proj1 Gc) (proj1 G2) Ecz Se). rewrite Z.sub_diag. split; [reflexivity|]. cbn [Z.abs]. apply (BIG_pos 53 1024); lia. Qed.

(** The result, compared with the schedule of the same plan with the same durations as exact numbers (units of 2^-1074,
    the model of Cpm): with n tasks, earliest times and the critical path length are off by at most n / 2^53 of the length,
    latest times by 2n / 2^53, slack by (3n + 1) / 2^53. *)
Theorem C93_error g srt : reachable g -> (forall l, Permutation (srt l) l) -> gplan finite_duration g -> acyclic (has_edge g) ->
  exists cpl d C D, returns (fun n => fcp srt n g) (Ok (cpl, d)) /\ returns (fun n => critical_path_of cl srt n (exact_plan g)) (Ok (C, D)) /\ schedule_ok (exact_plan g) C D /\
    let n := Z.of_nat (length (nodes g)) in
    forall c, (3 * n <= 2 ^ 53)%Z -> sv cpl = Some c ->
      off_by n c cpl C /\
      forall x t T, dget x d = Some t -> dget x D = Some T ->
        off_by n c (gt_es t) (t_es T) /\ off_by n c (gt_ef t) (t_ef T) /\ off_by (2 * n) c (gt_ls t) (t_ls T) /\ off_by (2 * n) c (gt_lf t) (t_lf T) /\ off_by (3 * n + 1) c (gt_slack fsub t) (t_slack T).
Proof. intros H Hs HP Hac. apply reachable_wf in H. rename H into W0.
  destruct (gcritical_path_eqs f64 fsub cl srt g W0 Hs) as (cpl & d & order & Hr & Heq & Hnd & Hperm & Hpf); [|exact Hac|].
  { intros x Hx E. apply contains_In in Hx. destruct (HP x Hx) as (dd & E2 & _). congruence. }
  destruct (critical_path_of_spec cl srt (exact_plan g) (wf_exact g W0) Hs (plan_exact g HP) Hac) as (C & D & HR & HS).
  exists cpl, d, C, D. splits; auto. cbv zeta. intros c Hn Hc. exact (error_bounds g W0 HP Hac cpl d order Heq Hnd Hperm Hpf C D HS c Hn Hc). Qed.

(** If all durations are multiples of one power of two (integers, halves, quarters, ...) and the length has at most 53
    bits in that unit, nothing is rounded: every field is exact, so all of C38 holds. *)
Theorem C93_multiples_exact g srt j : reachable g -> (forall l, Permutation (srt l) l) -> gplan finite_duration g -> acyclic (has_edge g) ->
  (0 <= j <= 2045)%Z -> (forall x w, node g x = Some w -> (2 ^ j | units w)%Z) ->
  exists cpl d C D, returns (fun n => fcp srt n g) (Ok (cpl, d)) /\ returns (fun n => critical_path_of cl srt n (exact_plan g)) (Ok (C, D)) /\ schedule_ok (exact_plan g) C D /\
    ((C < 2 ^ (53 + j))%Z -> sv cpl = Some C /\
      forall x t T, dget x d = Some t -> dget x D = Some T ->
        sv (gt_es t) = Some (t_es T) /\ sv (gt_ef t) = Some (t_ef T) /\ sv (gt_ls t) = Some (t_ls T) /\ sv (gt_lf t) = Some (t_lf T) /\ sv (gt_slack fsub t) = Some (t_slack T)).
Proof. intros H Hs HP Hac Hj Hdiv. apply reachable_wf in H. rename H into W0.
  destruct (gcritical_path_eqs f64 fsub cl srt g W0 Hs) as (cpl & d & order & Hr & Heq & Hnd & Hperm & Hpf); [|exact Hac|].
  { intros x Hx E. apply contains_In in Hx. destruct (HP x Hx) as (dd & E2 & _). congruence. }
  destruct (critical_path_of_spec cl srt (exact_plan g) (wf_exact g W0) Hs (plan_exact g HP) Hac) as (C & D & HR & HS).
  exists cpl, d, C, D. splits; auto. intros HC. apply (multiples_bounds g W0 HP cpl d order Heq Hnd Hperm Hpf C D HS j); auto; [lia|]. change (1024 - SpecFloat.emin 53 1024)%Z with 2098%Z. lia. Qed.
End Fl.

(** ** the slack of a task on the only chain is not 0 *)
Definition f04 : spec_float := S754_finite false 7205759403792794 (-54).
Definition ops_ch : list (op nat spec_float Z) := [OpAddNode 1 (Some f01); OpAddNode 2 (Some f04); OpAddNode 3 (Some f02); OpAddNode 4 (Some f04); OpAddEdge 1 2 1%Z false; OpAddEdge 2 3 1%Z false; OpAddEdge 3 4 1%Z false].
Definition g_ch : graph nat spec_float Z := ok_or empty_graph (run ops_ch).
Lemma reach_ch : reachable g_ch. Proof. exists ops_ch. vm_compute. reflexivity. Qed.
Definition signs (r : res (spec_float * dict nat (gtask spec_float))) : list (nat * bool * bool * bool) :=
  match r with Ok (_, d) => map (fun p => (fst p, SFltb (gt_slack fsub (snd p)) f0, SFltb f0 (gt_slack fsub (snd p)), SFltb (gt_ls (snd p)) f0)) d | _ => [] end.
(** (task, slack < 0, slack > 0, latest_start < 0) *)
Example ex_signs : signs (gcritical_path_of f64 fsub IsGraph (fun l => l) 20 g_ch) = [(1, true, false, true); (2, false, false, false); (3, false, true, false); (4, false, false, false)].
Proof. vm_compute. reflexivity. Qed.
(** checks of the hypotheses on concrete plans *)
Definition plan_check (g : graph nat spec_float Z) : bool :=
  forallb (fun x => match node g x with Some w => valid_binary 53 1024 w && (match w with S754_zero false => true | S754_finite false _ _ => true | _ => false end) | None => false end) (nodes g).
Lemma plan_check_ok g : plan_check g = true -> gplan finite_duration g.
Proof. intros H x Hx. apply contains_In in Hx. unfold plan_check in H. rewrite forallb_forall in H. specialize (H x Hx). destruct (node g x) as [w|]; [|discriminate]. exists w. split; [reflexivity|]. apply andb_prop in H. destruct H as [Hv Hw].
  destruct w as [[]|[]| |[] m e]; try discriminate; (split; [split; [exact Hv|reflexivity || exact Logic.I]|eexists; reflexivity]). Qed.
Lemma increasing_acyclic (g : graph nat spec_float Z) : forallb (fun e => Nat.ltb (fst (fst e)) (snd (fst e))) (edges g) = true -> wf g -> acyclic (has_edge g).
Proof. intros H W0 x (y & Hxy & Hr). assert (forall a b, has_edge g a b -> a < b) as K.
  { intros a b (v & E). apply (In_edges g a b v W0) in E. rewrite forallb_forall in H. specialize (H _ E). cbn [fst snd] in H. apply Nat.ltb_lt, H. }
  assert (y <= x) as L. { clear Hxy. destruct Hr as (p & Hp). clear - K Hp. induction Hp as [a|a b p c Hab Hp IH]; [lia|]. specialize (K _ _ Hab). lia. } specialize (K _ _ Hxy). lia. Qed.
Definition slacks_zero (r : res (Z * dict nat task)) : bool := match r with Ok (_, D) => forallb (fun p => Z.eqb (t_slack (snd p)) 0) D | _ => false end.
(** C93 fails for slack: four tasks in one chain, so the exact slack of each is 0, yet the first has slack < 0 and
    latest_start < 0 (it should have been started before the project), the third has slack > 0, so only two of the four
    tasks of the only chain count as critical. *)
Theorem C93_slack_refuted : reachable g_ch /\ gplan finite_duration g_ch /\ acyclic (has_edge g_ch) /\
  exists cpl d C D, returns (fun n => gcritical_path_of f64 fsub IsGraph (fun l => l) n g_ch) (Ok (cpl, d)) /\
    returns (fun n => critical_path_of IsGraph (fun l => l) n (exact_plan g_ch)) (Ok (C, D)) /\ (forall x T, dget x D = Some T -> t_slack T = 0%Z) /\
    exists t1 t3, dget 1 d = Some t1 /\ dget 3 d = Some t3 /\ SFltb (gt_slack fsub t1) f0 = true /\ SFltb (gt_ls t1) f0 = true /\ SFltb f0 (gt_slack fsub t3) = true.
Proof. assert (gplan finite_duration g_ch) as HP by (apply plan_check_ok; vm_compute; reflexivity). assert (acyclic (has_edge g_ch)) as Hac by (apply increasing_acyclic; [vm_compute; reflexivity|apply reachable_wf, reach_ch]).
  split; [exact reach_ch|]. split; [exact HP|]. split; [exact Hac|].
  destruct (C93_error IsGraph g_ch (fun l => l) reach_ch (fun l => Permutation_refl l) HP Hac) as (cpl & d & C & D & H1 & H2 & _). exists cpl, d, C, D. split; [exact H1|]. split; [exact H2|].
  destruct H1 as (_ & _ & H1). destruct H2 as (_ & _ & H2). specialize (H1 20). specialize (H2 20). split.
  - assert (slacks_zero (critical_path_of IsGraph (fun l => l) 20 (exact_plan g_ch)) = true) as K by (vm_compute; reflexivity). destruct H2 as [H2|H2]; rewrite H2 in K; [discriminate|]. cbn [slacks_zero] in K. clear - K.
    intros x T E. rewrite forallb_forall in K. specialize (K (x, T) (dget_In _ _ _ E)). apply Z.eqb_eq, K.
  - pose proof ex_signs as K. destruct H1 as [H1|H1]; rewrite H1 in K; [discriminate|]. clear - K. cbn [signs] in K. destruct d as [|[k1 t1] [|[k2 t2] [|[k3 t3] [|[k4 t4] [|]]]]]; try discriminate. cbn [map fst snd] in K.
    injection K as -> E1 _ E2 -> _ _ _ -> _ E3 _ -> _ _ _. exists t1, t3. splits; auto. Qed.

Lemma node_some_in (g : graph nat spec_float Z) x w : node g x = Some w -> In x (nodes g).
Proof. unfold node, nodes. destruct (dget x (g_nodes g)) as [o|] eqn:E2; [|discriminate]. intros _. eapply dget_Some_key; eauto. Qed.
Lemma div_check (g : graph nat spec_float Z) P : P <> 0%Z -> forallb (fun x => match node g x with Some w => Z.eqb (units w mod P) 0 | None => true end) (nodes g) = true -> forall x w, node g x = Some w -> (P | units w)%Z.
Proof. intros HP K x w E. rewrite forallb_forall in K. specialize (K x (node_some_in g x w E)). rewrite E in K. apply Z.eqb_eq in K. exists (units w / P)%Z. pose proof (Z.div_mod (units w) P HP) as Hd. rewrite K in Hd. lia. Qed.
(** ** an exact plan: 1.5 -> {0.25, 2.0} -> 0.75 *)
Definition f15 : spec_float := S754_finite false 6755399441055744 (-52).
Definition f025 : spec_float := S754_finite false 4503599627370496 (-54).
Definition f20 : spec_float := S754_finite false 4503599627370496 (-51).
Definition f075 : spec_float := S754_finite false 6755399441055744 (-53).
Definition ops_mul : list (op nat spec_float Z) := [OpAddNode 1 (Some f15); OpAddNode 2 (Some f025); OpAddNode 3 (Some f20); OpAddNode 4 (Some f075); OpAddEdge 1 2 1%Z false; OpAddEdge 1 3 1%Z false; OpAddEdge 2 4 1%Z false; OpAddEdge 3 4 1%Z false].
Definition g_mul : graph nat spec_float Z := ok_or empty_graph (run ops_mul).
Lemma reach_mul : reachable g_mul. Proof. exists ops_mul. vm_compute. reflexivity. Qed.
Lemma mul_hyps : gplan finite_duration g_mul /\ acyclic (has_edge g_mul) /\ (forall x w, node g_mul x = Some w -> (2 ^ 1072 | units w)%Z).
Proof. splits.
  - apply plan_check_ok. vm_compute. reflexivity.
  - apply increasing_acyclic; [vm_compute; reflexivity|apply reachable_wf, reach_mul].
  - apply (div_check g_mul (2 ^ 1072)); [intros C0; vm_compute in C0; discriminate C0|vm_compute; reflexivity]. Qed.
(** length 4.25; task 2 has slack 1.75 and the others none *)
Example ex_mul : match gcritical_path_of f64 fsub IsGraph (fun l => l) 20 g_mul with
  | Ok (cpl, d) => (cpl, map (fun p => (fst p, gt_slack fsub (snd p))) d) = (S754_finite false 4785074604081152 (-50), [(1, S754_zero false); (2, S754_finite false 7881299347898368 (-52)); (3, S754_zero false); (4, S754_zero false)])
  | _ => False end.
Proof. vm_compute. reflexivity. Qed.
Example ex_mul_exact : exists cpl d C D, returns (fun n => gcritical_path_of f64 fsub IsGraph (fun l => l) n g_mul) (Ok (cpl, d)) /\ returns (fun n => critical_path_of IsGraph (fun l => l) n (exact_plan g_mul)) (Ok (C, D)) /\ schedule_ok (exact_plan g_mul) C D /\
    ((C < 2 ^ (53 + 1072))%Z -> sval 53 1024 cpl = Some C /\
      forall x t T, dget x d = Some t -> dget x D = Some T ->
        sval 53 1024 (gt_es t) = Some (t_es T) /\ sval 53 1024 (gt_ef t) = Some (t_ef T) /\ sval 53 1024 (gt_ls t) = Some (t_ls T) /\ sval 53 1024 (gt_lf t) = Some (t_lf T) /\ sval 53 1024 (gt_slack fsub t) = Some (t_slack T)).
Proof. destruct mul_hyps as (H1 & H2 & H3). apply C93_multiples_exact; auto; [exact reach_mul|lia]. Qed.
