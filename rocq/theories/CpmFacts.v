(** Proofs about critical_path. *)
From Verif Require Import Prelude PreludeFacts Base BaseFacts BaseFacts2 BaseFacts3 Spec SpecFacts Loop SearchFacts BaseAlgFacts Topo TopoFacts Dag DagFacts Cpm.
Local Open Scope Z_scope.

Lemma fold_zmax t : forall x, (In (fold_left Z.max t x) (x :: t)) /\ forall y, In y (x :: t) -> y <= fold_left Z.max t x.
Proof. induction t as [|u t IH]; intros x; cbn [fold_left].
  - split; [cbn; auto|]. intros y [<-|[]]. lia.
  - destruct (IH (Z.max x u)) as [H1 H2]. split.
    + destruct H1 as [H1|H1]; [|cbn; auto]. rewrite <- H1. destruct (Z.max_spec x u) as [[_ ->]|[_ ->]]; cbn; auto.
    + intros y [<-|[<-|Hy]]; [| |apply H2; cbn; auto]; (etransitivity; [|apply H2; left; reflexivity]; lia). Qed.
Lemma fold_zmin t : forall x, (In (fold_left Z.min t x) (x :: t)) /\ forall y, In y (x :: t) -> fold_left Z.min t x <= y.
Proof. induction t as [|u t IH]; intros x; cbn [fold_left].
  - split; [cbn; auto|]. intros y [<-|[]]. lia.
  - destruct (IH (Z.min x u)) as [H1 H2]. split.
    + destruct H1 as [H1|H1]; [|cbn; auto]. rewrite <- H1. destruct (Z.min_spec x u) as [[_ ->]|[_ ->]]; cbn; auto.
    + intros y [<-|[<-|Hy]]; [| |apply H2; cbn; auto]; (etransitivity; [apply H2; left; reflexivity|]; lia). Qed.
Lemma zmax_spec d l : (l = [] /\ zmax d l = d) \/ (In (zmax d l) l /\ forall y, In y l -> y <= zmax d l).
Proof. destruct l as [|x t]; [left; auto|right]. apply fold_zmax. Qed.
Lemma zmin_spec d l : (l = [] /\ zmin d l = d) \/ (In (zmin d l) l /\ forall y, In y l -> zmin d l <= y).
Proof. destruct l as [|x t]; [left; auto|right]. apply fold_zmin. Qed.
Lemma zsum_perm l l' : Permutation l l' -> zsum l = zsum l'.
Proof. induction 1; cbn; lia. Qed.

(** a for loop whose body is run with bounded inner loops *)
Lemma foldM_returns {S X} (f : nat -> S -> X -> res S) (P : list X -> S -> Prop) (Q : exn -> Prop) (l : list X) :
  (forall pre x post s, l = pre ++ x :: post -> P pre s ->
     exists r, returns (fun n => f n s x) r /\ match r with Ok s' => P (pre ++ [x]) s' | Err e => Q e | OutOfFuel => False end) ->
  forall s0, P [] s0 -> exists r, returns (fun n => foldM (f n) l s0) r /\ match r with Ok s' => P l s' | Err e => Q e | OutOfFuel => False end.
Proof. intros H s0 H0.
  assert (forall post pre s, l = pre ++ post -> P pre s ->
    exists r, returns (fun n => foldM (f n) post s) r /\ match r with Ok s' => P l s' | Err e => Q e | OutOfFuel => False end) as G.
  { induction post as [|x post IH]; intros pre s E Hs.
    - rewrite app_nil_r in E. subst. exists (Ok s). split; [apply returns_const; discriminate|exact Hs].
    - destruct (H pre x post s E Hs) as (r & Hr & HP). destruct r as [s'|e|]; [| |destruct HP].
      + destruct (IH (pre ++ [x]) s') as (r' & Hr' & HP'); [rewrite <- app_assoc; exact E|exact HP|]. exists r'. split; [|exact HP'].
        cbn [foldM]. refine (returns_bind _ (fun n s'' => foldM (f n) post s'') s' _ Hr Hr').
      + exists (Err e). split; [|exact HP]. cbn [foldM]. refine (returns_bind_err _ (fun n s'' => foldM (f n) post s'') e Hr). }
  apply (G l []); auto. Qed.

Lemma Forall2_In_l {X Y} (P : X -> Y -> Prop) l r x : Forall2 P l r -> In x l -> exists y, In y r /\ P x y.
Proof. induction 1 as [|a b l r HP _ IH]; intros Hx; [destruct Hx|]. destruct Hx as [<-|Hx]; [exists b; cbn; auto|]. destruct (IH Hx) as (y & Hy & H). exists y. cbn; auto. Qed.
Lemma Forall2_In_r {X Y} (P : X -> Y -> Prop) l r y : Forall2 P l r -> In y r -> exists x, In x l /\ P x y.
Proof. induction 1 as [|a b l r HP _ IH]; intros Hx; [destruct Hx|]. destruct Hx as [<-|Hx]; [exists a; cbn; auto|]. destruct (IH Hx) as (x & Hy & H). exists x. cbn; auto. Qed.


Section F.
Context {A V : Type} {EA : EqDec A}.
Notation graph := (graph A Z V).
Implicit Types (g : graph) (x y a b : A).

Lemma total_app g p q : total_duration g (p ++ q) = total_duration g p + total_duration g q.
Proof. induction p; cbn; lia. Qed.
Lemma heaviest_to_fun g x t t' : heaviest_to g x t -> heaviest_to g x t' -> t = t'.
Proof. intros [(a & p & Hp & <-) H1] [(b & q & Hq & <-) H2]. apply Z.le_antisymm; eauto. Qed.
Lemma heaviest_from_fun g x t t' : heaviest_from g x t -> heaviest_from g x t' -> t = t'.
Proof. intros [(a & p & Hp & <-) H1] [(b & q & Hq & <-) H2]. apply Z.le_antisymm; eauto. Qed.

Lemma lookup_all_ok (d : dict A task) l : (forall x, In x l -> In x (dkeys d)) ->
  exists r, lookup_all d l = Ok r /\ Forall2 (fun x t => dget x d = Some t) l r.
Proof. induction l as [|x l IH]; intros H; cbn; [exists []; auto|]. destruct (dget_key x d) as (t & Et); [apply H; cbn; auto|]. rewrite Et.
  destruct IH as (r & -> & HF); [intros; apply H; cbn; auto|]. cbn. exists (t :: r). split; [reflexivity|]. constructor; auto. Qed.
(** chains *)
Lemma heaviest_to_step g x es : wf g -> 0 <= es -> (forall y a p, has_edge g y x -> path (has_edge g) a p y -> total_duration g p <= es) ->
  ((forall y, ~ has_edge g y x) /\ es = 0 \/ exists y a p, has_edge g y x /\ path (has_edge g) a p y /\ total_duration g p = es) ->
  heaviest_to g x (es + duration g x).
Proof. intros W H0 Hle Hex. split.
  - destruct Hex as [[Hno ->]|(y & a & p & Hy & Hp & <-)].
    + exists x, [x]. split; [constructor|cbn; lia].
    + exists a, (p ++ [x]). split; [eapply path_snoc; eauto|]. rewrite total_app. cbn. lia.
  - intros a p Hp. destruct (exists_last (l := p)) as (q & c & ->); [destruct (path_head _ _ _ _ Hp) as (t & ->); discriminate|].
    destruct q as [|h q]; [apply path_inv1 in Hp; destruct Hp as [-> ->]; cbn; lia|].
    apply path_snoc_inv in Hp; [|discriminate]. destruct Hp as [-> (y & Hp & Hy)]. rewrite total_app. specialize (Hle y a (h :: q) Hy Hp). cbn [total_duration] in *. lia. Qed.
Lemma heaviest_from_step g x m : 0 <= m -> (forall y b p, has_edge g x y -> path (has_edge g) y p b -> total_duration g p <= m) ->
  ((forall y, ~ has_edge g x y) /\ m = 0 \/ exists y b p, has_edge g x y /\ path (has_edge g) y p b /\ total_duration g p = m) ->
  heaviest_from g x (m + duration g x).
Proof. intros H0 Hle Hex. split.
  - destruct Hex as [[Hno ->]|(y & b & p & Hy & Hp & <-)].
    + exists x, [x]. split; [constructor|cbn; lia].
    + exists b, (x :: p). split; [econstructor; eauto|]. cbn. lia.
  - intros b p Hp. inversion Hp as [a|a c q d Hac Hq]; subst; [cbn; lia|]. specialize (Hle c b q Hac Hq). cbn. lia. Qed.

(** ** forward pass *)
Definition fwd_task g x (t : task) : Prop :=
  t_dur t = duration g x /\ t_ef t = t_es t + t_dur t /\ 0 <= t_es t /\ heaviest_to g x (t_ef t) /\
  (forall y a p, has_edge g y x -> path (has_edge g) a p y -> total_duration g p <= t_es t) /\
  ((forall y, ~ has_edge g y x) /\ t_es t = 0 \/ exists y a p, has_edge g y x /\ path (has_edge g) a p y /\ total_duration g p = t_es t).
Definition fwd_inv g (pre : list A) (s : dict A task * Z) : Prop :=
  (forall x, In x (dkeys (fst s)) <-> In x pre) /\ NoDup (dkeys (fst s)) /\
  (forall x t, dget x (fst s) = Some t -> fwd_task g x t) /\
  (forall x t, dget x (fst s) = Some t -> t_ef t <= snd s) /\ 0 <= snd s /\
  (pre = [] /\ snd s = 0 \/ exists x t, dget x (fst s) = Some t /\ t_ef t = snd s).

Lemma plan_dur g x : plan g -> In x (nodes g) -> node g x = Some (duration g x) /\ 0 <= duration g x.
Proof. intros H Hx. apply contains_In in Hx. destruct (H x Hx) as (d & E & Hd). unfold duration. rewrite E. auto. Qed.

Lemma forward_spec g order : wf g -> plan g -> NoDup order -> incl order (nodes g) -> preds_first (has_edge g) order ->
  exists s, foldM (cp_forward g) order ([], 0) = Ok s /\ fwd_inv g order s.
Proof. intros W HP Hnd Hin Hpf.
  destruct (foldM_inv_prefix (fwd_inv g) (cp_forward g) order ([], 0)) as (s & Hs & HI); [| |exists s; auto].
  - hnf; cbn [fst snd dkeys map]; splits; [intros x; cbn; tauto|constructor|discriminate|discriminate|lia|left; auto].
  - intros pre x post [d cpl] E (K1 & K2 & K3 & K4 & K5 & K6). cbn [fst snd] in *. unfold cp_forward.
    assert (forall y, has_edge g y x -> In y pre) as Hpre by (intros y Hy; eapply Hpf; eauto).
    destruct (lookup_all_ok d (nodes_to g x)) as (preds & -> & HF); [intros y Hy; apply K1, Hpre, (In_to g y x W), Hy|]. cbn [bind].
    assert (In x (nodes g)) as Hx by (apply Hin; rewrite E; apply in_app_iff; cbn; auto).
    destruct (plan_dur g x HP Hx) as [-> Hd0]. eexists. split; [reflexivity|].
    assert (~ In x pre) as Hnx by (rewrite E in Hnd; apply NoDup_app_iff in Hnd; destruct Hnd as (_ & _ & Hd); intros C; apply (Hd x C); cbn; auto).
    set (es := zmax 0 (map t_ef preds)).
    assert (fwd_task g x (mkT (duration g x) es (es + duration g x) 0 0)) as HT.
    { assert (forall y a p, has_edge g y x -> path (has_edge g) a p y -> total_duration g p <= es) as H1.
      { intros y a p Hy Hp. apply (In_to g y x W) in Hy. destruct (Forall2_In_l _ _ _ _ HF Hy) as (t & Ht & Et).
        destruct (K3 _ _ Et) as (_ & _ & _ & [_ Hm] & _). specialize (Hm _ _ Hp). unfold es. destruct (zmax_spec 0 (map t_ef preds)) as [[C _]|[_ Hz]].
        - apply map_eq_nil in C. subst. destruct Ht.
        - specialize (Hz (t_ef t) (in_map t_ef preds t Ht)). lia. }
      assert ((forall y, ~ has_edge g y x) /\ es = 0 \/ exists y a p, has_edge g y x /\ path (has_edge g) a p y /\ total_duration g p = es) as H2.
      { unfold es. destruct (zmax_spec 0 (map t_ef preds)) as [[C ->]|[Hi _]].
        - left. split; [|reflexivity]. intros y Hy. apply (In_to g y x W) in Hy. apply map_eq_nil in C. subst. destruct (Forall2_In_l _ _ _ _ HF Hy) as (t & [] & _).
        - right. apply in_map_iff in Hi. destruct Hi as (t & <- & Ht). destruct (Forall2_In_r _ _ _ _ HF Ht) as (y & Hy & Et).
          destruct (K3 _ _ Et) as (_ & _ & _ & [(a & p & Hp & Hw) _] & _). exists y, a, p. splits; auto. apply (In_to g y x W), Hy. }
      assert (0 <= es) as H0.
      { destruct H2 as [[_ ->]|(y & a & p & Hy & Hp & <-)]; [lia|]. apply (has_edge_nodes g y x W) in Hy.
        assert (forall z, In z p -> In z (nodes g)) as Hpn.
        { clear - Hp Hy W. intros z Hz. apply in_split in Hz. destruct Hz as (p1 & p2 & ->). apply path_split in Hp. destruct Hp as [_ Hp].
          destruct p2 as [|u p2]; [apply path_inv1 in Hp; destruct Hp as [_ ->]; tauto|]. apply path_inv2 in Hp. destruct Hp as (_ & Hr & _). apply (has_edge_nodes g z u W Hr). }
        clear - Hpn HP EA. induction p as [|z p IH]; cbn; [lia|]. destruct (plan_dur g z HP) as [_ Hz]; [apply Hpn; cbn; auto|]. specialize (IH ltac:(intros; apply Hpn; cbn; auto)). lia. }
      hnf. cbn [t_dur t_es t_ef]. splits; auto. apply heaviest_to_step; auto. }
    hnf; cbn [fst snd]; splits.
    + intros y. rewrite In_dkeys_dset, K1, in_app_iff. cbn. intuition auto.
    + apply NoDup_dset, K2.
    + intros y t. rewrite dget_dset. destruct (eq_dec y x) as [->|]; [intros Et; inv Et; exact HT|apply K3].
    + intros y t. rewrite dget_dset. destruct (eq_dec y x) as [->|]; [intros Et; inv Et; cbn; lia|]. intros Et. specialize (K4 _ _ Et). lia.
    + lia.
    + right. destruct (Z.max_spec (es + duration g x) cpl) as [[Hlt Em]|[Hge Em]]; rewrite Em.
      * destruct K6 as [[-> ->]|(y & t & Ey & Et)]; [destruct HT as (_ & _ & H0 & _); cbn in H0; lia|].
        exists y, t. rewrite dget_dset. destruct (eq_dec y x) as [->|]; [|auto]. exfalso. apply Hnx, K1. eapply dget_Some_key; eauto.
      * exists x. eexists. rewrite dget_dset. destruct (eq_dec x x); [|congruence]. split; reflexivity. Qed.

(** ** backward pass *)
Definition full_task g cpl x (t : task) : Prop := fwd_task g x t /\ t_lf t = t_ls t + t_dur t /\ heaviest_from g x (cpl - t_ls t).
Definition bwd_inv g cpl (order : list A) (d0 : dict A task) (pre : list A) (d : dict A task) : Prop :=
  dkeys d = dkeys d0 /\ (forall x t, dget x d = Some t -> fwd_task g x t) /\
  (forall x t, In x pre -> dget x d = Some t -> full_task g cpl x t).

Lemma succs_later (R : A -> A -> Prop) order pre x post : NoDup order -> preds_first R order -> (forall a b, R a b -> In b order) ->
  rev order = pre ++ x :: post -> forall y, R x y -> In y pre.
Proof. intros Hnd Hpf Hin E y Hxy. assert (order = rev post ++ x :: rev pre) as E'.
  { rewrite <- (rev_involutive order), E, rev_app_distr. cbn. rewrite <- app_assoc. reflexivity. }
  assert (In y order) as Hy by eauto. apply in_split in Hy. destruct Hy as (l1 & l2 & E2). pose proof (Hpf _ _ _ E2 x Hxy) as Hx.
  rewrite E' in Hnd. apply NoDup_app_iff in Hnd. destruct Hnd as (N1 & N2 & N3). apply NoDup_cons_iff in N2.
  rewrite E2 in E'. apply in_rev. apply in_split in Hx. destruct Hx as (k1 & k2 & ->).
  (* order = (k1 ++ x :: k2) ++ y :: l2 = rev post ++ x :: rev pre, x occurs once *)
  assert (k1 = rev post /\ k2 ++ y :: l2 = rev pre) as [_ <-].
  { rewrite <- app_assoc in E'. cbn in E'. clear - E' N2 N3. revert E' N3. generalize (rev post) as m. induction k1 as [|h k1 IH]; intros [|h' m] E N3; cbn in E.
    - inv E. auto.
    - inv E. exfalso. apply (N3 h'); cbn; auto.
    - inv E. exfalso. destruct N2 as [N2 _]. apply N2. rewrite <- H1. apply in_app_iff. cbn. auto.
    - inv E. destruct (IH m H1) as [-> ->]; [intros z Hz; apply N3; cbn; auto|auto]. }
  apply in_app_iff. cbn. auto. Qed.

Lemma backward_spec g order d0 cpl : wf g -> plan g -> Permutation order (nodes g) -> preds_first (has_edge g) order -> fwd_inv g order (d0, cpl) ->
  exists d, foldM (cp_backward g cpl) (rev order) d0 = Ok d /\ bwd_inv g cpl order d0 (rev order) d.
Proof. intros W HP Hperm Hpf (K1 & K2 & K3 & K4 & K5 & K6). cbn [fst snd] in *.
  assert (NoDup order) as Hnd by (eapply Permutation_NoDup; [symmetry; exact Hperm|apply W]).
  assert (forall x, In x order <-> In x (nodes g)) as Ho by (intros x; split; apply Permutation_in; [|symmetry]; exact Hperm).
  destruct (foldM_inv_prefix (bwd_inv g cpl order d0) (cp_backward g cpl) (rev order) d0) as (d & Hd & HI); [| |exists d; auto].
  - hnf; splits; auto. intros x t [].
  - intros pre x post d E (B1 & B2 & B3). unfold cp_backward.
    assert (forall y, In y (nodes g) -> In y (dkeys d)) as Hk by (intros y Hy; rewrite B1; apply K1, Ho, Hy).
    assert (forall y, has_edge g x y -> In y pre) as Hpre.
    { apply (succs_later (has_edge g) order pre x post Hnd Hpf); [|exact E]. intros a b Hab. apply Ho, (has_edge_nodes g a b W Hab). }
    destruct (lookup_all_ok d (nodes_from g x)) as (succs & -> & HF); [intros y Hy; apply Hk, (has_edge_nodes g x y W), (In_from g x y W), Hy|]. cbn [bind].
    assert (In x (nodes g)) as Hx by (apply Ho, in_rev; rewrite E; apply in_app_iff; cbn; auto).
    destruct (dget_key x d (Hk x Hx)) as (t & Et). rewrite Et. eexists. split; [reflexivity|]. pose proof (B2 _ _ Et) as HT.
    assert (t_dur t = duration g x) as Hdur by apply HT.
    set (lf := zmin cpl (map t_ls succs)).
    assert (heaviest_from g x ((cpl - lf) + duration g x)) as HFr.
    { assert (forall y b p, has_edge g x y -> path (has_edge g) y p b -> total_duration g p <= cpl - lf) as H1.
      { intros y b p Hy Hp. pose proof (Hpre y Hy) as Hyp. apply (In_from g x y W) in Hy. destruct (Forall2_In_l _ _ _ _ HF Hy) as (u & Hu & Eu).
        destruct (B3 _ _ Hyp Eu) as (_ & _ & [_ Hm]). specialize (Hm _ _ Hp). unfold lf. destruct (zmin_spec cpl (map t_ls succs)) as [[C _]|[_ Hz]].
        - apply map_eq_nil in C. subst. destruct Hu.
        - specialize (Hz (t_ls u) (in_map t_ls succs u Hu)). lia. }
      assert ((forall y, ~ has_edge g x y) /\ cpl - lf = 0 \/ exists y b p, has_edge g x y /\ path (has_edge g) y p b /\ total_duration g p = cpl - lf) as H2.
      { unfold lf. destruct (zmin_spec cpl (map t_ls succs)) as [[C ->]|[Hi _]].
        - left. split; [|lia]. intros y Hy. apply (In_from g x y W) in Hy. apply map_eq_nil in C. subst. destruct (Forall2_In_l _ _ _ _ HF Hy) as (u & [] & _).
        - right. apply in_map_iff in Hi. destruct Hi as (u & <- & Hu). destruct (Forall2_In_r _ _ _ _ HF Hu) as (y & Hy & Eu).
          assert (has_edge g x y) as Hxy by (apply (In_from g x y W), Hy).
          destruct (B3 _ _ (Hpre y Hxy) Eu) as (_ & _ & [(b & p & Hp & Hw) _]). exists y, b, p. auto. }
      apply heaviest_from_step; auto. destruct H2 as [[_ ->]|(y & b & p & Hy & Hp & <-)]; [lia|].
      assert (forall z, In z p -> In z (nodes g)) as Hpn.
      { apply (path_nodes (fun z => In z (nodes g)) (has_edge g) y p b); [apply (has_edge_nodes g x y W Hy)| |exact Hp]. intros u v Huv. apply (has_edge_nodes g u v W Huv). }
      clear - Hpn HP EA. induction p as [|z p IH]; cbn; [lia|]. destruct (plan_dur g z HP) as [_ Hz]; [apply Hpn; cbn; auto|]. specialize (IH ltac:(intros; apply Hpn; cbn; auto)). lia. }
    hnf. splits.
    + rewrite dkeys_dset_in by (apply Hk, Hx). exact B1.
    + intros y u. rewrite dget_dset. destruct (eq_dec y x) as [->|]; [|apply B2]. intros Eu. inv Eu. destruct HT as (T1 & T2 & T3 & T4 & T5 & T6). hnf; cbn [t_dur t_es t_ef]; splits; auto.
    + intros y u Hy. rewrite dget_dset. destruct (eq_dec y x) as [->|Hne].
      * intros Eu. inv Eu. hnf. cbn [t_dur t_es t_ef t_ls t_lf]. splits; [destruct HT as (T1 & T2 & T3 & T4 & T5 & T6); hnf; cbn [t_dur t_es t_ef]; splits; auto|lia|].
        rewrite Hdur. replace (cpl - (lf - duration g x)) with (cpl - lf + duration g x) by lia. exact HFr.
      * apply in_app_iff in Hy. destruct Hy as [Hy|[<-|[]]]; [apply B3, Hy|congruence]. Qed.

(** ** the schedule *)
Definition schedule_ok g (cpl : Z) (d : dict A task) : Prop :=
  Permutation (dkeys d) (nodes g) /\
  (nodes g = [] /\ cpl = 0 \/ exists a p b, path (has_edge g) a p b /\ In b (nodes g) /\ total_duration g p = cpl) /\
  (forall a p b, In b (nodes g) -> path (has_edge g) a p b -> total_duration g p <= cpl) /\
  (forall x t, dget x d = Some t -> full_task g cpl x t /\ 0 <= t_slack t) /\
  (nodes g <> [] -> exists x t, dget x d = Some t /\ t_slack t = 0).

Lemma critical_path_of_spec cl srt g : wf g -> (forall l, Permutation (srt l) l) -> plan g -> acyclic (has_edge g) ->
  exists cpl d, returns (fun n => critical_path_of cl srt n g) (Ok (cpl, d)) /\ schedule_ok g cpl d.
Proof. intros W Hs HP Hac. destruct (topological_sort_of_spec cl srt g W Hs) as (order & err & Hr & Hnd & Hin & Hpf & Hc).
  destruct Hc as [(-> & _ & Hperm)|(_ & x & _ & _ & Hx)]; [|destruct (Hac x Hx)].
  destruct (forward_spec g order W HP Hnd Hin Hpf) as ([d0 cpl] & EF & HI). destruct (backward_spec g order d0 cpl W HP Hperm Hpf HI) as (d & EB & HB).
  exists cpl, d. split.
  - unfold critical_path_of. refine (returns_bind _ _ (order, None) (Ok (cpl, d)) Hr _). cbn [fst snd]. rewrite EF. cbn [bind fst snd]. rewrite EB. apply returns_const. discriminate.
  - destruct HI as (K1 & K2 & K3 & K4 & K5 & K6). destruct HB as (B1 & B2 & B3). cbn [fst snd] in *.
    assert (forall x, In x order <-> In x (nodes g)) as Ho by (intros x; split; apply Permutation_in; [|symmetry]; exact Hperm).
    assert (forall x, In x (dkeys d) <-> In x (nodes g)) as Hk by (intros x; rewrite B1, K1; apply Ho).
    assert (forall a p b, In b (nodes g) -> path (has_edge g) a p b -> total_duration g p <= cpl) as Hle.
    { intros a p b Hb Hp. destruct (dget_key b d0) as (t & Et); [apply K1, Ho, Hb|]. destruct (K3 _ _ Et) as (_ & _ & _ & [_ Hm] & _). specialize (Hm _ _ Hp). specialize (K4 _ _ Et). lia. }
    assert (nodes g = [] /\ cpl = 0 \/ exists a p b, path (has_edge g) a p b /\ In b (nodes g) /\ total_duration g p = cpl) as Hex.
    { destruct K6 as [[-> ->]|(x & t & Et & Hef)].
      - left. split; [|reflexivity]. destruct (nodes g) as [|h l]; [reflexivity|]. exfalso. apply (Ho h). cbn; auto.
      - right. destruct (K3 _ _ Et) as (_ & _ & _ & [(a & p & Hp & Hw) _] & _). exists a, p, x. splits; [exact Hp| |lia]. apply Ho, K1. eapply dget_Some_key; eauto. }
    assert (forall x t, dget x d = Some t -> full_task g cpl x t) as Hfull.
    { intros x t Et. apply (B3 x t); [|exact Et]. apply in_rev. rewrite rev_involutive. apply Ho, Hk. eapply dget_Some_key; eauto. }
    hnf; splits; auto.
    + apply NoDup_Permutation; [rewrite B1; exact K2|apply W|exact Hk].
    + intros x t Et. pose proof (Hfull _ _ Et) as HT. split; [exact HT|]. destruct HT as ((T1 & T2 & T3 & [(a & p & Hp & Hw) _] & _) & T5 & [(b & q & Hq & Hwq) _]).
      assert (In x (nodes g)) as Hx by (apply Hk; eapply dget_Some_key; eauto).
      destruct (path_head _ _ _ _ Hq) as (q' & ->). pose proof (path_app _ _ _ _ _ _ Hp Hq) as Hpq.
      assert (In b (nodes g)) as Hb.
      { apply (path_nodes (fun z => In z (nodes g)) (has_edge g) x (x :: q') b Hx); [intros u v Huv; apply (has_edge_nodes g u v W Huv)|exact Hq|eapply path_end_In; eauto]. }
      specialize (Hle _ _ _ Hb Hpq). rewrite total_app in Hle. cbn [total_duration] in Hwq. unfold t_slack. lia.
    + intros Hne. destruct Hex as [[C _]|(a & p & b & Hp & Hb & Hw)]; [congruence|]. destruct (dget_key b d) as (t & Et); [apply Hk, Hb|]. exists b, t. split; [exact Et|].
      pose proof (Hfull _ _ Et) as ((T1 & T2 & T3 & [(a' & p' & Hp' & Hw') Hm] & _) & T5 & [(c & q & Hq & Hwq) Hm2]).
      pose proof (Hm _ _ Hp) as L1. pose proof (Hle _ _ _ Hb Hp') as L2.
      specialize (Hm2 b [b] (path_one _ b)). cbn [total_duration] in Hm2.
      destruct (path_head _ _ _ _ Hq) as (q' & ->). pose proof (path_app _ _ _ _ _ _ Hp Hq) as Hpq.
      assert (In c (nodes g)) as Hcn.
      { apply (path_nodes (fun z => In z (nodes g)) (has_edge g) b (b :: q') c Hb); [intros u v Huv; apply (has_edge_nodes g u v W Huv)|exact Hq|eapply path_end_In; eauto]. }
      specialize (Hle _ _ _ Hcn Hpq). rewrite total_app in Hle. cbn [total_duration] in Hwq. unfold t_slack. lia. Qed.

(** on a cyclic graph it raises, on a missing duration it raises *)
Lemma critical_path_of_cyclic cl srt g x : wf g -> (forall l, Permutation (srt l) l) -> reach1 (has_edge g) x x ->
  returns (fun n => critical_path_of cl srt n g) (Err AttributeError).
Proof. intros W Hs Hx. destruct (topological_sort_of_spec cl srt g W Hs) as (order & err & Hr & Hnd & Hin & Hpf & Hc).
  destruct Hc as [(_ & Hac & _)|(-> & _)]; [destruct (Hac x Hx)|].
  unfold critical_path_of. refine (returns_bind _ _ (order, Some AttributeError) (Err AttributeError) Hr _). apply returns_const. discriminate. Qed.
End F.
Notation critical_path_spec := (critical_path_of_spec IsGraph).
Notation critical_path_cyclic := (critical_path_of_cyclic IsGraph).
