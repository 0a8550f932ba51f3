(** Refinement proof for finite_state_machine.py *)
From Verif Require Import Prelude PreludeFacts Base BaseFacts BaseFacts2 BaseFacts3 Spec SpecFacts Fsm FsmSpec.

Lemma nodes_from_add_edge {A O V} {EA : EqDec A} (g : graph A O V) a b v x :
  nodes_from (add_edge_result g a b v false) x = if eq_dec x a then sadd b (nodes_from g a) else nodes_from g x.
Proof. unfold nodes_from, add_edge_result, add_edge1_result. cbn [g_edges]. rewrite inner_nset. destruct (eq_dec x a); [|reflexivity]. apply dkeys_dset_sadd. Qed.

Section F.
Context {N act : Type} {EN : EqDec N} {EA : EqDec act} (aid : nat -> N).
Notation tr := (N * act * N)%type.
Notation fsm := (fsm (N := N) (act := act)).
Implicit Types (m : fsm) (ts : list tr).

(** the ids of the transitions from s when the first of them has number k *)
Fixpoint ids_from (k : nat) ts (s : N) : list N :=
  match ts with [] => [] | t :: r => if eqb (t_src t) s then aid k :: ids_from (S k) r s else ids_from (S k) r s end.
Lemma ids_from_app k ts t s : ids_from k (ts ++ [t]) s = ids_from k ts s ++ (if eqb (t_src t) s then [aid (k + length ts)] else []).
Proof. revert k. induction ts as [|u ts IH]; intros k; cbn [app ids_from length].
  - rewrite Nat.add_0_r. destruct (eqb (t_src t) s); reflexivity.
  - rewrite IH. replace (S k + length ts) with (k + S (length ts)) by lia. destruct (eqb (t_src u) s); reflexivity. Qed.
Lemma ids_from_In k ts s x : In x (ids_from k ts s) -> exists i, k <= i < k + length ts /\ x = aid i.
Proof. revert k. induction ts as [|u ts IH]; intros k; cbn; [tauto|]. intros H. destruct (eqb (t_src u) s).
  - destruct H as [<-|H]; [exists k; split; [lia|reflexivity]|]. destruct (IH _ H) as (i & Hi & ->). exists i. split; [lia|reflexivity].
  - destruct (IH _ H) as (i & Hi & ->). exists i. split; [lia|reflexivity]. Qed.

(** [K] bounds the number of transitions: only the ids below it are ever used *)
Context (K : nat).
Definition off (s : N) : Prop := forall k, k < K -> s <> aid k.
Record Rep m ts (cur : option N) : Prop := {
  r_wf : wf (f_states m);
  r_cur : f_current m = cur;
  r_set : f_set m = match cur with Some _ => true | None => false end;
  r_count : f_count m = length ts;
  r_dis : forall t, In t ts -> off (t_src t) /\ off (t_dst t);
  r_curdis : forall s, cur = Some s -> off s;
  r_nodes : forall x, In x (nodes (f_states m)) <-> In x (map t_src ts) \/ In x (map t_dst ts) \/ exists k, k < length ts /\ x = aid k;
  r_first : ts <> [] -> exists s r, nodes (f_states m) = s :: r /\ off s;
  r_from : forall s, off s -> nodes_from (f_states m) s = ids_from 0 ts s;
  r_to : forall k t, nth_error ts k = Some t -> nodes_from (f_states m) (aid k) = [t_dst t];
  r_act : forall k, dget (aid k) (f_actions m) = option_map t_act (nth_error ts k);
  r_act2 : forall s, off s -> dget s (f_actions m) = None }.

Context (aid_inj : forall i j, aid i = aid j -> i = j).

Lemma rep_new : Rep (fsm_new (N := N) (act := act)) [] None.
Proof. constructor; try reflexivity.
  - apply wf_empty.
  - intros t [].
  - intros s E. discriminate.
  - intros x. cbn. split; [tauto|]. intros [[]|[[]|(k & H & _)]]. lia.
  - congruence.
  - intros [|k] t H; discriminate.
  - intros [|k]; reflexivity. Qed.

Lemma lookup_spec m ts cur s : Rep m ts cur -> off s ->
  fsm_lookup (f_actions m) (nodes_from (f_states m) s) = Ok (map t_act (available ts s)).
Proof. intros R Hs. rewrite (r_from _ _ _ R s Hs). pose proof (r_act _ _ _ R) as Ha. clear R Hs.
  assert (forall ts' pre, ts = pre ++ ts' -> fsm_lookup (f_actions m) (ids_from (length pre) ts' s) = Ok (map t_act (available ts' s))) as H.
  { induction ts' as [|t ts' IH]; intros pre E; [reflexivity|]. cbn [ids_from available filter]. specialize (IH (pre ++ [t])). rewrite app_length in IH. cbn [length] in IH. rewrite Nat.add_1_r in IH.
    assert (ts = (pre ++ [t]) ++ ts') as E2 by (rewrite <- app_assoc; exact E). destruct (eqb (t_src t) s); [|apply IH, E2].
    cbn [fsm_lookup map]. rewrite Ha. rewrite E at 1. rewrite nth_error_app2, Nat.sub_diag by lia. cbn. rewrite (IH E2). reflexivity. }
  apply (H ts [] eq_refl). Qed.

Lemma find_spec m ts cur s a : Rep m ts cur -> off s ->
  match filter (fun t => eqb (t_act t) a) (available ts s) with
  | [] => fsm_find (f_actions m) a (nodes_from (f_states m) s) = Err ValueError
  | t :: _ => exists k, fsm_find (f_actions m) a (nodes_from (f_states m) s) = Ok (aid k) /\ nth_error ts k = Some t
  end.
Proof. intros R Hs. rewrite (r_from _ _ _ R s Hs). pose proof (r_act _ _ _ R) as Ha. clear R Hs.
  assert (forall ts' pre, ts = pre ++ ts' -> match filter (fun t => eqb (t_act t) a) (available ts' s) with
  | [] => fsm_find (f_actions m) a (ids_from (length pre) ts' s) = Err ValueError
  | t :: _ => exists k, fsm_find (f_actions m) a (ids_from (length pre) ts' s) = Ok (aid k) /\ nth_error ts k = Some t
  end) as H.
  { induction ts' as [|t ts' IH]; intros pre E; [reflexivity|]. cbn [ids_from available filter]. specialize (IH (pre ++ [t])). rewrite app_length in IH. cbn [length] in IH. rewrite Nat.add_1_r in IH.
    assert (ts = (pre ++ [t]) ++ ts') as E2 by (rewrite <- app_assoc; exact E). specialize (IH E2). destruct (eqb (t_src t) s); [|exact IH].
    assert (nth_error ts (length pre) = Some t) as En by (rewrite E, nth_error_app2, Nat.sub_diag by lia; reflexivity).
    cbn [fsm_find filter]. rewrite Ha, En. cbn [option_map]. unfold eqb at 1. destruct (eq_dec (t_act t) a) as [Ea|Ea].
    - exists (length pre). split; [reflexivity|exact En].
    - exact IH. }
  apply (H ts [] eq_refl). Qed.

Lemma available_nil m ts cur s : Rep m ts cur -> off s -> (nodes_from (f_states m) s = [] <-> available ts s = []).
Proof. intros R Hs. rewrite (r_from _ _ _ R s Hs). clear. generalize 0. induction ts as [|t ts IH]; intros k; cbn; [tauto|]. destruct (eqb (t_src t) s); [split; discriminate|apply IH]. Qed.

Lemma rep_add m ts cur s1 a s2 : Rep m ts cur -> length ts < K -> off s1 -> off s2 ->
  exists m', add_transition aid m s1 a s2 = Ok m' /\ Rep m' (ts ++ [(s1, a, s2)]) cur.
Proof. intros R HK D1 D2. destruct R. unfold add_transition. rewrite (add_edge_eq _ s1 (aid (f_count m)) 1%Z false) by assumption. cbn [bind].
  assert (W1 : wf (add_edge_result (f_states m) s1 (aid (f_count m)) 1%Z false)) by (apply wf_add_edge_result; assumption).
  rewrite (add_edge_eq _ (aid (f_count m)) s2 1%Z false W1). cbn [bind]. eexists. split; [reflexivity|]. rewrite r_count0 in *. set (n := length ts) in *.
  assert (Hfrom : nodes_from (f_states m) (aid n) = []).
  { destruct (nodes_from (f_states m) (aid n)) as [|y l] eqn:E; [reflexivity|]. exfalso.
    assert (In y (nodes_from (f_states m) (aid n))) as Hy by (rewrite E; left; reflexivity).
    apply (In_nodes_from _ _ _ r_wf0) in Hy. destruct Hy as [v Hv]. apply (edge_nodes _ _ _ _ r_wf0) in Hv. destruct Hv as [Hv _]. apply r_nodes0 in Hv.
    destruct Hv as [Hv|[Hv|(k & Hk & Ek)]]; [| |apply aid_inj in Ek; lia]; apply in_map_iff in Hv; destruct Hv as (t & Et & Ht); destruct (r_dis0 t Ht) as [Q1 Q2]; specialize (Q1 n HK); specialize (Q2 n HK); congruence. }
  assert (Hn : forall x : N, nodes (add_edge_result (add_edge_result (f_states m) s1 (aid n) 1%Z false) (aid n) s2 1%Z false) = sadd s2 (sadd (aid n) (sadd (aid n) (sadd s1 (nodes (f_states m)))))).
  { intros _. unfold add_edge_result. rewrite !nodes_add_edge1_result. reflexivity. }
  constructor; cbn [f_states f_current f_count f_actions f_set].
  - apply wf_add_edge_result, W1.
  - exact r_cur0.
  - exact r_set0.
  - rewrite app_length. cbn. unfold n. lia.
  - intros t Ht. apply in_app_iff in Ht. destruct Ht as [Ht|[<-|[]]]; [apply r_dis0, Ht|]. cbn. split; [exact D1|exact D2].
  - exact r_curdis0.
  - intros x. rewrite (Hn x), !In_sadd, r_nodes0, !map_app, !in_app_iff. cbn [map In t_src t_dst fst snd]. rewrite app_length. cbn [length]. split.
    + intros [->|[->|[->|[->|[H|[H|(k & Hk & ->)]]]]]]; auto; [right; right; exists n; split; [unfold n; lia|reflexivity]|right; right; exists n; split; [unfold n; lia|reflexivity]|].
      right; right. exists k. split; [unfold n in *; lia|reflexivity].
    + intros [[H|[<-|[]]]|[[H|[<-|[]]]|(k & Hk & ->)]]; auto 8. destruct (Nat.eq_dec k n) as [->|Hkn]; [auto|]. do 6 right. exists k. split; [unfold n in *; lia|reflexivity].
  - intros _. rewrite (Hn s1). destruct (nodes (f_states m)) as [|s r] eqn:E.
    + exists s1. cbn. unfold sadd. cbn. destruct (eq_dec (aid n) s1) as [E1|_]; [destruct (D1 n HK); congruence|]. cbn.
      destruct (eq_dec (aid n) s1) as [E1|_]; [destruct (D1 n HK); congruence|]. destruct (eq_dec (aid n) (aid n)) as [_|]; [|congruence]. cbn.
      destruct (eq_dec s2 s1); [eexists; split; [reflexivity|exact D1]|]. destruct (eq_dec s2 (aid n)); eexists; split; try reflexivity; exact D1.
    + assert (exists s0 r0, s :: r = s0 :: r0 /\ off s0) as (s0 & r0 & E0 & H0).
      { apply r_first0. intros ->. assert (In s (s :: r)) as Hs by (left; reflexivity). apply r_nodes0 in Hs. cbn in Hs. destruct Hs as [[]|[[]|(k & Hk & _)]]. unfold n in Hk. cbn in Hk. lia. }
      injection E0 as <- <-. assert (forall (y : N) l, exists r', sadd y (s :: l) = s :: r') as Hadd by (intros y l; unfold sadd; destruct (mem y (s :: l)); [exists l|eexists]; reflexivity).
      destruct (Hadd s1 r) as [r1 ->]. destruct (Hadd (aid n) r1) as [r2 ->]. destruct (Hadd (aid n) r2) as [r3 ->]. destruct (Hadd s2 r3) as [r4 ->]. eauto.
  - intros s Hs. rewrite !nodes_from_add_edge, ids_from_app. cbn [t_src fst]. rewrite Nat.add_0_l. fold n.
    destruct (eq_dec s (aid n)) as [E|_]; [destruct (Hs n HK E)|]. unfold eqb. destruct (eq_dec s s1) as [->|Hne].
    + destruct (eq_dec s1 s1) as [_|]; [|congruence]. rewrite r_from0 by exact D1. unfold sadd. destruct (mem_spec (aid n) (ids_from 0 ts s1)) as [Hin|]; [|reflexivity].
      apply ids_from_In in Hin. destruct Hin as (i & Hi & Ei). apply aid_inj in Ei. unfold n in *. lia.
    + destruct (eq_dec s1 s); [congruence|]. rewrite app_nil_r. apply r_from0, Hs.
  - intros k t Ht. rewrite nodes_from_add_edge. destruct (eq_dec (aid k) (aid n)) as [Ek|Hk].
    + apply aid_inj in Ek. subst k. rewrite nth_error_app2, Nat.sub_diag in Ht by (unfold n; lia). cbn in Ht. injection Ht as <-. cbn [t_dst snd].
      rewrite nodes_from_add_edge. destruct (eq_dec (aid n) s1) as [E|_]; [destruct (D1 n HK); congruence|]. rewrite Hfrom. reflexivity.
    + rewrite nodes_from_add_edge. assert (k < K) as HkK. { assert (k < length (ts ++ [(s1, a, s2)])) as Hl by (apply nth_error_Some; congruence). rewrite app_length in Hl. cbn in Hl. unfold n in HK. lia. }
      destruct (eq_dec (aid k) s1) as [E|_]; [destruct (D1 k HkK); congruence|]. apply r_to0.
      assert (k <> n) by congruence. assert (k < length (ts ++ [(s1, a, s2)])) as Hl by (apply nth_error_Some; congruence). rewrite app_length in Hl. cbn in Hl. rewrite nth_error_app1 in Ht by (unfold n in *; lia). exact Ht.
  - intros k. rewrite dget_dset. destruct (eq_dec (aid k) (aid n)) as [Ek|Hk].
    + apply aid_inj in Ek. subst k. rewrite nth_error_app2, Nat.sub_diag by (unfold n; lia). reflexivity.
    + rewrite r_act0. assert (k <> n) by congruence. destruct (Nat.lt_ge_cases k n) as [Hlt|Hge].
      * rewrite nth_error_app1 by exact Hlt. reflexivity.
      * rewrite (proj2 (nth_error_None ts k)) by exact Hge. rewrite (proj2 (nth_error_None _ k)); [reflexivity|]. rewrite app_length. cbn. unfold n in *. lia.
  - intros s Hs. rewrite dget_dset. destruct (eq_dec s (aid n)) as [E|_]; [destruct (Hs n HK E)|]. apply r_act3, Hs. Qed.

Definition adds_of {N act} (c : call (N := N) (act := act)) : nat := match c with CAdd _ _ _ => 1 | _ => 0 end.
Lemma call_refines m ts cur c : Rep m ts cur -> (forall s, In s (call_states c) -> off s) -> length ts + adds_of c <= K ->
  let '(m', r) := do_call aid m c in let '(ts', cur', r') := spec_call ts cur c in r = r' /\ Rep m' ts' cur' /\ length ts' = length ts + adds_of c.
Proof. intros R D HK. destruct c as [s1 a s2|s|a|].
  - cbn [do_call spec_call]. destruct (rep_add m ts cur s1 a s2 R) as (m' & -> & R').
    + cbn in HK. lia.
    + apply D. cbn. auto.
    + apply D. cbn. auto.
    + cbn [keep]. splits; [reflexivity|exact R'|rewrite app_length; reflexivity].
  - cbn [do_call spec_call]. unfold set_initial_state. rewrite (r_set _ _ _ R). destruct cur as [s0|]; [cbn; splits; auto|].
    assert (mem s (nodes (f_states m)) = mem s (map t_src ts) || mem s (map t_dst ts)) as ->.
    { apply eq_true_iff_eq. rewrite orb_true_iff, !mem_In, (r_nodes _ _ _ R). split; [|tauto]. intros [H|[H|(k & Hk & E)]]; auto. exfalso. apply (D s (or_introl eq_refl) k); [cbn in HK; lia|exact E]. }
    destruct (_ || _); cbn; [|splits; auto]. splits; [reflexivity| |lia]. destruct R. constructor; cbn; auto. intros s' E. injection E as <-. apply D. cbn. auto.
  - cbn [do_call spec_call]. unfold next. rewrite (r_set _ _ _ R). destruct cur as [s0|]; [|cbn; splits; auto]. cbn [negb]. unfold fsm_ids. rewrite (r_cur _ _ _ R).
    assert (off s0) as D0 by (apply (r_curdis _ _ _ R); reflexivity).
    pose proof (available_nil m ts (Some s0) s0 R D0) as HN. pose proof (find_spec m ts (Some s0) s0 a R D0) as HF.
    destruct (nodes_from (f_states m) s0) as [|i l] eqn:El.
    + rewrite (proj1 HN eq_refl). cbn. splits; auto.
    + destruct (available ts s0) as [|t av] eqn:Ev; [destruct HN as [_ HN]; discriminate (HN eq_refl)|].
      destruct (filter _ (t :: av)) as [|t' r'] eqn:Ef.
      * rewrite HF. cbn. splits; auto.
      * destruct HF as (k & -> & Hk). cbn [bind]. rewrite (r_to _ _ _ R k t' Hk). cbn. splits; [reflexivity| |lia].
        destruct R. constructor; cbn; auto. intros s' E. injection E as <-. apply nth_error_In in Hk. apply r_dis0, Hk.
  - cbn [do_call spec_call]. unfold options, fsm_ids. rewrite (r_cur _ _ _ R). destruct cur as [s0|].
    + splits; [|exact R|cbn; lia]. apply (lookup_spec m ts (Some s0) s0 R). apply (r_curdis _ _ _ R); reflexivity.
    + splits; [|exact R|cbn; lia]. destruct ts as [|t ts].
      * destruct (nodes (f_states m)) as [|x l] eqn:E; [reflexivity|]. exfalso. assert (In x (nodes (f_states m))) as Hx by (rewrite E; left; reflexivity).
        apply (r_nodes _ _ _ R) in Hx. cbn in Hx. destruct Hx as [[]|[[]|(k & Hk & _)]]. lia.
      * destruct (r_first _ _ _ R ltac:(discriminate)) as (s & r & -> & Hs). cbn [fsm_lookup]. rewrite (r_act2 _ _ _ R s Hs). reflexivity. Qed.

Lemma calls_refine cs : forall m ts cur, Rep m ts cur -> (forall c s, In c cs -> In s (call_states c) -> off s) ->
  length ts + length (filter is_add cs) <= K -> do_calls aid m cs = spec_calls ts cur cs.
Proof. induction cs as [|c cs IH]; intros m ts cur R D HK; cbn [do_calls spec_calls].
  - rewrite (r_cur _ _ _ R). reflexivity.
  - assert (length ts + adds_of c + length (filter is_add cs) <= K) as HK' by (destruct c; cbn in *; lia).
    pose proof (call_refines m ts cur c R (fun s => D c s (or_introl eq_refl)) ltac:(lia)) as H. destruct (do_call aid m c) as [m' r]. destruct (spec_call ts cur c) as [[ts' cur'] r'].
    destruct H as (-> & R' & El). rewrite (IH m' ts' cur' R'); [reflexivity| |lia]. intros c' s Hc. apply D. right. exact Hc. Qed.
End F.
