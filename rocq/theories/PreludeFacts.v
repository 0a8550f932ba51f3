(** Lemmas about Prelude. *)
From Verif Require Import Prelude.

Ltac inv H := inversion H; subst; clear H.
Ltac splits := repeat match goal with |- _ /\ _ => split end.
Ltac des x := destruct x eqn:?.

Section MemFacts.
Context {A : Type} {EA : EqDec A}.

Lemma eqb_true (x y : A) : eqb x y = true <-> x = y.
Proof. unfold eqb. destruct (eq_dec x y); split; congruence. Qed.
Lemma eqb_eq (x y : A) : eqb x y = true -> x = y.
Proof. apply eqb_true. Qed.
Lemma eqb_false (x y : A) : eqb x y = false <-> x <> y.
Proof. unfold eqb. destruct (eq_dec x y); split; congruence. Qed.
Lemma eqb_refl (x : A) : eqb x x = true.
Proof. apply eqb_true; reflexivity. Qed.
Lemma eqb_sym (x y : A) : eqb x y = eqb y x.
Proof. unfold eqb. destruct (eq_dec x y), (eq_dec y x); congruence. Qed.

Lemma mem_In (x : A) l : mem x l = true <-> In x l.
Proof. induction l as [|y l IH]; cbn; [split; [congruence|tauto]|].
  destruct (eq_dec x y) as [->|Hn]; [tauto|]. rewrite IH. split; [tauto|]. intros [->|H]; [congruence|exact H]. Qed.
Lemma mem_notIn (x : A) l : mem x l = false <-> ~ In x l.
Proof. rewrite <- mem_In. destruct (mem x l); split; congruence. Qed.
Lemma mem_spec (x : A) l : reflect (In x l) (mem x l).
Proof. destruct (mem x l) eqn:E; constructor; [apply mem_In|apply mem_notIn]; exact E. Qed.
Lemma mem_cong (x : A) l l' : (In x l <-> In x l') -> mem x l = mem x l'.
Proof. intros H. destruct (mem_spec x l), (mem_spec x l'); tauto. Qed.
Lemma In_dec' (x : A) l : {In x l} + {~ In x l}.
Proof. destruct (mem_spec x l); [left|right]; assumption. Qed.

Lemma In_sadd (x y : A) s : In x (sadd y s) <-> x = y \/ In x s.
Proof. unfold sadd. destruct (mem_spec y s) as [H|H].
  - split; [tauto|]. intros [->|H']; assumption.
  - rewrite in_app_iff. cbn. split; intros [H1|H1]; auto; [destruct H1 as [->|[]]; auto]. Qed.
Lemma NoDup_app_single (x : A) s : NoDup s -> ~ In x s -> NoDup (s ++ [x]).
Proof. intros H Hn. apply (Permutation_NoDup (l := x :: s)); [apply Permutation_cons_append|].
  constructor; assumption. Qed.
Lemma NoDup_sadd (y : A) s : NoDup s -> NoDup (sadd y s).
Proof. intros H. unfold sadd. destruct (mem_spec y s); [exact H|]. apply NoDup_app_single; assumption. Qed.
Lemma In_sunion (x : A) l : forall s, In x (sunion s l) <-> In x s \/ In x l.
Proof. unfold sunion. induction l as [|y l IH]; intros s; cbn; [tauto|].
  rewrite IH, In_sadd. intuition congruence. Qed.
Lemma NoDup_sunion l : forall s : list A, NoDup s -> NoDup (sunion s l).
Proof. unfold sunion. induction l as [|y l IH]; intros s H; cbn; [exact H|]. apply IH, NoDup_sadd, H. Qed.
Lemma In_set_of (x : A) l : In x (set_of l) <-> In x l.
Proof. unfold set_of. rewrite In_sunion. cbn. tauto. Qed.
Lemma NoDup_set_of (l : list A) : NoDup (set_of l).
Proof. apply NoDup_sunion. constructor. Qed.
Lemma In_sdiff (x : A) s t : In x (sdiff s t) <-> In x s /\ ~ In x t.
Proof. unfold sdiff. rewrite filter_In. rewrite negb_true_iff, mem_notIn. tauto. Qed.
Lemma NoDup_filter' {B} (f : B -> bool) l : NoDup l -> NoDup (filter f l).
Proof. induction 1 as [|x l Hn H IH]; cbn; [constructor|]. destruct (f x); [|exact IH].
  constructor; [|exact IH]. rewrite filter_In. tauto. Qed.
Lemma NoDup_sdiff (s t : list A) : NoDup s -> NoDup (sdiff s t).
Proof. apply NoDup_filter'. Qed.
Lemma In_sremove (x y : A) s : In x (sremove y s) <-> In x s /\ x <> y.
Proof. unfold sremove. rewrite filter_In, negb_true_iff, eqb_false. intuition congruence. Qed.
Lemma NoDup_sremove (y : A) s : NoDup s -> NoDup (sremove y s).
Proof. apply NoDup_filter'. Qed.

Lemma lremove_In (x y : A) l : In x (lremove y l) -> In x l.
Proof. induction l as [|z l IH]; cbn; [tauto|]. destruct (eq_dec y z); cbn; tauto. Qed.
Lemma lremove_perm (x : A) l : In x l -> Permutation l (x :: lremove x l).
Proof. induction l as [|z l IH]; cbn; [tauto|]. intros H.
  destruct (eq_dec x z) as [->|Hn]; [reflexivity|].
  destruct H as [->|H]; [congruence|]. rewrite (IH H) at 1. apply perm_swap. Qed.
Lemma lremove_notIn (x : A) l : ~ In x l -> lremove x l = l.
Proof. induction l as [|z l IH]; cbn; [reflexivity|]. intros H.
  destruct (eq_dec x z) as [->|Hn]; [tauto|]. f_equal. apply IH. tauto. Qed.
Lemma NoDup_lremove (x : A) l : NoDup l -> NoDup (lremove x l).
Proof. intros H. destruct (In_dec' x l) as [Hi|Hi].
  - apply lremove_perm in Hi. eapply Permutation_NoDup in H; [|exact Hi]. inv H. assumption.
  - rewrite lremove_notIn; assumption. Qed.
Lemma In_lremove_NoDup (x y : A) l : NoDup l -> (In x (lremove y l) <-> In x l /\ x <> y).
Proof. intros H. destruct (In_dec' y l) as [Hi|Hi].
  - pose proof (lremove_perm _ _ Hi) as P. pose proof (Permutation_NoDup P H) as H'. inv H'.
    rewrite (Permutation_in' eq_refl P). cbn. split; [intros Hx; split; [tauto|congruence]|].
    intros [[?|?] ?]; congruence.
  - rewrite lremove_notIn by assumption. split; [|tauto]. intros Hx. split; [assumption|congruence]. Qed.

Lemma NoDup_app_iff {B} (l1 l2 : list B) :
  NoDup (l1 ++ l2) <-> NoDup l1 /\ NoDup l2 /\ (forall x, In x l1 -> ~ In x l2).
Proof. induction l1 as [|x l1 IH]; cbn.
  - split; [intros H; repeat split; [constructor|exact H|tauto]|tauto].
  - split.
    + intros H. inv H. apply IH in H3 as (Ha & Hb & Hc). rewrite in_app_iff in H2.
      repeat split; [constructor; tauto|assumption|]. intros y [->|Hy]; [tauto|auto].
    + intros (Ha & Hb & Hc). inv Ha. constructor.
      * rewrite in_app_iff. intros [H|H]; [tauto|]. exact (Hc x (or_introl eq_refl) H).
      * apply IH. repeat split; auto. Qed.

Lemma NoDup_incl_length' (l l' : list A) : NoDup l -> incl l l' -> length l <= length l'.
Proof. apply NoDup_incl_length. Qed.

Lemma in_split_first (x : A) l : In x l -> exists l1 l2, l = l1 ++ x :: l2 /\ ~ In x l1.
Proof. induction l as [|y l IH]; [intros []|]. intros H.
  destruct (eq_dec x y) as [->|Hn]; [exists [], l; cbn; auto|].
  destruct H as [->|H]; [congruence|]. destruct (IH H) as (l1 & l2 & -> & H').
  exists (y :: l1), l2. split; [reflexivity|]. cbn. intros [->|?]; [congruence|tauto]. Qed.

Lemma perm_filter_split {B} (f : B -> bool) l :
  Permutation l (filter f l ++ filter (fun x => negb (f x)) l).
Proof. induction l as [|x l IH]; cbn; [constructor|]. destruct (f x); cbn.
  - constructor. exact IH.
  - rewrite IH at 1. apply Permutation_middle. Qed.
End MemFacts.

Section DictFacts.
Context {K V : Type} {EK : EqDec K}.
Implicit Types (d : dict K V) (k : K) (v : V).

Lemma dget_None k d : dget k d = None <-> ~ In k (dkeys d).
Proof. induction d as [|[k' v] d IH]; cbn; [tauto|]. destruct (eq_dec k k') as [->|Hn].
  - split; [congruence|tauto].
  - rewrite IH. intuition congruence. Qed.
Lemma dget_Some_key k d v : dget k d = Some v -> In k (dkeys d).
Proof. intros H. destruct (In_dec' k (dkeys d)) as [Hi|Hi]; [exact Hi|]. apply dget_None in Hi. congruence. Qed.
Lemma dget_key k d : In k (dkeys d) -> exists v, dget k d = Some v.
Proof. intros H. destruct (dget k d) as [v|] eqn:E; [eauto|]. apply dget_None in E. tauto. Qed.
Lemma dget_In k v d : dget k d = Some v -> In (k, v) d.
Proof. induction d as [|[k' v'] d IH]; cbn; [congruence|]. destruct (eq_dec k k') as [->|Hn].
  - intros H; left; congruence. - auto. Qed.
Lemma In_dget k v d : NoDup (dkeys d) -> In (k, v) d -> dget k d = Some v.
Proof. induction d as [|[k' v'] d IH]; cbn; [tauto|]. intros Hn H. inv Hn.
  destruct (eq_dec k k') as [->|Hne].
  - destruct H as [H|H]; [congruence|]. exfalso. apply H2. apply (in_map fst) in H. exact H.
  - destruct H as [H|H]; [congruence|]. auto. Qed.
Lemma dget_In_iff k v d : NoDup (dkeys d) -> (dget k d = Some v <-> In (k, v) d).
Proof. split; [apply dget_In|apply In_dget; assumption]. Qed.
Lemma dmem_key k d : dmem k d = true <-> In k (dkeys d).
Proof. apply mem_In. Qed.
Lemma dmem_nokey k d : dmem k d = false <-> ~ In k (dkeys d).
Proof. apply mem_notIn. Qed.
Lemma dmem_dget k d : dmem k d = match dget k d with Some _ => true | None => false end.
Proof. destruct (dget k d) eqn:E; [apply dmem_key; eapply dget_Some_key; eauto|].
  apply dmem_nokey, dget_None, E. Qed.

Lemma dget_dset k k' v d : dget k (dset k' v d) = if eq_dec k k' then Some v else dget k d.
Proof. induction d as [|[k1 v1] d IH]; cbn.
  - destruct (eq_dec k k'); reflexivity.
  - destruct (eq_dec k' k1) as [->|Hn]; cbn.
    + destruct (eq_dec k k1); reflexivity.
    + rewrite IH. destruct (eq_dec k k1) as [->|Hn1]; [|reflexivity].
      destruct (eq_dec k1 k'); [congruence|reflexivity]. Qed.
Lemma dkeys_dset_in k v d : In k (dkeys d) -> dkeys (dset k v d) = dkeys d.
Proof. induction d as [|[k1 v1] d IH]; cbn; [tauto|]. destruct (eq_dec k k1) as [->|Hn]; cbn; [reflexivity|].
  intros [H|H]; [congruence|]. f_equal. apply IH. exact H. Qed.
Lemma dset_notin k v d : ~ In k (dkeys d) -> dset k v d = d ++ [(k, v)].
Proof. induction d as [|[k1 v1] d IH]; cbn; [reflexivity|]. destruct (eq_dec k k1) as [->|Hn]; [tauto|].
  intros H. f_equal. apply IH. tauto. Qed.
Lemma dkeys_dset k v d : dkeys (dset k v d) = if mem k (dkeys d) then dkeys d else dkeys d ++ [k].
Proof. destruct (mem_spec k (dkeys d)) as [H|H].
  - apply dkeys_dset_in, H.
  - rewrite dset_notin by exact H. unfold dkeys. rewrite map_app. reflexivity. Qed.
Lemma dkeys_dset_sadd k v d : dkeys (dset k v d) = sadd k (dkeys d).
Proof. apply dkeys_dset. Qed.
Lemma In_dkeys_dset x k v d : In x (dkeys (dset k v d)) <-> x = k \/ In x (dkeys d).
Proof. rewrite dkeys_dset_sadd. apply In_sadd. Qed.
Lemma NoDup_dset k v d : NoDup (dkeys d) -> NoDup (dkeys (dset k v d)).
Proof. rewrite dkeys_dset_sadd. apply NoDup_sadd. Qed.
Lemma length_dset k v d : length (dset k v d) = if mem k (dkeys d) then length d else S (length d).
Proof. pose proof (dkeys_dset k v d) as H. apply (f_equal (@length K)) in H. unfold dkeys in *.
  rewrite map_length in H. rewrite H. destruct (mem k (map fst d)); rewrite ?app_length, map_length; cbn; lia. Qed.

Lemma dkeys_ddel k d : dkeys (ddel k d) = lremove k (dkeys d).
Proof. induction d as [|[k1 v1] d IH]; cbn; [reflexivity|]. destruct (eq_dec k k1); cbn; [reflexivity|].
  f_equal. exact IH. Qed.
Lemma NoDup_ddel k d : NoDup (dkeys d) -> NoDup (dkeys (ddel k d)).
Proof. rewrite dkeys_ddel. apply NoDup_lremove. Qed.
Lemma In_dkeys_ddel x k d : NoDup (dkeys d) -> (In x (dkeys (ddel k d)) <-> In x (dkeys d) /\ x <> k).
Proof. intros H. rewrite dkeys_ddel. apply In_lremove_NoDup, H. Qed.
Lemma dget_ddel k k' d : NoDup (dkeys d) -> dget k (ddel k' d) = if eq_dec k k' then None else dget k d.
Proof. induction d as [|[k1 v1] d IH]; cbn; intros H; [destruct (eq_dec k k'); reflexivity|]. inv H.
  destruct (eq_dec k' k1) as [->|Hn]; cbn.
  - destruct (eq_dec k k1) as [->|Hne]; [|reflexivity]. apply dget_None. assumption.
  - rewrite IH by assumption. destruct (eq_dec k k1) as [->|Hn1]; [|reflexivity].
    destruct (eq_dec k1 k'); [congruence|reflexivity]. Qed.
Lemma ddel_notin k d : ~ In k (dkeys d) -> ddel k d = d.
Proof. induction d as [|[k1 v1] d IH]; cbn; [reflexivity|]. intros H.
  destruct (eq_dec k k1) as [->|Hn]; [tauto|]. f_equal. apply IH. tauto. Qed.
Lemma length_ddel k d : length (ddel k d) = if mem k (dkeys d) then length d - 1 else length d.
Proof. unfold dkeys. induction d as [|[k1 v1] d IH]; cbn; [reflexivity|].
  destruct (eq_dec k k1) as [->|Hn]; cbn; [lia|].
  rewrite IH. destruct (mem_spec k (map fst d)) as [H|H]; [|reflexivity].
  destruct d; cbn in *; [tauto|lia]. Qed.
Lemma ddel_dset_same k v d : NoDup (dkeys d) -> ddel k (dset k v d) = ddel k d.
Proof. induction d as [|[k1 v1] d IH]; cbn; intros H.
  - destruct (eq_dec k k); [reflexivity|congruence].
  - inv H. destruct (eq_dec k k1) as [->|Hn]; cbn.
    + destruct (eq_dec k1 k1); [reflexivity|congruence].
    + destruct (eq_dec k k1); [congruence|]. f_equal. apply IH. assumption. Qed.
Lemma dset_same k v d : dget k d = Some v -> dset k v d = d.
Proof. induction d as [|[k1 v1] d IH]; cbn; [congruence|]. destruct (eq_dec k k1) as [->|Hn].
  - congruence. - intros H. f_equal. auto. Qed.

Lemma dkeys_length d : length (dkeys d) = length d.
Proof. apply map_length. Qed.
End DictFacts.

Section NDictFacts.
Context {K V : Type} {EK : EqDec K}.
Implicit Types (d : dict K (dict K V)).

Lemma eget_inner d a b : eget d a b = dget b (inner d a).
Proof. unfold eget, inner. destruct (dget a d); reflexivity. Qed.
Lemma inner_dset d a o x : inner (dset a o d) x = if eq_dec x a then o else inner d x.
Proof. unfold inner. rewrite dget_dset. destruct (eq_dec x a); reflexivity. Qed.
Lemma inner_ddel d a x : NoDup (dkeys d) -> inner (ddel a d) x = if eq_dec x a then [] else inner d x.
Proof. intros H. unfold inner. rewrite dget_ddel by exact H. destruct (eq_dec x a); reflexivity. Qed.

(** well formed nested dict: distinct keys, non-empty inner dicts *)
Record nwf d : Prop := {
  nwf_keys : NoDup (dkeys d);
  nwf_inner : forall a o, dget a d = Some o -> NoDup (dkeys o) /\ o <> [] }.

Lemma nwf_nil : nwf [].
Proof. split; cbn; [constructor|congruence]. Qed.
Lemma nwf_inner_nd d a : nwf d -> NoDup (dkeys (inner d a)).
Proof. intros [H1 H2]. unfold inner. destruct (dget a d) as [o|] eqn:E; [apply (H2 a o E)|constructor]. Qed.
Lemma nwf_key_inner d a : nwf d -> (In a (dkeys d) <-> inner d a <> []).
Proof. intros [H1 H2]. unfold inner. destruct (dget a d) as [o|] eqn:E.
  - split; [intros _; apply (H2 a o E)|intros _; eapply dget_Some_key; eauto].
  - apply dget_None in E. tauto. Qed.

Definition nset a b (v : V) d := dset a (dset b v (inner d a)) d.
Definition ndel a b d := let o := ddel b (inner d a) in if is_nil o then ddel a d else dset a o d.
Definition tot d : nat := length (flat_map snd d).

Lemma dset_nonempty {X} k (x : X) (o : dict K X) : dset k x o <> [].
Proof. destruct o as [|[k1 v1] o]; cbn; [congruence|]. destruct (eq_dec k k1); congruence. Qed.

Lemma nwf_nset a b v d : nwf d -> nwf (nset a b v d).
Proof. intros H. pose proof (nwf_inner_nd d a H) as Hi. destruct H as [H1 H2]. unfold nset. split.
  - apply NoDup_dset, H1.
  - intros x o. rewrite dget_dset. destruct (eq_dec x a) as [->|Hn]; [|apply H2].
    intros E; inv E. split; [apply NoDup_dset, Hi|apply dset_nonempty]. Qed.
Lemma nwf_ndel a b d : nwf d -> nwf (ndel a b d).
Proof. intros H. pose proof (nwf_inner_nd d a H) as Hi. destruct H as [H1 H2]. unfold ndel. cbn.
  destruct (ddel b (inner d a)) as [|p o'] eqn:E; cbn.
  - split; [apply NoDup_ddel, H1|]. intros x o. rewrite dget_ddel by exact H1. destruct (eq_dec x a); [congruence|apply H2].
  - split; [apply NoDup_dset, H1|]. intros x o. rewrite dget_dset. destruct (eq_dec x a); [|apply H2].
    intros E'; inv E'. rewrite <- E. split; [apply NoDup_ddel, Hi|rewrite E; congruence]. Qed.
Lemma inner_nset a b v d x : inner (nset a b v d) x = if eq_dec x a then dset b v (inner d a) else inner d x.
Proof. apply inner_dset. Qed.
Lemma inner_ndel a b d x : nwf d -> inner (ndel a b d) x = if eq_dec x a then ddel b (inner d a) else inner d x.
Proof. intros [H _]. unfold ndel. cbn. destruct (ddel b (inner d a)) as [|p o'] eqn:E; cbn.
  - rewrite inner_ddel by exact H. reflexivity.
  - rewrite inner_dset. reflexivity. Qed.
Lemma nwf_ddel a d : nwf d -> nwf (ddel a d).
Proof. intros [H1 H2]. split; [apply NoDup_ddel, H1|]. intros x o. rewrite dget_ddel by exact H1.
  destruct (eq_dec x a); [congruence|apply H2]. Qed.
Lemma eget_nset a b v d x y :
  eget (nset a b v d) x y = if eq_dec x a then (if eq_dec y b then Some v else eget d x y) else eget d x y.
Proof. rewrite !eget_inner, inner_nset. destruct (eq_dec x a) as [->|]; [|reflexivity]. apply dget_dset. Qed.
Lemma eget_ndel a b d x y : nwf d ->
  eget (ndel a b d) x y = if eq_dec x a then (if eq_dec y b then None else eget d x y) else eget d x y.
Proof. intros H. rewrite !eget_inner, inner_ndel by exact H. destruct (eq_dec x a) as [->|]; [|reflexivity].
  apply dget_ddel, nwf_inner_nd, H. Qed.

Lemma tot_dset a o d : tot (dset a o d) + length (inner d a) = tot d + length o.
Proof. unfold tot, inner. induction d as [|[k1 v1] d IH]; cbn; [rewrite app_nil_r; lia|].
  destruct (eq_dec a k1) as [->|Hn]; cbn; rewrite ?app_length; lia. Qed.
Lemma tot_ddel a d : tot (ddel a d) + length (inner d a) = tot d.
Proof. unfold tot, inner. induction d as [|[k1 v1] d IH]; cbn; [lia|].
  destruct (eq_dec a k1) as [->|Hn]; cbn; rewrite ?app_length; lia. Qed.
Lemma tot_nset a b v d : tot (nset a b v d) = tot d + (if mem b (dkeys (inner d a)) then 0 else 1).
Proof. unfold nset. pose proof (tot_dset a (dset b v (inner d a)) d) as H. rewrite length_dset in H.
  destruct (mem b (dkeys (inner d a))); lia. Qed.
Lemma tot_ndel a b d : In b (dkeys (inner d a)) -> tot (ndel a b d) + 1 = tot d.
Proof. intros Hb. unfold ndel. cbn. pose proof (length_ddel b (inner d a)) as HL.
  apply mem_In in Hb. rewrite Hb in HL.
  assert (0 < length (inner d a)) as Hp by (destruct (inner d a); [cbn in Hb; congruence|cbn; lia]).
  destruct (ddel b (inner d a)) as [|p o'] eqn:E; cbn [is_nil length] in *.
  - pose proof (tot_ddel a d). lia.
  - pose proof (tot_dset a (p :: o') d) as HT. cbn [length] in HT. lia. Qed.
End NDictFacts.

Section FoldM.
Context {S X : Type}.
Lemma foldM_app (f : S -> X -> res S) l1 l2 s :
  foldM f (l1 ++ l2) s = (s' <- foldM f l1 s ;; foldM f l2 s').
Proof. revert s. induction l1 as [|x l1 IH]; intros s; cbn; [reflexivity|].
  destruct (f s x); cbn; [apply IH|reflexivity|reflexivity]. Qed.
(** if the body always succeeds under an invariant, the fold succeeds and keeps it *)
Lemma foldM_inv (P : S -> Prop) (f : S -> X -> res S) l s :
  P s -> (forall s x, P s -> In x l -> exists s', f s x = Ok s' /\ P s') ->
  exists s', foldM f l s = Ok s' /\ P s'.
Proof. revert s. induction l as [|x l IH]; intros s Hs H; cbn; [eauto|].
  destruct (H s x Hs (or_introl eq_refl)) as (s1 & -> & H1). cbn. apply IH; [exact H1|].
  intros s0 x0 H0 Hx. apply H; [exact H0|right; exact Hx]. Qed.
(** same, with the processed prefix visible *)
Lemma foldM_inv_prefix (P : list X -> S -> Prop) (f : S -> X -> res S) l s :
  P [] s -> (forall pre x post s, l = pre ++ x :: post -> P pre s -> exists s', f s x = Ok s' /\ P (pre ++ [x]) s') ->
  exists s', foldM f l s = Ok s' /\ P l s'.
Proof. intros H0 Hstep.
  assert (forall rest pre s, l = pre ++ rest -> P pre s -> exists s', foldM f rest s = Ok s' /\ P l s') as G.
  { induction rest as [|x rest IH]; intros pre s0 E Hp; cbn.
    - rewrite app_nil_r in E. subst. eauto.
    - destruct (Hstep pre x rest s0 E Hp) as (s1 & -> & H1). cbn.
      apply (IH (pre ++ [x])); [rewrite <- app_assoc; exact E|exact H1]. }
  apply (G l [] s eq_refl H0). Qed.
End FoldM.

Section FoldLeft.
Context {S X : Type}.
Lemma fold_left_inv_prefix (P : list X -> S -> Prop) (f : S -> X -> S) l s :
  P [] s -> (forall pre x post s, l = pre ++ x :: post -> P pre s -> P (pre ++ [x]) (f s x)) ->
  P l (fold_left f l s).
Proof. intros H0 Hstep.
  assert (forall rest pre s, l = pre ++ rest -> P pre s -> P l (fold_left f rest s)) as G.
  { induction rest as [|x rest IH]; intros pre s0 E Hp; cbn.
    - rewrite app_nil_r in E. subst. exact Hp.
    - apply (IH (pre ++ [x])); [rewrite <- app_assoc; exact E|]. apply (Hstep pre x rest); assumption. }
  apply (G l [] s eq_refl H0). Qed.
End FoldLeft.

(** ** ext *)
Lemma ext_leb_le a b : ext_leb a b = true <-> ext_le a b.
Proof. destruct a, b; cbn; rewrite ?Z.leb_le; intuition congruence. Qed.
