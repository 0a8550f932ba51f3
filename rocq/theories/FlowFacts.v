(** Facts about sums, flows along simple paths and cuts. *)
From Verif Require Import Prelude PreludeFacts Base BaseFacts BaseFacts2 BaseFacts3 Spec SpecFacts Loop SearchFacts FlowSpec.
Local Open Scope Z_scope.

Section Sum.
Context {A : Type}.
Implicit Types (l : list A) (f h : A -> Z).
Lemma sumZ_ext l f h : (forall x, In x l -> f x = h x) -> sumZ l f = sumZ l h.
Proof. induction l as [|x l IH]; intros H; cbn [sumZ]; [reflexivity|]. rewrite (H x), IH; cbn; auto. intros y Hy. apply H. cbn; auto. Qed.
Lemma sumZ_plus l f h : sumZ l (fun x => f x + h x) = sumZ l f + sumZ l h.
Proof. induction l as [|x l IH]; cbn [sumZ]; lia. Qed.
Lemma sumZ_minus l f h : sumZ l (fun x => f x - h x) = sumZ l f - sumZ l h.
Proof. induction l as [|x l IH]; cbn [sumZ]; lia. Qed.
Lemma sumZ_scale l k f : sumZ l (fun x => k * f x) = k * sumZ l f.
Proof. induction l as [|x l IH]; cbn [sumZ]; lia. Qed.
Lemma sumZ_0 l f : (forall x, In x l -> f x = 0) -> sumZ l f = 0.
Proof. induction l as [|x l IH]; intros H; cbn [sumZ]; [reflexivity|]. rewrite (H x), IH; cbn; auto. intros y Hy. apply H. cbn; auto. Qed.
Lemma sumZ_le l f h : (forall x, In x l -> f x <= h x) -> sumZ l f <= sumZ l h.
Proof. induction l as [|x l IH]; intros H; cbn [sumZ]; [lia|]. assert (f x <= h x) by (apply H; cbn; auto). specialize (IH (fun y Hy => H y (or_intror Hy))). lia. Qed.
Lemma sumZ_nonneg l f : (forall x, In x l -> 0 <= f x) -> 0 <= sumZ l f.
Proof. intros H. rewrite <- (sumZ_0 l (fun _ => 0)) by auto. apply sumZ_le, H. Qed.
Lemma sumZ_app l1 l2 f : sumZ (l1 ++ l2) f = sumZ l1 f + sumZ l2 f.
Proof. induction l1 as [|x l IH]; cbn [sumZ app]; lia. Qed.
Lemma sumZ_perm l1 l2 f : Permutation l1 l2 -> sumZ l1 f = sumZ l2 f.
Proof. intros P. induction P; cbn [sumZ]; lia. Qed.
Lemma sumZ_filter (S : A -> bool) l f : sumZ l f = sumZ (filter S l) f + sumZ (filter (fun x => negb (S x)) l) f.
Proof. induction l as [|x l IH]; cbn [sumZ filter]; [reflexivity|]. destruct (S x); cbn [negb sumZ]; lia. Qed.
Lemma sumZ_map {B} (m : B -> A) (l : list B) f : sumZ (map m l) f = sumZ l (fun x => f (m x)).
Proof. induction l as [|x l IH]; cbn [sumZ map]; [reflexivity|]. rewrite IH. reflexivity. Qed.
Lemma sumZ_flat_map {B} (m : B -> list A) (l : list B) f : sumZ (flat_map m l) f = sumZ l (fun x => sumZ (m x) f).
Proof. induction l as [|x l IH]; cbn [sumZ flat_map]; [reflexivity|]. rewrite sumZ_app, IH. reflexivity. Qed.
Lemma sumZ_pos_ex l f : 0 < sumZ l f -> exists x, In x l /\ 0 < f x.
Proof. induction l as [|x l IH]; cbn [sumZ]; [lia|]. intros H. destruct (Z.ltb_spec 0 (f x)) as [h|h]; [exists x; cbn; auto|].
  destruct IH as (y & Hy & Hp); [lia|]. exists y. cbn; auto. Qed.
End Sum.
Lemma sumZ_swap {A B} (l : list A) (m : list B) (f : A -> B -> Z) : sumZ l (fun x => sumZ m (fun y => f x y)) = sumZ m (fun y => sumZ l (fun x => f x y)).
Proof. induction l as [|x l IH]; cbn [sumZ].
  - symmetry. apply sumZ_0. auto.
  - rewrite IH, <- sumZ_plus. reflexivity. Qed.

Section Ind.
Context {A : Type} {EA : EqDec A}.
Implicit Types (x y a b : A) (l p : list A).
Definition ind1 a x : Z := if eq_dec a x then 1 else 0.
Lemma sumZ_ind1 l a : NoDup l -> sumZ l (ind1 a) = if mem a l then 1 else 0.
Proof. induction l as [|x l IH]; intros H; cbn [sumZ mem]; [reflexivity|]. apply NoDup_cons_iff in H. destruct H as [Hx Hn]. rewrite (IH Hn). unfold ind1.
  destruct (eq_dec a x) as [->|h]; [|destruct (mem a l); reflexivity]. apply mem_notIn in Hx. rewrite Hx. reflexivity. Qed.
Lemma sumZ_ind1_in l a : NoDup l -> In a l -> sumZ l (ind1 a) = 1.
Proof. intros H Hi. rewrite sumZ_ind1 by exact H. apply mem_In in Hi. rewrite Hi. reflexivity. Qed.
(** how often the walk p takes the step x -> y *)
Fixpoint steps_of p x y : Z :=
  match p with
  | a :: ((b :: _) as t) => ind1 a x * ind1 b y + steps_of t x y
  | _ => 0
  end.
Fixpoint occ x l : Z := match l with [] => 0 | y :: t => ind1 y x + occ x t end.
Lemma steps_of_out N p x : NoDup N -> incl p N -> sumZ N (fun y => steps_of p x y) = occ x (removelast p).
Proof. intros HN. induction p as [|a p IH]; intros Hi; [apply sumZ_0; auto|]. destruct p as [|b p]; [apply sumZ_0; auto|].
  change (removelast (a :: b :: p)) with (a :: removelast (b :: p)). cbn [occ]. rewrite <- IH by (intros z Hz; apply Hi; cbn; auto).
  change (fun y => steps_of (a :: b :: p) x y) with (fun y => ind1 a x * ind1 b y + steps_of (b :: p) x y). rewrite sumZ_plus, sumZ_scale, sumZ_ind1_in; [rewrite Z.mul_1_r; reflexivity|exact HN|apply Hi; cbn; auto]. Qed.
Lemma steps_of_in N p y : NoDup N -> incl p N -> sumZ N (fun x => steps_of p x y) = occ y (tl p).
Proof. intros HN. induction p as [|a p IH]; intros Hi; [apply sumZ_0; auto|]. destruct p as [|b p]; [apply sumZ_0; auto|].
  change (tl (a :: b :: p)) with (b :: tl (b :: p)). cbn [occ]. rewrite <- IH by (intros z Hz; apply Hi; cbn; auto).
  rewrite (sumZ_ext N _ (fun x => ind1 b y * ind1 a x + steps_of (b :: p) x y)) by (intros z _; change (steps_of (a :: b :: p) z y) with (ind1 a z * ind1 b y + steps_of (b :: p) z y); ring).
  rewrite sumZ_plus, sumZ_scale, sumZ_ind1_in; [rewrite Z.mul_1_r; reflexivity|exact HN|apply Hi; cbn; auto]. Qed.
Lemma occ_NoDup x l : NoDup l -> occ x l = if mem x l then 1 else 0.
Proof. induction l as [|y l IH]; intros H; cbn [occ mem]; [reflexivity|]. apply NoDup_cons_iff in H. destruct H as [Hy Hn]. rewrite (IH Hn). unfold ind1.
  destruct (eq_dec y x) as [->|h].
  - destruct (eq_dec x x); [|congruence]. apply mem_notIn in Hy. rewrite Hy. reflexivity.
  - destruct (eq_dec x y); [congruence|]. destruct (mem x l); reflexivity. Qed.
Lemma steps_of_nonneg p x y : 0 <= steps_of p x y.
Proof. induction p as [|a p IH]; [cbn; lia|]. destruct p as [|b p]; [cbn; lia|].
  change (0 <= ind1 a x * ind1 b y + steps_of (b :: p) x y). unfold ind1. destruct (eq_dec a x), (eq_dec b y); lia. Qed.
Lemma steps_of_notIn p x y : ~ In x p -> steps_of p x y = 0.
Proof. induction p as [|a p IH]; intros H; [reflexivity|]. destruct p as [|b p]; [reflexivity|].
  change (ind1 a x * ind1 b y + steps_of (b :: p) x y = 0). rewrite IH by (intros C; apply H; cbn; auto). unfold ind1. destruct (eq_dec a x) as [->|h]; [|lia]. exfalso. apply H. cbn; auto. Qed.
Lemma steps_of_le1 p x y : NoDup p -> steps_of p x y <= 1.
Proof. induction p as [|a p IH]; intros H; [cbn; lia|]. destruct p as [|b p]; [cbn; lia|]. apply NoDup_cons_iff in H. destruct H as [Ha Hn].
  change (ind1 a x * ind1 b y + steps_of (b :: p) x y <= 1). unfold ind1. destruct (eq_dec a x) as [->|h].
  - rewrite steps_of_notIn by exact Ha. destruct (eq_dec b y); lia.
  - specialize (IH Hn). lia. Qed.
(** a simple path from s to e takes one step out of each of its nodes but e and one into each but s *)
Lemma simple_balance N p R s e : NoDup N -> incl p N -> simple_path R s p e -> s <> e ->
  sumZ N (fun y => steps_of p s y) = 1 /\ sumZ N (fun y => steps_of p y s) = 0 /\
  sumZ N (fun y => steps_of p e y) = 0 /\ sumZ N (fun y => steps_of p y e) = 1 /\
  forall x, x <> s -> x <> e -> sumZ N (fun y => steps_of p x y) = sumZ N (fun y => steps_of p y x).
Proof. intros HN Hi [HP Hn] Hse. destruct (path_head _ _ _ _ HP) as (t & ->).
  destruct (list_eq_dec eq_dec t []) as [->|Ht]; [apply path_inv1 in HP; destruct HP; congruence|].
  assert (exists m, t = m ++ [e]) as (m & ->).
  { exists (removelast t). pose proof (path_last _ _ _ _ s HP) as HL. destruct t as [|b t]; [congruence|]. change (last (b :: t) s = e) in HL.
    rewrite <- HL. apply app_removelast_last. discriminate. }
  assert (removelast (s :: m ++ [e]) = s :: m) as Er by (change (s :: m ++ [e]) with ((s :: m) ++ [e]); apply removelast_last).
  rewrite !steps_of_out, !steps_of_in by (auto). rewrite Er. cbn [tl].
  change (s :: m ++ [e]) with ((s :: m) ++ [e]) in Hn. pose proof Hn as Hn'. apply NoDup_app_iff in Hn'. destruct Hn' as (H1 & _ & H2).
  cbn [app] in Hn. apply NoDup_cons_iff in Hn. destruct Hn as [H3 H4].
  rewrite !occ_NoDup by assumption. splits.
  - cbn [mem]. destruct (eq_dec s s); [reflexivity|congruence].
  - apply mem_notIn in H3. rewrite H3. reflexivity.
  - assert (~ In e (s :: m)) as He by (intros C; apply (H2 e C); cbn; auto). apply mem_notIn in He. rewrite He. reflexivity.
  - assert (In e (m ++ [e])) as He by (apply in_app_iff; cbn; auto). apply mem_In in He. rewrite He. reflexivity.
  - intros x Hxs Hxe. rewrite steps_of_out, steps_of_in, Er by auto. cbn [tl]. rewrite !occ_NoDup by assumption.
    destruct (mem_spec x (s :: m)) as [h|h], (mem_spec x (m ++ [e])) as [k|k]; try reflexivity; exfalso.
    + apply k, in_app_iff. destruct h as [h|h]; [congruence|auto].
    + apply h. apply in_app_iff in k. destruct k as [k|[k|[]]]; [cbn; auto|congruence]. Qed.
(** the steps of a path are edges *)
Lemma steps_of_pos R a p b x y : path R a p b -> 0 < steps_of p x y -> R x y.
Proof. intros HP. induction HP as [|a b p c Hab Hp IH]; [cbn; lia|]. destruct (path_head _ _ _ _ Hp) as (t & ->).
  change (0 < ind1 a x * ind1 b y + steps_of (b :: t) x y -> R x y). unfold ind1. destruct (eq_dec a x) as [->|h]; [destruct (eq_dec b y) as [->|k]|]; [intros _; exact Hab| |]; intros H; apply IH; lia. Qed.
End Ind.

Section Cut.
Context {A O : Type} {EA : EqDec A}.
Notation graph := (graph A O Z).
Implicit Types (g : graph) (x y s e : A) (f : A -> A -> Z).

(** a flow never exceeds the capacity of a cut *)
Lemma flow_le_cut g s e f v (S0 : A -> bool) : wf g -> In s (nodes g) -> is_flow g s e f v -> S0 s = true -> S0 e = false -> v <= cut_capacity g S0.
Proof. intros W Hs (H1 & H2 & H3) Hss Hse. set (N := nodes g) in *.
  assert (v = sumZ (filter S0 N) (fun x => outflow g f x - inflow g f x)) as Ev.
  { rewrite (sumZ_ext (filter S0 N) _ (fun x => v * ind1 s x)).
    - rewrite sumZ_scale, sumZ_ind1_in; [lia|apply NoDup_filter, W|apply filter_In; auto].
    - intros x Hx. apply filter_In in Hx. destruct Hx as [Hx HS]. unfold ind1. destruct (eq_dec s x) as [<-|h]; [lia|].
      rewrite H2; [lia|apply contains_In, Hx|congruence|intros ->; congruence]. }
  rewrite Ev, sumZ_minus. unfold outflow, inflow. fold N.
  set (I := filter S0 N). set (J := filter (fun x => negb (S0 x)) N).
  assert (sumZ I (fun x => sumZ N (fun y => f x y)) = sumZ I (fun x => sumZ I (fun y => f x y)) + sumZ I (fun x => sumZ J (fun y => f x y))) as E1.
  { rewrite <- sumZ_plus. apply sumZ_ext. intros x _. apply (sumZ_filter S0). }
  assert (sumZ I (fun x => sumZ N (fun y => f y x)) = sumZ I (fun x => sumZ I (fun y => f y x)) + sumZ I (fun x => sumZ J (fun y => f y x))) as E2.
  { rewrite <- sumZ_plus. apply sumZ_ext. intros x _. apply (sumZ_filter S0). }
  assert (sumZ I (fun x => sumZ I (fun y => f y x)) = sumZ I (fun x => sumZ I (fun y => f x y))) as E3 by apply sumZ_swap.
  assert (0 <= sumZ I (fun x => sumZ J (fun y => f y x))) as E4 by (apply sumZ_nonneg; intros x _; apply sumZ_nonneg; intros y _; apply H1).
  assert (sumZ I (fun x => sumZ J (fun y => f x y)) <= cut_capacity g S0) as E5 by (apply sumZ_le; intros x _; apply sumZ_le; intros y _; apply H1).
  lia. Qed.

(** sums of edge values *)
Lemma sum_dict (N : list A) (d : dict A Z) : NoDup N -> NoDup (dkeys d) -> incl (dkeys d) N ->
  sumZ N (fun y => match dget y d with Some c => c | None => 0 end) = sumZ d snd.
Proof. intros HN. induction d as [|[k v] d IH]; intros Hk Hi; [apply sumZ_0; auto|]. cbn [dkeys map fst] in Hk, Hi. apply NoDup_cons_iff in Hk. destruct Hk as [Hk1 Hk2].
  cbn [sumZ snd]. rewrite <- IH; [|exact Hk2|intros z Hz; apply Hi; cbn; auto].
  rewrite (sumZ_ext N _ (fun y => v * ind1 k y + match dget y d with Some c => c | None => 0 end)).
  - rewrite sumZ_plus, sumZ_scale, sumZ_ind1_in; [rewrite Z.mul_1_r; reflexivity|exact HN|apply Hi; cbn; auto].
  - intros y _. cbn [dget]. unfold ind1. destruct (eq_dec y k) as [->|h].
    + destruct (eq_dec k k); [|congruence]. apply dget_None in Hk1. rewrite Hk1. lia.
    + destruct (eq_dec k y); [congruence|lia]. Qed.
End Cut.
