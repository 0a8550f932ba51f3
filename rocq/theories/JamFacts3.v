(** Facts about the traffic jam solver: initial state, input check, the whole solver *)
From Verif Require Import Prelude PreludeFacts Base BaseFacts BaseFacts2 BaseFacts3 Spec SpecFacts Loop SearchFacts BaseAlgFacts
  MaxFlowFacts HashFacts Sp SpFacts Bfs BfsFacts Fw DmFacts TrafficSpec Traffic TrafficFacts Jam JamFacts JamFacts2.

Lemma Forall2_length {X Y} (R : X -> Y -> Prop) l m : Forall2 R l m -> length l = length m.
Proof. intros H. induction H; cbn; congruence. Qed.
(** ** itertools.product *)
Section Product.
Context {X : Type}.
Lemma In_product (ls : list (list X)) : forall c, In c (product ls) <-> Forall2 (fun x l => In x l) c ls.
Proof. induction ls as [|l ls IH]; intros c; cbn.
  - split; [intros [<-|[]]; constructor|intros H; inversion H; auto].
  - rewrite in_flat_map. split.
    + intros (x & Hx & H). apply in_map_iff in H. destruct H as (c' & <- & H). constructor; [exact Hx|apply IH, H].
    + intros H. inversion H as [|x ? c' ? Hx Hc]; subst. exists x. split; [exact Hx|]. apply in_map, IH, Hc. Qed.
Lemma NoDup_flat_map_cons (l : list X) (p : list (list X)) : NoDup l -> NoDup p -> NoDup (flat_map (fun x => map (cons x) p) l).
Proof. intros Hl Hp. induction l as [|x l IH]; cbn; [constructor|]. apply NoDup_cons_iff in Hl. destruct Hl as [H1 H2]. apply NoDup_app_iff. splits.
  - apply FinFun.Injective_map_NoDup; [intros a b E; congruence|exact Hp].
  - apply IH, H2.
  - intros c Hc C. apply in_map_iff in Hc. destruct Hc as (c1 & <- & _). apply in_flat_map in C. destruct C as (y & Hy & C). apply in_map_iff in C. destruct C as (c2 & E & _). inversion E; subst. contradiction. Qed.
Lemma NoDup_product (ls : list (list X)) : (forall l, In l ls -> NoDup l) -> NoDup (product ls).
Proof. induction ls as [|l ls IH]; intros H; cbn; [constructor; [intros []|constructor]|]. apply NoDup_flat_map_cons; [apply H; left; reflexivity|]. apply IH. intros l' Hl'. apply H. right. exact Hl'. Qed.
Lemma set_of_length_iff {EX : EqDec X} (l : list X) : length (set_of l) = length l <-> NoDup l.
Proof. split; intros H.
  - apply (NoDup_incl_NoDup (NoDup_set_of l)); [lia|]. intros x Hx. apply In_set_of, Hx.
  - apply Nat.le_antisymm; apply NoDup_incl_length; [apply NoDup_set_of|intros x; apply In_set_of|exact H|intros x; apply In_set_of]. Qed.
Lemma fst_combine {Y} (a : list Y) : forall b : list X, length a = length b -> map fst (combine a b) = a /\ map snd (combine a b) = b.
Proof. induction a as [|x a IH]; intros [|y b] E; cbn in *; try discriminate; [auto|]. destruct (IH b) as [H1 H2]; [lia|]. rewrite H1, H2. auto. Qed.
Lemma combine_fst_snd {Y} (s : list (Y * X)) : combine (map fst s) (map snd s) = s.
Proof. induction s as [|[a b] s IH]; cbn; [reflexivity|]. rewrite IH. reflexivity. Qed.
End Product.

Section Init.
Context {L N O : Type} {EL : EqDec L} {EN : EqDec N}.
Notation graph := (graph N O Z).
Notation state := (list (L * N)).
Context (ordN : list N -> list N) (HordN : forall l, Permutation (ordN l) l) (srt : list (Z * N) -> list (Z * N)) (g : graph) (W : wf g) (all : dict L (load N)) (Hall : NoDup (dkeys all)).
Context (Hst : forall l ld, dget l all = Some ld -> In (ld_start ld) (nodes g)).
Context (Hen : forall l ld x, dget l all = Some ld -> In x (ld_ends ld) -> In x (nodes g)).
Context (Hnd : forall l ld, dget l all = Some ld -> NoDup (ld_ends ld) /\ ld_ends ld <> []).

Lemma In_end_states s : In s (end_states ordN all) <-> goal all s.
Proof. unfold end_states. rewrite in_map_iff. split.
  - intros (c & <- & H). apply filter_In in H. destruct H as [H1 H2]. apply Nat.eqb_eq in H2. apply In_product in H1. pose proof (Forall2_length _ _ _ H1) as E. rewrite map_length in E.
    destruct (fst_combine (dkeys all) c) as [F1 F2]; [unfold dkeys; rewrite map_length; lia|]. hnf; splits; [exact F1| |].
    + unfold dvals. rewrite F2. apply set_of_length_iff. lia.
    + intros l a Hla. clear H2 F1 F2 E. assert (exists ld, In (l, ld) all /\ In a (ld_ends ld)) as (ld & K1 & K2).
      { clear Hall Hst Hen Hnd. revert c H1 Hla. induction all as [|[k ld] t IH]; intros c H1 Hla; cbn in *; [destruct Hla|]. inversion H1 as [|x ? c' ? Hx Hc]; subst. cbn in Hla. destruct Hla as [E|Hla].
        - inversion E; subst. exists ld. split; [auto|]. apply (Permutation_in _ (HordN _)), Hx.
        - destruct (IH c' Hc Hla) as (ld' & ? & ?). eauto. }
      exists ld. split; [apply In_dget; auto|exact K2].
  - intros (H1 & H2 & H3). exists (dvals s). split; [rewrite <- H1; apply combine_fst_snd|]. apply filter_In. split.
    + apply In_product. clear H2 Hst Hen Hnd. assert (forall l a, In (l, a) s -> exists ld, In (l, ld) all /\ dget l all = Some ld /\ In a (ld_ends ld)) as H by (intros l a Hla; destruct (H3 l a Hla) as (ld & Hl & He); exists ld; splits; auto; apply dget_In, Hl). clear H3.
      revert s H1 H. revert Hall. induction all as [|[k ld] t IH]; intros D s H1 H; destruct s as [|[k' a] s]; cbn in H1; try discriminate; cbn; [constructor|]. inversion H1; subst k'. cbn in D. apply NoDup_cons_iff in D. destruct D as [D1 D2]. constructor.
      * destruct (H k a (or_introl eq_refl)) as (ld' & _ & E & Ha). cbn in E. destruct (eq_dec k k); [|congruence]. inversion E; subst. apply (Permutation_in _ (Permutation_sym (HordN _))), Ha.
      * apply IH; [exact D2|assumption|]. intros l b Hl. destruct (H l b (or_intror Hl)) as (ld' & K1 & K2 & K3). assert (l <> k) as Hlk. { intros ->. apply D1. change (In k (map fst t)) . match goal with K : map fst s = map fst t |- _ => rewrite <- K end. apply in_map_iff. exists (k, b). auto. }
        cbn in K2. destruct (eq_dec l k); [congruence|]. exists ld'. splits; auto. apply dget_In, K2.
    + apply Nat.eqb_eq. apply set_of_length_iff in H2. rewrite H2. unfold dvals. rewrite map_length. rewrite <- (dkeys_length s), <- (dkeys_length all), H1. reflexivity. Qed.
Lemma NoDup_end_states : NoDup (end_states ordN all).
Proof. unfold end_states. assert (NoDup (filter (fun combo => length (set_of combo) =? length all) (product (map (fun x => ordN (ld_ends (snd x))) all)))) as D.
  { apply NoDup_filter', NoDup_product. intros l Hl. apply in_map_iff in Hl. destruct Hl as ([k ld] & <- & Hk). cbn. apply (Permutation_NoDup (Permutation_sym (HordN _))). apply (Hnd k). apply In_dget; auto. }
  assert (forall c, In c (filter (fun combo => length (set_of combo) =? length all) (product (map (fun x => ordN (ld_ends (snd x))) all))) -> length (dkeys all) = length c) as Hlen.
  { intros c Hc. apply filter_In in Hc. destruct Hc as [Hc _]. apply In_product, Forall2_length in Hc. rewrite map_length in Hc. unfold dkeys. rewrite map_length. lia. }
  revert D Hlen. generalize (filter (fun combo => length (set_of combo) =? length all) (product (map (fun x => ordN (ld_ends (snd x))) all))) as cs. intros cs D Hlen.
  induction D as [|c cs D1 D2 IH]; cbn; [constructor|]. constructor; [|apply IH; intros c' Hc'; apply Hlen; right; exact Hc'].
  intros C. apply in_map_iff in C. destruct C as (c' & E & Hc'). destruct (fst_combine (dkeys all) c) as [_ F1]; [apply Hlen; left; reflexivity|]. destruct (fst_combine (dkeys all) c') as [_ F2]; [apply Hlen; right; exact Hc'|].
  apply D1. replace c with c' by congruence. exact Hc'. Qed.

Lemma fold_dset_keys (es : list (entry L N)) : forall d, NoDup (dkeys d ++ map e_loads es) -> fold_left (fun d x => dset (e_loads x) x d) es d = d ++ map (fun x => (e_loads x, x)) es.
Proof. induction es as [|e es IH]; intros d D; cbn; [rewrite app_nil_r; reflexivity|]. cbn in D. apply NoDup_remove in D as D'. destruct D' as [D1 D2]. rewrite dset_notin by (intros C; apply D2, in_app_iff; auto).
  rewrite IH; [rewrite <- app_assoc; reflexivity|]. unfold dkeys. rewrite map_app. cbn. rewrite <- app_assoc. exact D. Qed.

Lemma dms_spec : exists dms, returns (fun n => foldM (fun d (x : L * load N) => m <- distance_map ordN n g None (Some (ordN (ld_ends (snd x)))) true ;; Ok (dset (fst x) m d)) all []) (Ok dms) /\
  forall l, In l (dkeys all) -> exists m, dget l dms = Some m /\ m <> [].
Proof. assert (forall ls d0, incl ls all -> exists dms, returns (fun n => foldM (fun d (x : L * load N) => m <- distance_map ordN n g None (Some (ordN (ld_ends (snd x)))) true ;; Ok (dset (fst x) m d)) ls d0) (Ok dms) /\
    forall l, (In l (dkeys ls) \/ exists m, dget l d0 = Some m /\ m <> []) -> exists m, dget l dms = Some m /\ m <> []) as G.
  2: { destruct (G all [] (incl_refl _)) as (dms & H1 & H2). exists dms. split; [exact H1|]. auto. }
  induction ls as [|[k ld] ls IH]; intros d0 Hi.
  - exists d0. split; [apply returns_const; discriminate|]. intros l [[]|H]; exact H.
  - assert (dget k all = Some ld) as Hk by (apply In_dget; [exact Hall|apply Hi; left; reflexivity]).
    destruct (distance_map_reverse g ordN (ordN (ld_ends ld)) None W HordN) as (m & Hr & (_ & _ & Hm & _)).
    { intros x Hx. apply (Permutation_in _ (HordN _)) in Hx. apply (Hen k ld x Hk Hx). } { discriminate. }
    assert (m <> []) as Hne. { destruct (Hnd k ld Hk) as [_ He]. destruct (ld_ends ld) as [|e t] eqn:Ee; [congruence|]. specialize (Hm e e).
      assert (In e (dkeys m)) as C; [|intros ->; destruct C]. apply Hm; [apply (Permutation_in _ (Permutation_sym (HordN _))); left; reflexivity|apply reach_refl|exact Logic.I]. }
    destruct (IH (dset k m d0)) as (dms & Hd & Hdm); [intros x Hx; apply Hi; right; exact Hx|]. exists dms. split.
    + cbn [foldM fst snd]. refine (returns_bind _ (fun n x => foldM _ ls x) (dset k m d0) (Ok dms) _ Hd). apply (returns_bind_ok _ (fun m => dset k m d0) m Hr).
    + intros l Hl. apply Hdm. rewrite dget_dset. destruct (eq_dec l k) as [->|Hne']; [right; eauto|]. destruct Hl as [[C|Hl]|Hl]; [cbn in C; congruence|auto|auto]. Qed.

Lemma S0_keys : dkeys (S0 all) = dkeys all.
Proof. unfold S0, dkeys. rewrite map_map. reflexivity. Qed.
Lemma In_S0 l a : In (l, a) (S0 all) -> exists ld, dget l all = Some ld /\ a = ld_start ld.
Proof. intros H. apply in_map_iff in H. destruct H as ([k ld] & E & H). inversion E; subst. exists ld. split; [apply In_dget; auto|reflexivity]. Qed.
Lemma init_inv : let finals := end_states ordN all in let e0 := mkE (S0 all) 0%Z Inf in let ends := map (fun s => mkE s 0%Z Inf) finals in
  Inv2 srt g all finals (mkJ (add_node empty_graph (S0 all) None) (mkH [e0] [(S0 all, e0)] []) (mkH ends (fold_left (fun d x => dset (e_loads x) x d) ends []) []) Inf false).
Proof. intros finals e0 ends. assert (map e_loads ends = finals) as Em by (subst ends; rewrite map_map; apply map_id).
  assert (fold_left (fun d x => dset (e_loads x) x d) ends [] = map (fun x => (e_loads x, x)) ends) as Ef. { rewrite fold_dset_keys; [reflexivity|]. cbn. rewrite Em. apply NoDup_end_states. }
  hnf; splits; [|intros x o []|intros x o []]. hnf; splits; [reflexivity| | |]; cbn [j_mov j_self j_other].
  - hnf; splits; [apply reachable_add_node, reachable_empty|rewrite nodes_add_node; apply In_sadd; auto|]. intros s s' d C. rewrite edge_add_node in C. discriminate.
  - constructor; unfold qs; cbn.
    + constructor; [intros []|constructor].
    + constructor; [intros []|constructor].
    + tauto.
    + intros x e. destruct (eq_dec x (S0 all)) as [->|]; [|discriminate]. intros E. inversion E. reflexivity.
    + auto.
    + intros x [[<-|[]]|[]]. hnf; splits; [apply S0_keys| |discriminate]. intros l a Hla. apply In_S0 in Hla. destruct Hla as (ld & Hl & ->). split; [apply (Hst l ld Hl)|]. exists ld. auto.
    + intros x [[<-|[]]|[]]. apply reach_refl.
    + intros x ->. auto.
  - constructor; unfold qs; cbn [h_queue h_edge h_visited negb]; rewrite ?Em.
    + apply NoDup_end_states.
    + rewrite Ef. unfold dkeys. rewrite map_map. cbn. change (map (fun x => e_loads x) ends) with (map e_loads ends). rewrite Em. apply NoDup_end_states.
    + intros x. rewrite Ef. unfold dkeys. rewrite map_map. cbn. change (map (fun x => e_loads x) ends) with (map e_loads ends). rewrite Em. tauto.
    + intros x e H. rewrite Ef in H. apply dget_In, in_map_iff in H. destruct H as (y & E & _). inversion E. reflexivity.
    + auto.
    + intros x [Hx|[]]. apply In_end_states in Hx. destruct Hx as (G1 & G2 & G3). hnf; splits; auto. intros l a Hla. destruct (G3 l a Hla) as (ld & Hl & He). split; [apply (Hen l ld a Hl He)|]. exists ld. auto.
    + intros x [Hx|[]]. exists x. split; [exact Hx|apply reach_refl].
    + auto. Qed.
End Init.
