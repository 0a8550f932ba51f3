(** Facts about the heap model: every method refines the operation on values and touches no dict of another object. *)
From Verif Require Import Prelude PreludeFacts Base BaseFacts BaseFacts2 BaseFacts3 Spec Heap HeapSpec.

Section Facts.
Context {A O V : Type} {EA : EqDec A} (is_coll : V -> bool).
Notation graph := (Base.graph A O V).
Notation heap := (heap A O V).
Notation prog := (@prog A O V).
Implicit Types (h : heap) (g : gobj) (G : graph) (own : list nat).

Definition frame h h' own own' : Prop :=
  h_next h <= h_next h' /\ (forall x, x < h_next h -> ~ In x own -> h_get h' x = h_get h x) /\
  (forall x, In x own' -> In x own \/ h_next h <= x).
Lemma frame_refl h own : frame h h own own.
Proof. hnf; splits; auto. Qed.
Lemma frame_trans h h1 h2 own own1 own2 : frame h h1 own own1 -> frame h1 h2 own1 own2 -> frame h h2 own own2.
Proof. intros (L1 & F1 & S1) (L2 & F2 & S2). hnf; splits; [lia| |].
  - intros x Hx Hn. rewrite F2; [auto|lia|]. intros Hi. apply S1 in Hi. destruct Hi as [Hi|Hi]; [auto|lia].
  - intros x Hx. apply S2 in Hx. destruct Hx as [Hx|Hx]; [apply S1 in Hx; destruct Hx; [auto|right; lia]|right; lia]. Qed.

(** a dict of dicts: its cell, the cells of its values, all different *)
Definition rep2 h (d : dict A nat) (E : dict A (dict A V)) : Prop :=
  Forall2 (fun p q => fst p = fst q /\ h_get h (snd p) = Some (CInner (snd q))) d E.
Definition orep h (l : nat) (d : dict A nat) (E : dict A (dict A V)) : Prop :=
  h_get h l = Some (COuter d) /\ rep2 h d E /\ NoDup (l :: map snd d) /\ (forall x, In x (l :: map snd d) -> x < h_next h).

Lemma rep2_dget h d E k : rep2 h d E ->
  match dget k d with
  | None => dget k E = None
  | Some i => exists x, dget k E = Some x /\ h_get h i = Some (CInner x) /\ In i (map snd d)
  end.
Proof. induction 1 as [|[a i] [b x] d E [H1 H2] HF IH]; cbn in *; [reflexivity|]. subst b.
  destruct (eq_dec k a) as [->|Hn]; [exists x; auto|]. destruct (dget k d); [|exact IH].
  destruct IH as (x' & H3 & H4 & H5). exists x'. auto. Qed.
Lemma rep2_frame h h' d E : rep2 h d E -> (forall x, In x (map snd d) -> h_get h' x = h_get h x) -> rep2 h' d E.
Proof. induction 1 as [|[a i] [b x] d E [H1 H2] HF IH]; intros He; constructor; cbn in *.
  - rewrite He by auto. auto.
  - apply IH. intros; apply He; auto. Qed.
(** writing the inner dict of key k *)
Lemma rep2_write h d E k i y : rep2 h d E -> NoDup (map snd d) -> dget k d = Some i -> rep2 (hput i (CInner y) h) d (dset k y E).
Proof. induction 1 as [|[a j] [b x] d E [H1 H2] HF IH]; intros Hnd Hg; cbn in *; [discriminate|]. subst b.
  apply NoDup_cons_iff in Hnd. destruct Hnd as [Hn Hnd]. destruct (eq_dec k a) as [->|Hka].
  - injection Hg as ->. constructor; [cbn; rewrite Nat.eqb_refl; auto|].
    apply (rep2_frame h); [exact HF|]. intros z Hz. cbn. destruct (Nat.eqb_spec z i) as [->|]; [contradiction|reflexivity].
  - constructor; [|exact (IH Hnd Hg)]. cbn. split; [reflexivity|]. assert (Hi : In i (map snd d)).
    { pose proof (rep2_dget h d E k HF) as R. rewrite Hg in R. destruct R as (? & _ & _ & R). exact R. }
    destruct (Nat.eqb_spec j i) as [->|]; [contradiction|exact H2]. Qed.
Lemma rep2_dset_new h d E k i y : rep2 h d E -> dget k d = None -> h_get h i = Some (CInner y) -> rep2 h (dset k i d) (dset k y E).
Proof. induction 1 as [|[a j] [b x] d E [H1 H2] HF IH]; intros Hg Hi; cbn in *; [repeat constructor; auto|]. subst b.
  destruct (eq_dec k a) as [->|Hka]; [discriminate|]. constructor; [auto|exact (IH Hg Hi)]. Qed.
Lemma rep2_ddel h d E k : rep2 h d E -> rep2 h (ddel k d) (ddel k E).
Proof. induction 1 as [|[a j] [b x] d E [H1 H2] HF IH]; cbn in *; [constructor|]. subst b.
  destruct (eq_dec k a) as [->|Hka]; [exact HF|]. constructor; [auto|exact IH]. Qed.
Lemma dset_new_vals (d : dict A nat) k i : dget k d = None -> map snd (dset k i d) = map snd d ++ [i].
Proof. induction d as [|[a j] d IH]; cbn; [reflexivity|]. destruct (eq_dec k a); [discriminate|]. intros H. cbn. rewrite IH by exact H. reflexivity. Qed.
Lemma ddel_vals_incl (d : dict A nat) k x : In x (map snd (ddel k d)) -> In x (map snd d).
Proof. induction d as [|[a j] d IH]; cbn; [auto|]. destruct (eq_dec k a); cbn; [auto|]. intros [H|H]; auto. Qed.
Lemma ddel_vals_NoDup (d : dict A nat) k : NoDup (map snd d) -> NoDup (map snd (ddel k d)).
Proof. induction d as [|[a j] d IH]; cbn; [auto|]. intros H. apply NoDup_cons_iff in H. destruct H as [H1 H2].
  destruct (eq_dec k a); [exact H2|]. cbn. constructor; [|auto]. intros Hx. apply ddel_vals_incl in Hx. contradiction. Qed.

(** programs that work on one dict of dicts *)
Definition local {X} (l : nat) (E E' : dict A (dict A V)) (m : prog X) (r : res X) : Prop :=
  forall h d, orep h l d E -> exists h' d', m h = (h', r) /\ orep h' l d' E' /\ frame h h' (l :: map snd d) (l :: map snd d').

Lemma local_write h l d E k i y : orep h l d E -> dget k d = Some i ->
  orep (hput i (CInner y) h) l d (dset k y E) /\ frame h (hput i (CInner y) h) (l :: map snd d) (l :: map snd d).
Proof. intros (H1 & H2 & H3 & H4) Hg. pose proof (rep2_dget h d E k H2) as R. rewrite Hg in R. destruct R as (x & Hx & Hi & Hin).
  pose proof H3 as H3'. apply NoDup_cons_iff in H3'. destruct H3' as [Hl Hnd]. split.
  - hnf; splits; [|apply rep2_write; auto|exact H3|exact H4]. cbn. destruct (Nat.eqb_spec l i) as [->|]; [contradiction|exact H1].
  - hnf; splits; [cbn; lia| |auto]. intros z Hz Hn. cbn. destruct (Nat.eqb_spec z i) as [->|]; [destruct Hn; right; exact Hin|reflexivity]. Qed.
Lemma local_wr_outer h l d E d' E' : orep h l d E -> rep2 h d' E' -> NoDup (map snd d') -> (forall x, In x (map snd d') -> In x (map snd d)) ->
  orep (hput l (COuter d') h) l d' E' /\ frame h (hput l (COuter d') h) (l :: map snd d) (l :: map snd d').
Proof. intros (H1 & H2 & H3 & H4) H2' Hnd Hincl. apply NoDup_cons_iff in H3. destruct H3 as [Hl _]. split.
  - hnf; splits.
    + cbn. rewrite Nat.eqb_refl. reflexivity.
    + apply (rep2_frame h); [exact H2'|]. intros x Hx. cbn. destruct (Nat.eqb_spec x l) as [->|]; [apply Hincl in Hx; contradiction|reflexivity].
    + constructor; [|exact Hnd]. intros Hx. apply Hincl in Hx. contradiction.
    + intros x [<-|Hx]; apply H4; [left; reflexivity|right; auto].
  - hnf; splits; [cbn; lia| |].
    + intros z Hz Hn. cbn. destruct (Nat.eqb_spec z l) as [->|]; [destruct Hn; left; reflexivity|reflexivity].
    + intros x [<-|Hx]; left; [left; reflexivity|right; auto]. Qed.

Lemma rd_outer_eq h l d : h_get h l = Some (COuter d) -> rd_outer l h = (h, Ok d).
Proof. intros H. unfold rd_outer. rewrite H. reflexivity. Qed.
Lemma rd_inner_eq h l d : h_get h l = Some (CInner d) -> rd_inner l h = (h, Ok d).
Proof. intros H. unfold rd_inner. rewrite H. reflexivity. Qed.
Lemma then_ok {X Y} (m : prog X) (k : X -> prog Y) h h' x : m h = (h', Ok x) -> andthen m k h = k x h'.
Proof. intros H. unfold andthen. rewrite H. reflexivity. Qed.
Lemma then_err {X Y} (m : prog X) (k : X -> prog Y) h h' e : m h = (h', Err e) -> andthen m k h = (h', Err e).
Proof. intros H. unfold andthen. rewrite H. reflexivity. Qed.

Lemma hset2_local l E k1 k2 v :
  match dget k1 E with
  | None => local l E E (hset2 l k1 k2 v) (Err KeyError)
  | Some x => local l E (dset k1 (dset k2 v x) E) (hset2 l k1 k2 v) (Ok tt)
  end.
Proof. destruct (dget k1 E) as [x|] eqn:Ex; intros h d Hr; pose proof Hr as (H1 & H2 & H3 & H4); unfold hset2; rewrite (then_ok _ _ h h d (rd_outer_eq h l d H1));
  pose proof (rep2_dget h d E k1 H2) as R; destruct (dget k1 d) as [i|] eqn:Eg.
  - destruct R as (x' & Hx & Hi & Hin). assert (x' = x) by congruence. subst x'. rewrite (then_ok _ _ h h x (rd_inner_eq h i x Hi)).
    destruct (local_write h l d E k1 i (dset k2 v x) Hr Eg) as [Ha Hb]. exists (hput i (CInner (dset k2 v x)) h), d. auto.
  - congruence.
  - destruct R as (x' & Hx & _). congruence.
  - exists h, d. split; [reflexivity|]. split; [exact Hr|apply frame_refl]. Qed.
Lemma hput2_local l E k1 k2 v :
  local l E (match dget k1 E with None => dset k1 [(k2, v)] E | Some x => dset k1 (dset k2 v x) E end) (hput2 l k1 k2 v) (Ok tt).
Proof. intros h d Hr; pose proof Hr as (H1 & H2 & H3 & H4); unfold hput2; rewrite (then_ok _ _ h h d (rd_outer_eq h l d H1));
  pose proof (rep2_dget h d E k1 H2) as R; destruct (dget k1 d) as [i|] eqn:Eg.
  - destruct R as (x & Hx & Hi & Hin). rewrite Hx. rewrite (then_ok _ _ h h x (rd_inner_eq h i x Hi)).
    destruct (local_write h l d E k1 i (dset k2 v x) Hr Eg) as [Ha Hb]. exists (hput i (CInner (dset k2 v x)) h), d. auto.
  - rewrite R. unfold andthen, alloc, write. cbn [fst snd]. set (i := h_next h).
    pose proof H3 as H3'. apply NoDup_cons_iff in H3'. destruct H3' as [Hl Hnd].
    assert (Hli : l <> i) by (specialize (H4 l (or_introl eq_refl)); unfold i; lia).
    set (h1 := mkHeap (S i) (h_get (hput i (CInner [(k2, v)]) h))).
    exists (hput l (COuter (dset k1 i d)) h1), (dset k1 i d). split; [reflexivity|].
    assert (Hvals : map snd (dset k1 i d) = map snd d ++ [i]) by (apply dset_new_vals; exact Eg).
    assert (Hfresh : ~ In i (map snd d)) by (intros Hx; specialize (H4 i (or_intror Hx)); unfold i in H4; lia).
    split.
    + hnf; splits.
      * cbn. rewrite Nat.eqb_refl. reflexivity.
      * apply rep2_dset_new; [|exact Eg|].
        -- apply (rep2_frame h); [exact H2|]. intros x Hx. cbn. destruct (Nat.eqb_spec x l) as [->|]; [contradiction|].
           destruct (Nat.eqb_spec x i) as [->|]; [contradiction|reflexivity].
        -- cbn. destruct (Nat.eqb_spec i l) as [->|]; [contradiction|]. rewrite Nat.eqb_refl. reflexivity.
      * rewrite Hvals. constructor; [rewrite in_app_iff; cbn; intros [?|[?|[]]]; [contradiction|congruence]|].
        apply NoDup_app_iff. splits; [exact Hnd|repeat constructor; auto|]. intros x Hx [<-|[]]. contradiction.
      * rewrite Hvals. cbn [h_next hput h1]. intros x [<-|Hx]; [specialize (H4 l (or_introl eq_refl)); unfold i; lia|].
        apply in_app_iff in Hx. destruct Hx as [Hx|[<-|[]]]; [specialize (H4 x (or_intror Hx)); unfold i; lia|lia].
    + hnf; splits.
      * cbn. unfold i. lia.
      * intros x Hx Hn. cbn. destruct (Nat.eqb_spec x l) as [->|]; [destruct Hn; left; reflexivity|].
        destruct (Nat.eqb_spec x i) as [->|]; [unfold i in Hx; lia|reflexivity].
      * rewrite Hvals. intros x [<-|Hx]; [left; left; reflexivity|]. apply in_app_iff in Hx. destruct Hx as [Hx|[<-|[]]]; [left; right; exact Hx|right; unfold i; lia]. Qed.
Lemma dmem_dget {X} (k : A) (d : dict A X) : dmem k d = match dget k d with Some _ => true | None => false end.
Proof. unfold dmem, dkeys. induction d as [|[a x] d IH]; cbn; [reflexivity|]. destruct (eq_dec k a); [reflexivity|exact IH]. Qed.
Lemma hdel2_local l E k1 k2 :
  match dget k1 E with
  | Some x => match dget k2 x with
              | Some _ => local l E (dset k1 (ddel k2 x) E) (hdel2 l k1 k2) (Ok tt)
              | None => local l E E (hdel2 l k1 k2) (Err KeyError) end
  | None => local l E E (hdel2 l k1 k2) (Err KeyError)
  end.
Proof. destruct (dget k1 E) as [x|] eqn:Ex; [destruct (dget k2 x) eqn:Ex2|]; intros h d Hr; pose proof Hr as (H1 & H2 & H3 & H4); unfold hdel2; rewrite (then_ok _ _ h h d (rd_outer_eq h l d H1));
  pose proof (rep2_dget h d E k1 H2) as R; destruct (dget k1 d) as [i|] eqn:Eg; try congruence; try (destruct R as (x' & Hx & Hi & Hin); try congruence; assert (x' = x) by congruence; subst x'; rewrite (then_ok _ _ h h x (rd_inner_eq h i x Hi)), dmem_dget, Ex2).
  - destruct (local_write h l d E k1 i (ddel k2 x) Hr Eg) as [Ha Hb]. exists (hput i (CInner (ddel k2 x)) h), d. auto.
  - exists h, d. split; [reflexivity|]. split; [exact Hr|apply frame_refl].
  - exists h, d. split; [reflexivity|]. split; [exact Hr|apply frame_refl]. Qed.
Lemma hprune_local l E k x : dget k E = Some x -> local l E (if is_nil x then ddel k E else E) (hprune l k) (Ok tt).
Proof. intros Ex h d Hr; pose proof Hr as (H1 & H2 & H3 & H4); unfold hprune; rewrite (then_ok _ _ h h d (rd_outer_eq h l d H1));
  pose proof (rep2_dget h d E k H2) as R; destruct (dget k d) as [i|] eqn:Eg; [|congruence].
  destruct R as (x' & Hx & Hi & Hin). assert (x' = x) by congruence. subst x'. rewrite (then_ok _ _ h h x (rd_inner_eq h i x Hi)).
  destruct (is_nil x).
  - exists (hput l (COuter (ddel k d)) h), (ddel k d). split; [reflexivity|]. apply (local_wr_outer h l d E); auto.
    + apply rep2_ddel. exact H2.
    + apply ddel_vals_NoDup. apply NoDup_cons_iff in H3. apply H3.
    + intros y. apply ddel_vals_incl.
  - exists h, d. split; [reflexivity|]. split; [exact Hr|apply frame_refl]. Qed.
Lemma hkeys2_local l E k x : dget k E = Some x -> local l E E (hkeys2 l k) (Ok (dkeys x)).
Proof. intros Ex h d Hr; pose proof Hr as (H1 & H2 & H3 & H4); unfold hkeys2; rewrite (then_ok _ _ h h d (rd_outer_eq h l d H1));
  pose proof (rep2_dget h d E k H2) as R; destruct (dget k d) as [i|] eqn:Eg; [|congruence].
  destruct R as (x' & Hx & Hi & Hin). assert (x' = x) by congruence. subst x'. rewrite (then_ok _ _ h h x (rd_inner_eq h i x Hi)).
  exists h, d. split; [reflexivity|]. split; [exact Hr|apply frame_refl]. Qed.
Lemma hdrop_local l E k : local l E (ddel k E) (x <~ rd_outer l ; write l (COuter (ddel k x))) (Ok tt).
Proof. intros h d Hr; pose proof Hr as (H1 & H2 & H3 & H4). rewrite (then_ok _ _ h h d (rd_outer_eq h l d H1)).
  exists (hput l (COuter (ddel k d)) h), (ddel k d). split; [reflexivity|]. apply (local_wr_outer h l d E); auto.
  - apply rep2_ddel. exact H2.
  - apply ddel_vals_NoDup. apply NoDup_cons_iff in H3. apply H3.
  - intros y. apply ddel_vals_incl. Qed.
End Facts.
