(** shortest_tree_all_pairs: proofs. *)
From Coq Require Import Sorted.
From Verif Require Import Prelude PreludeFacts Base BaseFacts BaseFacts2 BaseFacts3 Spec SpecFacts Loop SearchFacts BaseAlgFacts SpFacts Fw FwFacts.
Local Open Scope Z_scope.

Section T.
Context {A O : Type} {EA : EqDec A}.
Notation graph := (graph A O Z).
Implicit Types (g : graph) (x y v : A).

Lemma tree_start_spec (vs : list A) (f : A -> A -> ext) (tot : A -> ext) l : (forall v, tot v = ext_sum (dvals (map (fun v3 => (v3, f v v3)) vs))) ->
  forall best, match fold_left (fun best p => if ext_ltb (ext_sum (dvals (snd p))) Inf then Some (fst p) else best)
    (map (fun v1 => (v1, map (fun v3 => (v3, f v1 v3)) vs)) l) best with
  | Some s => (best = Some s /\ forall v, In v l -> tot v = Inf) \/
              exists l1 l2, l = l1 ++ s :: l2 /\ tot s <> Inf /\ forall v, In v l2 -> tot v = Inf
  | None => best = None /\ forall v, In v l -> tot v = Inf
  end.
Proof. intros Ht. induction l as [|v l IH]; intros best; cbn [map fold_left].
  - destruct best; [left|]; split; auto; intros v [].
  - cbn [fst snd]. rewrite <- Ht. destruct (tot v) as [z|] eqn:E; cbn [ext_ltb].
    + specialize (IH (Some v)). destruct (fold_left _ _ (Some v)) as [s|] eqn:EF.
      * right. destruct IH as [[Eq H]|(l1 & l2 & -> & H1 & H2)].
        -- inv Eq. exists [], l. splits; auto. congruence.
        -- exists (v :: l1), l2. splits; auto.
      * destruct IH; discriminate.
    + specialize (IH best). destruct (fold_left _ _ best) as [s|] eqn:EF.
      * destruct IH as [[-> H]|(l1 & l2 & -> & H1 & H2)].
        -- left. split; auto. intros u [<-|Hu]; auto.
        -- right. exists (v :: l1), l2. splits; auto.
      * destruct IH as [-> H]. split; auto. intros u [<-|Hu]; auto. Qed.

Lemma invert_spec (h : A -> ext) l : NoDup l ->
  NoDup (dkeys (invert (map (fun v => (v, h v)) l))) /\
  (forall d, In d (dkeys (invert (map (fun v => (v, h v)) l))) <-> exists x, In x l /\ h x = d) /\
  (forall d s, dget d (invert (map (fun v => (v, h v)) l)) = Some s -> NoDup s /\ forall x, In x s <-> In x l /\ h x = d).
Proof. unfold invert. intros Hl.
  assert (forall todo done inv, NoDup (done ++ todo) -> NoDup (dkeys inv) -> (forall d, In d (dkeys inv) <-> exists x, In x done /\ h x = d) ->
    (forall d s, dget d inv = Some s -> NoDup s /\ forall x, In x s <-> In x done /\ h x = d) ->
    let inv' := fold_left (fun inv p => dset (snd p) (sadd (fst p) (match dget (snd p) inv with Some s => s | None => [] end)) inv) (map (fun v => (v, h v)) todo) inv in
    NoDup (dkeys inv') /\ (forall d, In d (dkeys inv') <-> exists x, In x (done ++ todo) /\ h x = d) /\
    (forall d s, dget d inv' = Some s -> NoDup s /\ forall x, In x s <-> In x (done ++ todo) /\ h x = d)) as H.
  { induction todo as [|v todo IH]; intros done inv Hnd H1 H2 H3; cbn [map fold_left].
    - rewrite app_nil_r. auto.
    - cbn [fst snd]. assert (done ++ v :: todo = (done ++ [v]) ++ todo) as E by (rewrite <- app_assoc; reflexivity). rewrite E in *.
      apply IH; [exact Hnd|apply NoDup_dset; exact H1| |].
      + intros d. rewrite In_dkeys_dset, H2. split.
        * intros [->|(x & Hx & <-)]; [exists v|exists x]; rewrite in_app_iff; cbn; auto.
        * intros (x & Hx & <-). apply in_app_iff in Hx. destruct Hx as [Hx|[<-|[]]]; [right; exists x; auto|auto].
      + intros d s. rewrite dget_dset. destruct (eq_dec d (h v)) as [->|Hne].
        * intros Es. inv Es. destruct (dget (h v) inv) as [s|] eqn:Eg.
          -- destruct (H3 _ _ Eg) as [N3 M3]. split; [apply NoDup_sadd; exact N3|]. intros x. rewrite In_sadd, M3, in_app_iff. cbn.
             split; [intros [->|[? ?]]; auto|intros [[?|[<-|[]]] ?]; auto].
          -- split; [apply NoDup_sadd; constructor|]. intros x. rewrite In_sadd, in_app_iff. cbn. split; [intros [->|[]]; auto|].
             intros [[Hx|[<-|[]]] Hh]; auto. exfalso. apply dget_None in Eg. apply Eg, H2. exists x. auto.
        * intros Es. destruct (H3 _ _ Es) as [N3 M3]. split; [exact N3|]. intros x. rewrite M3, in_app_iff. cbn.
          split; [intros [? ?]; auto|]. intros [[?|[<-|[]]] Hh]; auto. congruence. }
  apply (H l [] []).
  - exact Hl.
  - apply NoDup_nil.
  - intros d. split; [intros []|intros (x & [] & _)].
  - discriminate. Qed.

(** every pair in order *)
Fixpoint ordered (h : A -> ext) (p : list A) : Prop := match p with [] => True | x :: t => (forall y, In y t -> ext_le (h x) (h y)) /\ ordered h t end.
Lemma ordered_app h p q : ordered h p -> ordered h q -> (forall x y, In x p -> In y q -> ext_le (h x) (h y)) -> ordered h (p ++ q).
Proof. induction p as [|x p IH]; cbn; auto. intros [H1 H2] Hq H. split.
  - intros y Hy. apply in_app_iff in Hy. destruct Hy; auto.
  - apply IH; auto. Qed.
Lemma ordered_const h p d : (forall x, In x p -> h x = d) -> ordered h p.
Proof. induction p as [|x p IH]; cbn; auto. intros H. split; [|auto]. intros y Hy. rewrite (H x), (H y) by auto. apply ext_le_refl. Qed.
Lemma ordered_pair h p : ordered h p -> forall p1 x p2 y p3, p = p1 ++ x :: p2 ++ y :: p3 -> ext_le (h x) (h y).
Proof. intros H p1. revert p H. induction p1 as [|u p1 IH]; intros p H x p2 y p3 ->; cbn in H.
  - destruct H as [H _]. apply H. apply in_app_iff. cbn. auto.
  - destruct H as [_ H]. eapply IH; eauto. Qed.

Definition rm (st : list A * list A) (x : A) : res (list A * list A) := if mem x (fst st) then Ok (sremove x (fst st), snd st ++ [x]) else Err KeyError.
Lemma rm_all grp : forall all p, NoDup grp -> incl grp all -> foldM rm grp (all, p) = Ok (sdiff all grp, p ++ grp).
Proof. induction grp as [|x grp IH]; intros all p Hnd Hi; cbn [foldM].
  - rewrite app_nil_r. assert (sdiff all (@nil A) = all) as ->; [|reflexivity]. unfold sdiff. cbn. induction all as [|u all IHa]; cbn; [reflexivity|]. rewrite IHa; [reflexivity|intros u' []].
  - apply NoDup_cons_iff in Hnd. destruct Hnd as [Hnx Hnd']. unfold rm at 1. cbn [fst snd].
    assert (mem x all = true) as -> by (apply mem_In, Hi; cbn; auto). cbn [bind]. rewrite IH; [|exact Hnd'|].
    + rewrite <- app_assoc. cbn [app]. assert (sdiff (sremove x all) grp = sdiff all (x :: grp)) as ->; [|reflexivity].
      clear. unfold sdiff, sremove. induction all as [|u all IH]; cbn; [reflexivity|].
      unfold eqb. destruct (eq_dec x u) as [Hn|Hn]; destruct (eq_dec u x) as [E|E]; cbn; try congruence; try exact IH.
      destruct (negb (mem u grp)); cbn; [f_equal|]; exact IH.
    + intros y Hy. apply In_sremove. split; [apply Hi; cbn; auto|]. congruence. Qed.

Record ti (vs : list A) (h : A -> ext) (s : list A * dict ext (list A) * list A) : Prop := {
  ti_nd : NoDup (dkeys (snd (fst s)));
  ti_grp : forall d l, dget d (snd (fst s)) = Some l -> NoDup l /\ forall x, In x l <-> In x vs /\ h x = d;
  ti_and : NoDup (fst (fst s));
  ti_all : forall x, In x (fst (fst s)) <-> In x vs /\ In (h x) (dkeys (snd (fst s)));
  ti_pnd : NoDup (snd s);
  ti_path : forall x, In x (snd s) <-> In x vs /\ ~ In (h x) (dkeys (snd (fst s)));
  ti_le : forall x d, In x (snd s) -> In d (dkeys (snd (fst s))) -> ext_le (h x) d;
  ti_ord : ordered h (snd s) }.

Lemma tree_loop (vs : list A) (h : A -> ext) ord : (forall n l, Permutation (ord n l) l) -> NoDup vs ->
  forall s, ti vs h s -> exists p, returns (fun n => loop n (tree_step ord) s) (Ok p) /\ Permutation p vs /\ ordered h p.
Proof. intros Ho Hvs s Hs.
  destruct (loop_returns_nat (tree_step ord) (ti vs h) (fun s => length (snd (fst s))) (fun r => exists p, r = Ok p /\ Permutation p vs /\ ordered h p)) with (s := s) as (r & Hr & p & -> & HP).
  - clear s Hs. intros [[all inv] p] [T1 T2 T3 T4 T5 T6 T7 T8]. cbn [fst snd] in *. unfold tree_step.
    destruct (is_nil all || is_nil inv) eqn:Eb.
    + split; [discriminate|]. exists p. splits; auto. apply NoDup_Permutation; auto. intros x. rewrite T6. split; [tauto|]. intros Hx. split; [exact Hx|].
      intros Hk. assert (In x all) as Ha by (apply T4; auto). destruct all; [destruct Ha|]. destruct inv; [destruct Hk|discriminate].
    + apply orb_false_iff in Eb. destruct Eb as [Ea Ei]. destruct inv as [|[d0 l0] inv0] eqn:Einv; [discriminate|]. rewrite <- Einv in *.
      assert (exists v : ext, py_min (dkeys inv) = Ok v /\ In v (dkeys inv) /\ forall d, In d (dkeys inv) -> ext_le v d) as (v & Ev & Hv & Hmin).
      { rewrite Einv. cbn [dkeys map fst py_min]. eexists. split; [reflexivity|]. apply (fold_min_spec (map fst inv0) d0). }
      rewrite Ev. destruct (dget_key _ _ Hv) as (grp & Eg). rewrite Eg. destruct (T2 _ _ Eg) as [G1 G2].
      assert (Permutation (ord (length p) grp) grp) as Hp by apply Ho. set (grp' := ord (length p) grp) in *.
      assert (forall x, In x grp' <-> In x vs /\ h x = v) as G2'.
      { intros x. rewrite <- G2. split; apply Permutation_in; [|apply Permutation_sym]; exact Hp. }
      assert (NoDup grp') as G1' by (eapply Permutation_NoDup; [apply Permutation_sym, Hp|exact G1]).
      change (fun (st : list A * list A) x => if mem x (fst st) then Ok (sremove x (fst st), snd st ++ [x]) else Err KeyError) with rm.
      rewrite rm_all; [|exact G1'|].
      2:{ intros x Hx. apply T4. apply G2' in Hx. destruct Hx as [Hx ->]. auto. }
      cbn [fst snd]. split.
      * constructor; cbn [fst snd].
        -- apply NoDup_ddel, T1.
        -- intros d l. rewrite dget_ddel by exact T1. destruct (eq_dec d v); [discriminate|]. apply T2.
        -- apply NoDup_sdiff, T3.
        -- intros x. rewrite In_sdiff, T4, G2', In_dkeys_ddel by exact T1. tauto.
        -- apply NoDup_app_iff. splits; auto. intros x Hx Hx'. apply T6 in Hx. apply G2' in Hx'. destruct Hx' as [_ Hx']. rewrite Hx' in Hx. tauto.
        -- intros x. rewrite in_app_iff, T6, G2', In_dkeys_ddel by exact T1.
           destruct (eq_dec (h x) v) as [->|Hn]; [tauto|]. tauto.
        -- intros x d Hx Hd. apply In_dkeys_ddel in Hd; [|exact T1]. apply in_app_iff in Hx. destruct Hx as [Hx|Hx]; [apply T7; tauto|].
           apply G2' in Hx. destruct Hx as [_ ->]. apply Hmin. tauto.
        -- apply ordered_app; [exact T8|apply (ordered_const h grp' v); intros x Hx; apply G2', Hx|].
           intros x y Hx Hy. apply G2' in Hy. destruct Hy as [_ ->]. apply T7; auto.
      * pose proof (length_ddel v inv) as L. assert (mem v (dkeys inv) = true) as Hm by (apply mem_In, Hv). rewrite Hm in L. rewrite L, Einv. cbn. lia.
  - exact Hs.
  - exists p. auto. Qed.

Lemma shortest_tree_spec g ord : wf g -> no_neg_cycle (edge g) -> (forall n l, Permutation (ord n l) l) ->
  (forall x, In x (nodes g) -> total_dist g x Inf) /\ (forall n, shortest_tree_all_pairs ord n g = Err KeyError) \/
  exists l1 s l2 t p, nodes g = l1 ++ s :: l2 /\ total_dist g s (Fin t) /\ (forall x, In x l2 -> total_dist g x Inf) /\
    returns (fun n => shortest_tree_all_pairs ord n g) (Ok p) /\ Permutation p (nodes g) /\
    forall p1 x p2 y p3 dx dy, p = p1 ++ x :: p2 ++ y :: p3 -> dist (edge g) s x dx -> dist (edge g) s y dy -> ext_le dx dy.
Proof. intros W Hc Ho. destruct (fw_spec g W Hc) as (f & Ef & Hd).
  assert (forall x, In x (nodes g) -> total_dist g x (ext_sum (map (f x) (nodes g)))) as Ht.
  { intros x Hx. exists (map (f x) (nodes g)). split; [|apply ext_sum_fold]. apply Forall2_map_r. intros y Hy. apply Hd; auto. }
  pose (tot := fun v => ext_sum (map (f v) (nodes g))).
  pose proof (tree_start_spec (nodes g) f tot (nodes g)) as Hst. specialize (Hst (fun v => ltac:(unfold tot, dvals; rewrite map_map; reflexivity)) None).
  unfold shortest_tree_all_pairs. rewrite Ef. unfold tree_start, mat at 1. fold (mat (nodes g) f) in Hst |- *.
  unfold mat at 1. change (map (fun v1 => (v1, map (fun v3 => (v3, f v1 v3)) (nodes g))) (nodes g)) with (mat (nodes g) f) in *.
  destruct (fold_left _ (mat (nodes g) f) None) as [s|] eqn:EF.
  - right. destruct Hst as [[C _]|(l1 & l2 & En & Hs & Hl2)]; [discriminate|].
    assert (In s (nodes g)) as Hin by (rewrite En; apply in_app_iff; cbn; auto).
    assert (NoDup (nodes g)) as Hnd by apply (wf_nodes g W).
    destruct (invert_spec (f s) (nodes g) Hnd) as (I1 & I2 & I3).
    destruct (tree_loop (nodes g) (f s) ord Ho Hnd (nodes g, invert (map (fun v => (v, f s v)) (nodes g)), [])) as (p & Hr & Hp & Hop).
    { constructor; cbn [fst snd]; auto.
      - intros x. rewrite I2. split; [|tauto]. intros Hx. split; [exact Hx|]. exists x. auto.
      - constructor.
      - intros x. rewrite I2. split; [intros []|]. intros [Hx C]. apply C. exists x. auto.
      - intros x d [].
      - exact Logic.I. }
    unfold tot in Hs. destruct (ext_sum (map (f s) (nodes g))) as [t|] eqn:Et; [|congruence].
    exists l1, s, l2, t, p. splits; auto.
    + rewrite <- Et. apply Ht, Hin.
    + intros x Hx. rewrite <- (Hl2 x Hx). apply Ht. rewrite En. apply in_app_iff. cbn. auto.
    + refine (returns_ext _ _ _ _ Hr). intros n. rewrite dkeys_mat, inner_mat by exact Hin. reflexivity.
    + intros p1 x p2 y p3 dx dy Ep Hx Hy.
      assert (In x (nodes g) /\ In y (nodes g)) as [Hxn Hyn].
      { split; (eapply Permutation_in; [exact Hp|]); rewrite Ep; rewrite !in_app_iff; cbn; rewrite ?in_app_iff; cbn; auto. }
      rewrite (dist_fun _ _ _ _ _ Hx (Hd s x Hin Hxn)), (dist_fun _ _ _ _ _ Hy (Hd s y Hin Hyn)). eapply ordered_pair; eauto.
  - left. destruct Hst as [_ Hst]. split; [|reflexivity]. intros x Hx. rewrite <- (Hst x Hx). apply Ht, Hx. Qed.
End T.
