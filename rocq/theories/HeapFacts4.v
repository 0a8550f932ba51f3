(** The invariant of a user's program: graphs own disjoint sets of dicts, none of which the user can reach. *)
From Verif Require Import Prelude PreludeFacts Base BaseFacts BaseFacts2 BaseFacts3 Spec MaxFlowFacts HashFacts McfFacts Heap HeapSpec HeapFacts HeapFacts2 HeapFacts3.

Section Facts.
Context {A O V : Type} {EA : EqDec A} (is_coll : V -> bool).
Notation graph := (Base.graph A O V).
Notation heap := (heap A O V).
Notation prog := (@prog A O V).
Notation world := (world A O V).
Implicit Types (h : heap) (g : gobj) (G : graph) (own : list nat) (w : world).

Record inv w (abs : nat -> graph * list nat) (UO UI : nat -> Prop) : Prop := {
  i_rep : forall j g, nth_error (w_graphs w) j = Some g -> rep (w_heap w) g (snd (abs j)) (fst (abs j)) /\ sound is_coll (fst (abs j));
  i_sep : forall j k x, j <> k -> j < length (w_graphs w) -> k < length (w_graphs w) -> In x (snd (abs j)) -> ~ In x (snd (abs k));
  i_user : forall x, UO x \/ UI x -> x < h_next (w_heap w) /\ forall j, j < length (w_graphs w) -> ~ In x (snd (abs j));
  i_outer : forall l, UO l -> exists d, h_get (w_heap w) l = Some (COuter d) /\ forall x, In x (map snd d) -> UI x;
  i_inner : forall l, UI l -> exists x, h_get (w_heap w) l = Some (CInner x);
  i_vo : forall j l, nth_error (w_outers w) j = Some l -> UO l;
  i_vi : forall j l, nth_error (w_inners w) j = Some l -> UI l }.
Lemma inv_empty : inv empty_world (fun _ => (empty_graph, [])) (fun _ => False) (fun _ => False).
Proof. constructor; cbn; try (intros; tauto); try (intros [|j] ? H; discriminate H). Qed.

Lemma nth_some {X} (l : list X) j x : nth_error l j = Some x -> j < length l.
Proof. intros H. apply nth_error_Some. congruence. Qed.
Lemma nth_ex {X} (l : list X) j : j < length l -> exists x, nth_error l j = Some x.
Proof. intros H. destruct (nth_error l j) eqn:E; [eauto|]. apply nth_error_None in E. lia. Qed.
Lemma inv_own w abs UO UI j x : inv w abs UO UI -> j < length (w_graphs w) -> In x (snd (abs j)) -> x < h_next (w_heap w).
Proof. intros I Hj Hx. destruct (nth_ex _ _ Hj) as [g Hg]. destruct (i_rep _ _ _ _ I j g Hg) as [R _]. eapply rep_below; eauto. Qed.

(** a heap in which only dicts of graph i changed *)
Lemma inv_graph w abs UO UI i g h' own' G' : inv w abs UO UI -> nth_error (w_graphs w) i = Some g ->
  rep h' g own' G' -> sound is_coll G' -> frame (w_heap w) h' (snd (abs i)) own' ->
  inv (mkWorld h' (w_graphs w) (w_outers w) (w_inners w)) (fun j => if j =? i then (G', own') else abs j) UO UI.
Proof. intros I Hi R S F. pose proof F as (F1 & F2 & F3). assert (Hil := nth_some _ _ _ Hi). constructor; cbn [w_heap w_graphs w_outers w_inners].
  - intros j gj Hj. destruct (Nat.eqb_spec j i) as [->|Hn]; cbn [fst snd]; [replace gj with g by congruence; auto|].
    destruct (i_rep _ _ _ _ I j gj Hj) as [Rj Sj]. split; [|exact Sj]. apply (rep_frame (w_heap w) h' gj _ _ (snd (abs i)) own'); [exact Rj|exact F|].
    intros x Hx. apply (i_sep _ _ _ _ I j i x Hn (nth_some _ _ _ Hj) Hil Hx).
  - assert (Hnew : forall k x, k <> i -> k < length (w_graphs w) -> In x own' -> ~ In x (snd (abs k))).
    { intros k x Hk Hkl Hx Hxk. apply F3 in Hx. destruct Hx as [Hx|Hx]; [apply (i_sep _ _ _ _ I i k x); auto|].
      assert (x < h_next (w_heap w)) by (eapply inv_own; eauto). lia. }
    intros j k x Hjk Hj Hk. destruct (Nat.eqb_spec j i) as [->|Hji], (Nat.eqb_spec k i) as [->|Hki]; cbn [fst snd]; [congruence| | |].
    + intros Hx. apply Hnew; auto.
    + intros Hx Hx'. apply (Hnew j x); auto.
    + apply (i_sep _ _ _ _ I); auto.
  - intros x Hx. destruct (i_user _ _ _ _ I x Hx) as [Hb Hd]. split; [lia|]. intros j Hj. destruct (Nat.eqb_spec j i) as [->|Hn]; cbn [snd]; [|apply Hd; exact Hj].
    intros Hx'. apply F3 in Hx'. destruct Hx' as [Hx'|Hx']; [apply (Hd i); auto|lia].
  - intros l Hl. destruct (i_user _ _ _ _ I l (or_introl Hl)) as [Hb Hd]. rewrite F2; [apply (i_outer _ _ _ _ I l Hl)|exact Hb|apply Hd; exact Hil].
  - intros l Hl. destruct (i_user _ _ _ _ I l (or_intror Hl)) as [Hb Hd]. rewrite F2; [apply (i_inner _ _ _ _ I l Hl)|exact Hb|apply Hd; exact Hil].
  - apply (i_vo _ _ _ _ I).
  - apply (i_vi _ _ _ _ I). Qed.
(** a new graph *)
Lemma inv_push_graph w abs UO UI h' c own' G' : inv w abs UO UI -> rep h' c own' G' -> sound is_coll G' -> frame (w_heap w) h' [] own' ->
  inv (mkWorld h' (w_graphs w ++ [c]) (w_outers w) (w_inners w)) (fun j => if j =? length (w_graphs w) then (G', own') else abs j) UO UI.
Proof. intros I R S F. pose proof F as (F1 & F2 & F3). constructor; cbn [w_heap w_graphs w_outers w_inners].
  - intros j gj Hj. destruct (Nat.eqb_spec j (length (w_graphs w))) as [->|Hn]; cbn [fst snd].
    + rewrite nth_error_app2, Nat.sub_diag in Hj by lia. cbn in Hj. injection Hj as <-. auto.
    + assert (Hjl : j < length (w_graphs w)) by (apply nth_some in Hj; rewrite app_length in Hj; cbn in Hj; lia). rewrite nth_error_app1 in Hj by exact Hjl.
      destruct (i_rep _ _ _ _ I j gj Hj) as [Rj Sj]. split; [|exact Sj]. apply (rep_frame (w_heap w) h' gj _ _ [] own'); auto.
  - rewrite app_length. cbn. intros j k x Hjk Hj Hk. destruct (Nat.eqb_spec j (length (w_graphs w))) as [->|Hji], (Nat.eqb_spec k (length (w_graphs w))) as [->|Hki]; cbn [fst snd]; [congruence| | |].
    + intros Hx Hx'. assert (x < h_next (w_heap w)) by (eapply inv_own; eauto; lia). pose proof (frame_fresh _ _ _ _ F Hx). lia.
    + intros Hx Hx'. assert (x < h_next (w_heap w)) by (eapply inv_own; [exact I| |exact Hx]; lia). pose proof (frame_fresh _ _ _ _ F Hx'). lia.
    + apply (i_sep _ _ _ _ I); auto; lia.
  - intros x Hx. destruct (i_user _ _ _ _ I x Hx) as [Hb Hd]. split; [lia|]. rewrite app_length. cbn. intros j Hj. destruct (Nat.eqb_spec j (length (w_graphs w))) as [->|Hn]; cbn [snd]; [|apply Hd; lia].
    intros Hx'. pose proof (frame_fresh _ _ _ _ F Hx'). lia.
  - intros l Hl. destruct (i_user _ _ _ _ I l (or_introl Hl)) as [Hb Hd]. rewrite F2; [apply (i_outer _ _ _ _ I l Hl)|exact Hb|auto].
  - intros l Hl. destruct (i_user _ _ _ _ I l (or_intror Hl)) as [Hb Hd]. rewrite F2; [apply (i_inner _ _ _ _ I l Hl)|exact Hb|auto].
  - apply (i_vo _ _ _ _ I).
  - apply (i_vi _ _ _ _ I). Qed.
(** new dicts for the user: an outer dict l with the inner dicts of d *)
Lemma inv_new_dicts w abs UO UI h' (news : list nat) (UO' UI' : nat -> Prop) vo vi : inv w abs UO UI -> frame (w_heap w) h' [] news ->
  (forall x, In x news -> x < h_next h') ->
  (forall x, UO' x -> UO x \/ In x news /\ exists d, h_get h' x = Some (COuter d) /\ forall y, In y (map snd d) -> UI' y) ->
  (forall x, UI' x -> UI x \/ In x news /\ exists d, h_get h' x = Some (CInner d)) ->
  (forall x, UO x -> UO' x) -> (forall x, UI x -> UI' x) ->
  (forall j l, nth_error vo j = Some l -> UO' l) -> (forall j l, nth_error vi j = Some l -> UI' l) ->
  inv (mkWorld h' (w_graphs w) vo vi) abs UO' UI'.
Proof. intros I F Hb H1 H2 H3 H4 H5 H6. pose proof F as (F1 & F2 & F3). constructor; cbn [w_heap w_graphs w_outers w_inners]; [| | | | |exact H5|exact H6].
  - intros j gj Hj. destruct (i_rep _ _ _ _ I j gj Hj) as [Rj Sj]. split; [|exact Sj]. apply (rep_frame (w_heap w) h' gj _ _ [] news); auto.
  - apply (i_sep _ _ _ _ I).
  - intros x Hx. assert (Hx' : UO x \/ UI x \/ In x news) by (destruct Hx as [Hx|Hx]; [apply H1 in Hx|apply H2 in Hx]; tauto).
    destruct Hx' as [Hx'|[Hx'|Hx']]; [destruct (i_user _ _ _ _ I x (or_introl Hx')); split; [lia|auto]|destruct (i_user _ _ _ _ I x (or_intror Hx')); split; [lia|auto]|].
    split; [auto|]. intros j Hj Hin. assert (x < h_next (w_heap w)) by (eapply inv_own; eauto). pose proof (frame_fresh _ _ _ _ F Hx'). lia.
  - intros l Hl. destruct (H1 l Hl) as [Hl'|[_ Hl']]; [|exact Hl']. destruct (i_user _ _ _ _ I l (or_introl Hl')) as [Hbl _]. rewrite F2 by auto.
    destruct (i_outer _ _ _ _ I l Hl') as (d & Hd & Hd'). exists d. split; [exact Hd|]. intros y Hy. apply H4. auto.
  - intros l Hl. destruct (H2 l Hl) as [Hl'|[_ Hl']]; [|exact Hl']. destruct (i_user _ _ _ _ I l (or_intror Hl')) as [Hbl _]. rewrite F2 by auto.
    apply (i_inner _ _ _ _ I l Hl'). Qed.
(** the user changes a dict *)
Lemma inv_user_write w abs UO UI l c : inv w abs UO UI ->
  (UO l /\ exists d, c = COuter d /\ forall x, In x (map snd d) -> UI x) \/ (UI l /\ exists x, c = CInner x) ->
  inv (mkWorld (hput l c (w_heap w)) (w_graphs w) (w_outers w) (w_inners w)) abs UO UI.
Proof. intros I Hc. assert (Hl : UO l \/ UI l) by tauto. destruct (i_user _ _ _ _ I l Hl) as [Hb Hd].
  assert (Hexcl : UO l -> UI l -> False). { intros Ha Hb'. destruct (i_outer _ _ _ _ I l Ha) as (? & E1 & _). destruct (i_inner _ _ _ _ I l Hb') as (? & E2). congruence. }
  constructor; cbn [w_heap w_graphs w_outers w_inners].
  - intros j gj Hj. destruct (i_rep _ _ _ _ I j gj Hj) as [Rj Sj]. split; [|exact Sj]. apply (rep_keep (w_heap w)); [exact Rj|cbn; lia|].
    intros x Hx. cbn. destruct (Nat.eqb_spec x l) as [->|]; [|reflexivity]. exfalso. apply (Hd j); [apply (nth_some _ _ _ Hj)|exact Hx].
  - apply (i_sep _ _ _ _ I).
  - apply (i_user _ _ _ _ I).
  - intros x Hx. cbn. destruct (Nat.eqb_spec x l) as [->|]; [|apply (i_outer _ _ _ _ I x Hx)]. destruct Hc as [(_ & d & -> & Hd')|(Hi & _)]; [eauto|exfalso; auto].
  - intros x Hx. cbn. destruct (Nat.eqb_spec x l) as [->|]; [|apply (i_inner _ _ _ _ I x Hx)]. destruct Hc as [(Ho & _)|(_ & y & ->)]; [exfalso; auto|eauto].
  - apply (i_vo _ _ _ _ I).
  - apply (i_vi _ _ _ _ I). Qed.

Definition set_abs (abs : nat -> graph * list nat) i p : nat -> graph * list nat := fun j => if j =? i then p else abs j.
Lemma exec_call w abs UO UI i g c : inv w abs UO UI -> nth_error (w_graphs w) i = Some g ->
  exists h' own', exec is_coll w (Call i c) = (mkWorld h' (w_graphs w) (w_outers w) (w_inners w), snd (apply is_coll (fst (abs i)) c)) /\
    frame (w_heap w) h' (snd (abs i)) own' /\
    inv (mkWorld h' (w_graphs w) (w_outers w) (w_inners w)) (set_abs abs i (fst (apply is_coll (fst (abs i)) c), own')) UO UI.
Proof. intros I Hi. destruct (i_rep _ _ _ _ I i g Hi) as [R S]. destruct (call_upd is_coll g c _ S) as [T S'].
  destruct (T _ _ R) as (h' & own' & E & R' & F). exists h', own'. split; [|split; [exact F|eapply inv_graph; eauto]]. cbn [exec]. rewrite Hi, E. reflexivity. Qed.
Lemma outer_vals w abs UO UI l : inv w abs UO UI -> UO l -> exists d D, h_get (w_heap w) l = Some (COuter d) /\ content2 (w_heap w) d = Some D /\ outer_content (w_heap w) l = Some D /\ (forall x, In x (map snd d) -> UI x).
Proof. intros I Hl. destruct (i_outer _ _ _ _ I l Hl) as (d & Hd & Hu). unfold outer_content. rewrite Hd.
  assert (HD : exists D, content2 (w_heap w) d = Some D).
  { clear Hd. induction d as [|[a i] d IH]; cbn; [eauto|]. destruct (i_inner _ _ _ _ I i (Hu i (or_introl eq_refl))) as (x & Hx). rewrite Hx.
    destruct IH as [D HD]; [intros y Hy; apply Hu; right; exact Hy|]. rewrite HD. eauto. }
  destruct HD as [D HD]. exists d, D. auto. Qed.
Lemma exec_from_dict w abs UO UI i j g l : inv w abs UO UI -> nth_error (w_graphs w) i = Some g -> nth_error (w_outers w) j = Some l ->
  exists D h' own', outer_content (w_heap w) l = Some D /\
    exec is_coll w (FromDict i j) = (mkWorld h' (w_graphs w) (w_outers w) (w_inners w), snd (put_all (put_row is_coll) D (fst (abs i)))) /\
    frame (w_heap w) h' (snd (abs i)) own' /\
    inv (mkWorld h' (w_graphs w) (w_outers w) (w_inners w)) (set_abs abs i (fst (put_all (put_row is_coll) D (fst (abs i))), own')) UO UI.
Proof. intros I Hi Hl. destruct (i_rep _ _ _ _ I i g Hi) as [R S]. destruct (outer_vals w abs UO UI l I (i_vo _ _ _ _ I j l Hl)) as (d & D & Hd & HD & HO & HU).
  destruct (hfrom_dict_spec is_coll d (w_heap w) g (snd (abs i)) (fst (abs i)) D R S HD) as (h' & own' & E & R' & S' & F).
  { intros x Hx. apply HU in Hx. destruct (i_user _ _ _ _ I x (or_intror Hx)) as [Hb Hn]. split; [exact Hb|]. apply Hn. apply (nth_some _ _ _ Hi). }
  exists D, h', own'. split; [exact HO|]. split; [|split; [exact F|eapply inv_graph; eauto]]. cbn [exec]. rewrite Hi, Hl. unfold hfrom_dict. rewrite (then_ok _ _ _ _ _ (rd_outer_eq _ _ _ Hd)), E. reflexivity. Qed.
Lemma exec_copy w abs UO UI i g : inv w abs UO UI -> nth_error (w_graphs w) i = Some g ->
  exists h' c own' G', exec is_coll w (Copy i) = (mkWorld h' (w_graphs w ++ [c]) (w_outers w) (w_inners w), Ok tt) /\ copy (fst (abs i)) = Ok G' /\
    frame (w_heap w) h' [] own' /\
    inv (mkWorld h' (w_graphs w ++ [c]) (w_outers w) (w_inners w)) (set_abs abs (length (w_graphs w)) (G', own')) UO UI.
Proof. intros I Hi. destruct (i_rep _ _ _ _ I i g Hi) as [R S]. destruct (hcopy_spec is_coll _ _ _ _ R S) as (h' & c & own' & G' & E & Ec & S' & R' & F).
  exists h', c, own', G'. splits; [|exact Ec|exact F|eapply inv_push_graph; eauto]. cbn [exec]. rewrite Hi, E. reflexivity. Qed.
Lemma exec_new w abs UO UI : inv w abs UO UI ->
  exists h' c own', exec is_coll w NewGraph = (mkWorld h' (w_graphs w ++ [c]) (w_outers w) (w_inners w), Ok tt) /\
    frame (w_heap w) h' [] own' /\
    inv (mkWorld h' (w_graphs w ++ [c]) (w_outers w) (w_inners w)) (set_abs abs (length (w_graphs w)) (empty_graph, own')) UO UI.
Proof. intros I. destruct (hnew_spec (A := A) (O := O) (V := V) (w_heap w)) as (h' & c & own' & E & R' & F).
  exists h', c, own'. splits; [|exact F|eapply inv_push_graph; eauto; apply sound_empty]. cbn [exec]. rewrite E. reflexivity. Qed.
Lemma nth_snoc {X} (l : list X) x j y : nth_error (l ++ [x]) j = Some y -> nth_error l j = Some y \/ y = x.
Proof. intros H. destruct (Nat.lt_ge_cases j (length l)) as [Hj|Hj]; [rewrite nth_error_app1 in H by exact Hj; auto|]. rewrite nth_error_app2 in H by exact Hj.
  destruct (j - length l) as [|m]; cbn in H; [injection H; auto|destruct m; discriminate]. Qed.
Lemma exec_to_dict w abs UO UI i g : inv w abs UO UI -> nth_error (w_graphs w) i = Some g ->
  exists h' l D UO' UI', exec is_coll w (ToDict i) = (mkWorld h' (w_graphs w) (w_outers w ++ [l]) (w_inners w), Ok tt) /\ to_dict (fst (abs i)) = Ok D /\
    outer_content h' l = Some D /\ (exists own', frame (w_heap w) h' [] own') /\
    inv (mkWorld h' (w_graphs w) (w_outers w ++ [l]) (w_inners w)) abs UO' UI'.
Proof. intros I Hi. destruct (i_rep _ _ _ _ I i g Hi) as [R S]. destruct (hto_dict_spec _ _ _ _ R (proj1 S)) as (h' & l & d & D & E & ED & RD & F).
  exists h', l, D, (fun x => UO x \/ x = l), (fun x => UI x \/ In x (map snd d)). pose proof RD as (R1 & R2 & R3 & R4). splits; [|exact ED|apply (outer_rep h' l d); exact RD|eauto|].
  { cbn [exec]. rewrite Hi, E. reflexivity. }
  apply (inv_new_dicts w abs UO UI h' (l :: map snd d)); auto.
  - intros x [Hx|Hx]; [auto|]. subst x. right. split; [left; reflexivity|]. exists d. split; [exact R1|auto].
  - intros x [Hx|Hx]; [auto|]. right. split; [right; exact Hx|]. clear -R2 Hx. induction R2 as [|[a j] [b y] d D [H1 H2] HF IH]; cbn in *; [contradiction|].
    destruct Hx as [<-|Hx]; [eauto|auto].
  - intros j x Hx. apply nth_snoc in Hx. destruct Hx as [Hx| ->]; [left; eapply (i_vo _ _ _ _ I); eauto|auto].
  - intros j x Hx. left. eapply (i_vi _ _ _ _ I); eauto. Qed.

(** every statement keeps the invariant and leaves the other graphs alone *)
Lemma frame_alloc h c : frame h (mkHeap (S (h_next h)) (h_get (hput (h_next h) c h))) [] [h_next h].
Proof. hnf; splits; [cbn; lia| |intros x [<-|[]]; right; lia]. intros x Hx _. cbn. destruct (Nat.eqb_spec x (h_next h)); [lia|reflexivity]. Qed.
Lemma exec_inv w abs UO UI s : inv w abs UO UI ->
  exists abs' UO' UI', inv (fst (exec is_coll w s)) abs' UO' UI' /\
    (forall j, j < length (w_graphs w) -> updates s <> Some j -> abs' j = abs j) /\
    (exists gs, w_graphs (fst (exec is_coll w s)) = w_graphs w ++ gs) /\
    (edits_dicts s = false -> forall x, UO x \/ UI x -> h_get (w_heap (fst (exec is_coll w s))) x = h_get (w_heap w) x) /\
    (exists os, w_outers (fst (exec is_coll w s)) = w_outers w ++ os) /\ (exists os, w_inners (fst (exec is_coll w s)) = w_inners w ++ os).
Proof. intros I.
  assert (Hnone : exists abs' UO' UI', inv w abs' UO' UI' /\ (forall j, j < length (w_graphs w) -> updates s <> Some j -> abs' j = abs j) /\ (exists gs, w_graphs w = w_graphs w ++ gs) /\
    (edits_dicts s = false -> forall x, UO x \/ UI x -> h_get (w_heap w) x = h_get (w_heap w) x) /\ (exists os, w_outers w = w_outers w ++ os) /\ (exists os, w_inners w = w_inners w ++ os)).
  { exists abs, UO, UI. splits; auto; exists []; rewrite app_nil_r; reflexivity. }
  assert (Hpush : forall h' own' gs G', frame (w_heap w) h' [] own' -> inv (mkWorld h' (w_graphs w ++ [gs]) (w_outers w) (w_inners w)) (set_abs abs (length (w_graphs w)) (G', own')) UO UI ->
    let w' := mkWorld h' (w_graphs w ++ [gs]) (w_outers w) (w_inners w) in
    exists abs' UO' UI', inv w' abs' UO' UI' /\ (forall j, j < length (w_graphs w) -> updates s <> Some j -> abs' j = abs j) /\ (exists gs, w_graphs w' = w_graphs w ++ gs) /\
    (edits_dicts s = false -> forall x, UO x \/ UI x -> h_get (w_heap w') x = h_get (w_heap w) x) /\ (exists os, w_outers w' = w_outers w ++ os) /\ (exists os, w_inners w' = w_inners w ++ os)).
  { intros h' own' gs G' (F1 & F2 & F3) I' w'. exists (set_abs abs (length (w_graphs w)) (G', own')), UO, UI. splits; [exact I'| |eexists; reflexivity| | |]; try (exists []; cbn; rewrite app_nil_r; reflexivity).
    - intros j Hj _. unfold set_abs. destruct (Nat.eqb_spec j (length (w_graphs w))); [lia|reflexivity].
    - intros _ x Hx. apply F2; [apply (i_user _ _ _ _ I x Hx)|auto]. }
  assert (Hupd : forall i g h' own' G', nth_error (w_graphs w) i = Some g -> updates s = Some i -> frame (w_heap w) h' (snd (abs i)) own' ->
    inv (mkWorld h' (w_graphs w) (w_outers w) (w_inners w)) (set_abs abs i (G', own')) UO UI ->
    let w' := mkWorld h' (w_graphs w) (w_outers w) (w_inners w) in
    exists abs' UO' UI', inv w' abs' UO' UI' /\ (forall j, j < length (w_graphs w) -> updates s <> Some j -> abs' j = abs j) /\ (exists gs, w_graphs w' = w_graphs w ++ gs) /\
    (edits_dicts s = false -> forall x, UO x \/ UI x -> h_get (w_heap w') x = h_get (w_heap w) x) /\ (exists os, w_outers w' = w_outers w ++ os) /\ (exists os, w_inners w' = w_inners w ++ os)).
  { intros i g h' own' G' Hi Hs (F1 & F2 & F3) I' w'. exists (set_abs abs i (G', own')), UO, UI. splits; [exact I'| | | | |]; try (exists []; cbn; rewrite app_nil_r; reflexivity).
    - intros j Hj Hne. unfold set_abs. destruct (Nat.eqb_spec j i); [congruence|reflexivity].
    - intros _ x Hx. destruct (i_user _ _ _ _ I x Hx) as [Hb Hn]. apply F2; [exact Hb|apply Hn; apply (nth_some _ _ _ Hi)]. }
  assert (Hnewd : forall h' news UO' UI' vo vi, inv (mkWorld h' (w_graphs w) (w_outers w ++ vo) (w_inners w ++ vi)) abs UO' UI' -> frame (w_heap w) h' [] news ->
    let w' := mkWorld h' (w_graphs w) (w_outers w ++ vo) (w_inners w ++ vi) in
    exists abs' UO' UI', inv w' abs' UO' UI' /\ (forall j, j < length (w_graphs w) -> updates s <> Some j -> abs' j = abs j) /\ (exists gs, w_graphs w' = w_graphs w ++ gs) /\
    (edits_dicts s = false -> forall x, UO x \/ UI x -> h_get (w_heap w') x = h_get (w_heap w) x) /\ (exists os, w_outers w' = w_outers w ++ os) /\ (exists os, w_inners w' = w_inners w ++ os)).
  { intros h' news UO' UI' vo vi I' (F1 & F2 & F3) w'. exists abs, UO', UI'. splits; [exact I'|auto|exists []; cbn; rewrite app_nil_r; reflexivity| |eexists; reflexivity|eexists; reflexivity].
    intros _ x Hx. apply F2; [apply (i_user _ _ _ _ I x Hx)|auto]. }
  assert (Hwr : forall h', edits_dicts s = true -> inv (mkWorld h' (w_graphs w) (w_outers w) (w_inners w)) abs UO UI ->
    let w' := mkWorld h' (w_graphs w) (w_outers w) (w_inners w) in
    exists abs' UO' UI', inv w' abs' UO' UI' /\ (forall j, j < length (w_graphs w) -> updates s <> Some j -> abs' j = abs j) /\ (exists gs, w_graphs w' = w_graphs w ++ gs) /\
    (edits_dicts s = false -> forall x, UO x \/ UI x -> h_get (w_heap w') x = h_get (w_heap w) x) /\ (exists os, w_outers w' = w_outers w ++ os) /\ (exists os, w_inners w' = w_inners w ++ os)).
  { intros h' Hs I' w'. exists abs, UO, UI. splits; [exact I'|auto| |congruence| |]; exists []; cbn; rewrite app_nil_r; reflexivity. }
  assert (Hw : mkWorld (w_heap w) (w_graphs w) (w_outers w) (w_inners w) = w) by (destruct w; reflexivity).
  destruct s as [|i|i c|i|i j| | |j a|j a k|j a|k b v|k b].
  - destruct (exec_new w abs UO UI I) as (h' & c & own' & E & F & I'). rewrite E. apply (Hpush h' own' c empty_graph); auto.
  - destruct (nth_error (w_graphs w) i) as [g|] eqn:Hi; [|cbn; rewrite Hi; exact Hnone].
    destruct (exec_copy w abs UO UI i g I Hi) as (h' & c & own' & G' & E & _ & F & I'). rewrite E. apply (Hpush h' own' c G'); auto.
  - destruct (nth_error (w_graphs w) i) as [g|] eqn:Hi; [|cbn; rewrite Hi; exact Hnone].
    destruct (exec_call w abs UO UI i g c I Hi) as (h' & own' & E & F & I'). rewrite E. eapply (Hupd i g h' own'); eauto.
  - destruct (nth_error (w_graphs w) i) as [g|] eqn:Hi; [|cbn; rewrite Hi; exact Hnone].
    destruct (exec_to_dict w abs UO UI i g I Hi) as (h' & l & D & UO' & UI' & E & _ & _ & (own' & F) & I'). rewrite E.
    pose proof (Hnewd h' own' UO' UI' [l] []) as Q. rewrite app_nil_r in Q. apply Q; auto.
  - destruct (nth_error (w_graphs w) i) as [g|] eqn:Hi; [|cbn; rewrite Hi; exact Hnone].
    destruct (nth_error (w_outers w) j) as [l|] eqn:Hl; [|cbn; rewrite Hi, Hl; exact Hnone].
    destruct (exec_from_dict w abs UO UI i j g l I Hi Hl) as (D & h' & own' & _ & E & F & I'). rewrite E. eapply (Hupd i g h' own'); eauto.
  - cbn [exec alloc fst]. pose proof (Hnewd (mkHeap (S (h_next (w_heap w))) (h_get (hput (h_next (w_heap w)) (COuter []) (w_heap w)))) [h_next (w_heap w)] (fun x => UO x \/ x = h_next (w_heap w)) UI [h_next (w_heap w)] []) as Q. rewrite app_nil_r in Q. apply Q; [|apply (frame_alloc (w_heap w) (COuter []))].
    apply (inv_new_dicts w abs UO UI _ [h_next (w_heap w)]); auto; [apply frame_alloc|cbn; intros x [<-|[]]; lia| | |apply (i_vi _ _ _ _ I)].
    + intros x [Hx| ->]; [auto|right; split; [left; reflexivity|]]. exists []. split; [cbn; rewrite Nat.eqb_refl; reflexivity|intros y []].
    + intros j x Hx. apply nth_snoc in Hx. destruct Hx as [Hx| ->]; [left; eapply (i_vo _ _ _ _ I); eauto|auto].
  - cbn [exec alloc fst]. pose proof (Hnewd (mkHeap (S (h_next (w_heap w))) (h_get (hput (h_next (w_heap w)) (CInner []) (w_heap w)))) [h_next (w_heap w)] UO (fun x => UI x \/ x = h_next (w_heap w)) [] [h_next (w_heap w)]) as Q. rewrite app_nil_r in Q. apply Q; [|apply (frame_alloc (w_heap w) (CInner []))].
    apply (inv_new_dicts w abs UO UI _ [h_next (w_heap w)]); auto; [apply frame_alloc|cbn; intros x [<-|[]]; lia| |apply (i_vo _ _ _ _ I)|].
    + intros x [Hx| ->]; [auto|right; split; [left; reflexivity|]]. exists []. cbn. rewrite Nat.eqb_refl. reflexivity.
    + intros j x Hx. apply nth_snoc in Hx. destruct Hx as [Hx| ->]; [left; eapply (i_vi _ _ _ _ I); eauto|auto].
  - cbn [exec]. destruct (nth_error (w_outers w) j) as [l|] eqn:Hl; [|exact Hnone]. destruct (i_outer _ _ _ _ I l (i_vo _ _ _ _ I j l Hl)) as (d & Hd & Hu).
    rewrite (then_ok _ _ _ _ _ (rd_outer_eq _ _ _ Hd)). destruct (dget a d) as [i|] eqn:Ea; cbn; [|rewrite Hw; exact Hnone].
    pose proof (Hnewd (w_heap w) [] UO UI [] [i]) as Q. rewrite app_nil_r in Q. apply Q; [|apply frame_refl]. constructor; cbn [w_heap w_graphs w_outers w_inners]; try apply I.
    intros k x Hx. apply nth_snoc in Hx. destruct Hx as [Hx| ->]; [eapply (i_vi _ _ _ _ I); eauto|]. apply Hu. apply in_map_iff. exists (a, i). split; [reflexivity|apply dget_In; exact Ea].
  - cbn [exec]. destruct (nth_error (w_outers w) j) as [l|] eqn:Hl; [|exact Hnone]. destruct (nth_error (w_inners w) k) as [i|] eqn:Hk; [|exact Hnone].
    assert (Uo := i_vo _ _ _ _ I j l Hl). assert (Ui := i_vi _ _ _ _ I k i Hk). destruct (i_outer _ _ _ _ I l Uo) as (d & Hd & Hu).
    rewrite (then_ok _ _ _ _ _ (rd_outer_eq _ _ _ Hd)). cbn. apply Hwr; [reflexivity|]. apply inv_user_write; [exact I|]. left. split; [exact Uo|]. eexists. split; [reflexivity|].
    intros x Hx. assert (Hx' : x = i \/ In x (map snd d)); [|destruct Hx' as [-> |Hx']; auto]. clear -Hx. induction d as [|[b y] d IH]; cbn in *; [destruct Hx as [<-|[]]; auto|].
    destruct (eq_dec a b); cbn in *; [destruct Hx as [<-|Hx]; auto|]. destruct Hx as [<-|Hx]; [auto|]. destruct (IH Hx); auto.
  - cbn [exec]. destruct (nth_error (w_outers w) j) as [l|] eqn:Hl; [|exact Hnone]. assert (Uo := i_vo _ _ _ _ I j l Hl). destruct (i_outer _ _ _ _ I l Uo) as (d & Hd & Hu).
    rewrite (then_ok _ _ _ _ _ (rd_outer_eq _ _ _ Hd)). destruct (dmem a d); cbn; [|rewrite Hw; exact Hnone]. apply Hwr; [reflexivity|]. apply inv_user_write; [exact I|]. left. split; [exact Uo|].
    eexists. split; [reflexivity|]. intros x Hx. apply Hu. eapply ddel_vals_incl; eauto.
  - cbn [exec]. destruct (nth_error (w_inners w) k) as [i|] eqn:Hk; [|exact Hnone]. assert (Ui := i_vi _ _ _ _ I k i Hk). destruct (i_inner _ _ _ _ I i Ui) as (x & Hx).
    rewrite (then_ok _ _ _ _ _ (rd_inner_eq _ _ _ Hx)). cbn. apply Hwr; [reflexivity|]. apply inv_user_write; [exact I|]. right. eauto.
  - cbn [exec]. destruct (nth_error (w_inners w) k) as [i|] eqn:Hk; [|exact Hnone]. assert (Ui := i_vi _ _ _ _ I k i Hk). destruct (i_inner _ _ _ _ I i Ui) as (x & Hx).
    rewrite (then_ok _ _ _ _ _ (rd_inner_eq _ _ _ Hx)). destruct (dmem b x); cbn; [|rewrite Hw; exact Hnone]. apply Hwr; [reflexivity|]. apply inv_user_write; [exact I|]. right. eauto. Qed.
Lemma exec_all_inv ss : exists abs UO UI, inv (exec_all is_coll ss) abs UO UI.
Proof. unfold exec_all. assert (H : forall w, (exists abs UO UI, inv w abs UO UI) -> exists abs UO UI, inv (fold_left (fun w s => fst (exec is_coll w s)) ss w) abs UO UI).
  { induction ss as [|s ss IH]; intros w Hw; cbn; [exact Hw|]. apply IH. destruct Hw as (abs & UO & UI & I). destruct (exec_inv w abs UO UI s I) as (abs' & UO' & UI' & I' & _). eauto. }
  apply H. eexists _, _, _. apply inv_empty. Qed.
End Facts.
