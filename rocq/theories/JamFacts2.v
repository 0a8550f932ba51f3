(** Facts about the traffic jam solver: the plan, the input check, the whole solver *)
From Verif Require Import Prelude PreludeFacts Base BaseFacts BaseFacts2 BaseFacts3 Spec SpecFacts Loop SearchFacts BaseAlgFacts
  MaxFlowFacts HashFacts Sp SpFacts Bfs BfsFacts Fw DmFacts FlowSpec TrafficSpec Traffic TrafficFacts Jam JamFacts.

Section Plan.
Context {L N O : Type} {EL : EqDec L} {EN : EqDec N}.
Notation graph := (graph N O Z).
Notation state := (list (L * N)).
Context (srt : list (Z * N) -> list (Z * N)) (Hsrt : forall l, Permutation (srt l) l) (g : graph) (W : wf g) (Hnn : nonneg g) (all : dict L (load N)) (Hall : NoDup (dkeys all)) (finals : list state) (Hfin : forall s, In s finals <-> goal all s).
Notation MI := (@MI L N O EL EN g all).
Notation legal := (@legal L N O EL EN g all).

Definition may_ld (strict : bool) (l : L) (a b : N) : Prop := exists ld d, dget l all = Some ld /\ edge g a b = Some d /\ (~ In b (ld_proh ld) \/ (strict = false /\ In b (ld_ends ld))).
Lemma legal_moves s s' d : legal s s' d -> exists l a b, state_moves s s' = [[(l, (a, b))]] /\ may_ld false l a b /\ dget l s = Some a /\ ~ In b (dvals s) /\ s' = dset l b s.
Proof. intros (l & a & b & ld & K & A & G & B & E & -> & P). exists l, a, b. splits; auto.
  - apply state_moves_dset; [rewrite K; exact Hall|exact G|]. intros ->. apply B, (dget_dvals s l), G.
  - exists ld, d. splits; auto. destruct P; auto. Qed.
Lemma path_plan M s p e : MI M -> path (has_edge M) s p e -> exists t, p = s :: t /\ plan_from (may_ld false) s (flat_moves (path_moves s t)) e.
Proof. intros (_ & _ & HM). intros Hp. induction Hp as [s|s s2 p e [d Hd] Hp (t & -> & IH)].
  - exists []. split; [reflexivity|constructor].
  - exists (s2 :: t). split; [reflexivity|]. apply HM in Hd. destruct (legal_moves _ _ _ Hd) as (l & a & b & E & Hm & G & B & ->). cbn [path_moves]. rewrite E. cbn. constructor; auto. Qed.

Lemma shortest_multi_spec M fs : MI M -> exists d p, returns (fun n => shortest_multi n M (S0 all) fs) (Ok (d, p)) /\
  match p with None => d = Inf /\ forall e, In e fs -> ~ reach (has_edge M) (S0 all) e | Some p => exists e, In e fs /\ path (has_edge M) (S0 all) p e end.
Proof. intros HM. pose proof HM as (R & N0 & HE). pose proof (reachable_wf _ R) as WM. assert (nonneg M) as NM. { intros a b w Hw. apply HE in Hw. destruct Hw as (l & x & y & ld & _ & _ & _ & _ & Q & _). apply (Hnn _ _ _ Q). }
  unfold shortest_multi.
  assert (forall d0 p0, (match p0 with None => d0 = Inf | Some _ => True end) -> exists d p, returns (fun n => foldM (fun (dp : ext * option (list state)) e => if contains M e then r <- shortest_path n M (S0 all) e [] ;; if ext_ltb (fst r) (fst dp) then Ok (fst r, Some (snd r)) else Ok dp else Ok dp) fs (d0, p0)) (Ok (d, p)) /\
     match p with None => d = Inf /\ p0 = None /\ forall e, In e fs -> ~ reach (has_edge M) (S0 all) e | Some p1 => p0 = Some p1 \/ exists e, In e fs /\ path (has_edge M) (S0 all) p1 e end) as G.
  2: { destruct (G Inf None eq_refl) as (d & p & Hr & H). exists d, p. split; [exact Hr|]. destruct p; [destruct H; [discriminate|assumption]|]. destruct H as (H1 & _ & H2). auto. }
  induction fs as [|e fs IH]; intros d0 p0 H0.
  - exists d0, p0. split; [apply returns_const; discriminate|]. destruct p0; [auto|]. splits; auto.
  - destruct (contains M e) eqn:Ec.
    + destruct (shortest_path_dist M (S0 all) e WM NM N0) as (d1 & p1 & Hr1 & Hd1 & Hp1); [apply contains_In, Ec|].
      set (st := if ext_ltb d1 d0 then (d1, Some p1) else (d0, p0)).
      destruct (IH (fst st) (snd st)) as (d & p & Hr & Hres). { subst st. destruct (ext_ltb d1 d0); cbn; auto. }
      exists d, p. split.
      * cbn [foldM]. rewrite Ec. refine (returns_bind _ (fun n x => foldM _ fs x) st (Ok (d, p)) _ _).
        -- refine (returns_bind_ok _ (fun r => if ext_ltb (fst r) (fst (d0, p0)) then (fst r, Some (snd r)) else (d0, p0)) (d1, p1) _) || idtac. eapply returns_ext; [|refine (returns_bind_ok _ (fun r => if ext_ltb (fst r) d0 then (fst r, Some (snd r)) else (d0, p0)) (d1, p1) Hr1)].
           intros n. cbn [fst]. destruct (shortest_path n M (S0 all) e []) as [r| |]; cbn; [destruct (ext_ltb (fst r) d0); reflexivity|reflexivity|reflexivity].
        -- subst st. destruct (ext_ltb d1 d0); exact Hr.
      * destruct p as [p|].
        -- destruct Hres as [Hs|(e' & He' & Hpe)]; [|right; exists e'; split; [right; exact He'|exact Hpe]]. subst st. destruct (ext_ltb d1 d0) eqn:El; cbn in Hs; [|auto]. inversion Hs; subst p1. right. exists e. split; [left; reflexivity|].
           destruct d1 as [z|]; [|discriminate]. apply wpath_path in Hp1. exact Hp1.
        -- destruct Hres as (-> & Hs & Hn). subst st. destruct (ext_ltb d1 d0) eqn:El; cbn in Hs; [discriminate|]. subst p0. splits; auto. intros e' [<-|He']; [|apply Hn, He']. subst d0. destruct d1 as [z|]; [discriminate|].
           intros [q Hq]. apply path_wpath in Hq. destruct Hq as [z Hz]. apply (Hd1 q z Hz).
    + destruct (IH d0 p0 H0) as (d & p & Hr & Hres). exists d, p. split; [cbn [foldM]; rewrite Ec; exact Hr|]. destruct p as [p|].
      * destruct Hres as [|(e' & He' & Hpe)]; [auto|right; exists e'; split; [right; exact He'|exact Hpe]].
      * destruct Hres as (-> & -> & Hn). splits; auto. intros e' [<-|He']; [|apply Hn, He']. intros Hre. apply reach_cases in Hre. destruct Hre as [<-|Hre]; [apply contains_In in N0; congruence|].
        apply reach1_last in Hre. destruct Hre as (y & _ & Hy). apply has_edge_nodes in Hy; [|exact WM]. destruct Hy as [_ Hy]. apply contains_In in Hy. congruence. Qed.

(** when both queues are empty, a plan means that a goal is connected to the start *)
Lemma search_complete J : Inv2 srt g all finals J -> h_queue (j_self J) = [] -> h_queue (j_other J) = [] -> forall ms P', plan_from (may_ld true) (S0 all) ms P' -> goal all P' ->
  exists e, In e finals /\ reach (has_edge (j_mov J)) (S0 all) e.
Proof. intros ((_ & _ & H1 & H2) & C1 & _) Q1 Q2 ms P' HP HG.
  assert (In (S0 all) (h_visited (j_self J))) as H0. { destruct (hi_rt _ _ _ _ _ _ H1 (S0 all) eq_refl) as [C|]; [|assumption]. unfold qs in C. rewrite Q1 in C. destruct C. }
  assert (forall s, In s (h_visited (j_self J)) -> plan_from (may_ld true) s ms P' -> exists e, In e finals /\ reach (has_edge (j_mov J)) (S0 all) e) as G; [|apply (G _ H0 HP)].
  clear H0 HP. intros s Hs HP. revert Hs. remember (may_ld true) as may eqn:Em. induction HP as [P|P l a b ms P' Ha Hb Hm HP IH]; intros Hs.
  - exists P. split; [apply Hfin, HG|]. apply (hi_rc _ _ _ _ _ _ H1 P). auto.
  - subst may. destruct (hi_ok _ _ _ _ _ _ H1 P (or_intror Hs)) as (K & _ & _). destruct Hm as (ld & d & Hl & He & Hp). destruct Hp as [Hp|[? _]]; [|discriminate].
    assert (In (l, (d, b)) (jam_options srt true g all P)) as Ho. { apply (In_options srt Hsrt g W all). exists a, ld. splits; auto. apply dget_In, Ha. }
    destruct (C1 P _ Hs Ho) as [A1 A2]. cbn [fst snd arrow] in A1, A2. rewrite upd_dset in A1, A2; [|rewrite K; exact Hall|eapply dget_Some_key; eauto|rewrite K; exact Hall|eapply dget_Some_key; eauto].
    destruct A2 as [A2|[A2|A2]]; [unfold qs in A2; rewrite Q1 in A2; destruct A2|apply IH; auto|].
    destruct (hi_rc _ _ _ _ _ _ H2 (dset l b P) (or_intror A2)) as (e & He' & Hre). exists e. split; [exact He'|]. eapply reach_trans; [apply (hi_rc _ _ _ _ _ _ H1 P); auto|]. eapply reach_cons; [exact A1|exact Hre]. Qed.

(** the path chosen by _shortest_path_multiple_ends is a shortest one *)
Lemma shortest_multi_min M fs : MI M -> exists d p, returns (fun n => shortest_multi n M (S0 all) fs) (Ok (d, p)) /\
  match p with None => d = Inf | Some p => exists e z, d = Fin z /\ wpath (edge M) (S0 all) p e z end /\
  forall e q z', In e fs -> wpath (edge M) (S0 all) q e z' -> ext_leb d (Fin z') = true.
Proof. intros HM. pose proof HM as (R & N0 & HE). pose proof (reachable_wf _ R) as WM. assert (nonneg M) as NM. { intros a b w Hw. apply HE in Hw. destruct Hw as (l & x & y & ld & _ & _ & _ & _ & Q & _). apply (Hnn _ _ _ Q). }
  unfold shortest_multi.
  assert (forall d0 p0, (match p0 with None => d0 = Inf | Some p => exists e z, d0 = Fin z /\ wpath (edge M) (S0 all) p e z end) -> exists d p, returns (fun n => foldM (fun (dp : ext * option (list state)) e => if contains M e then r <- shortest_path n M (S0 all) e [] ;; if ext_ltb (fst r) (fst dp) then Ok (fst r, Some (snd r)) else Ok dp else Ok dp) fs (d0, p0)) (Ok (d, p)) /\
     match p with None => d = Inf | Some p => exists e z, d = Fin z /\ wpath (edge M) (S0 all) p e z end /\ ext_leb d d0 = true /\
     forall e q z', In e fs -> wpath (edge M) (S0 all) q e z' -> ext_leb d (Fin z') = true) as G.
  2: { destruct (G Inf None eq_refl) as (d & p & Hr & H1 & _ & H2). exists d, p. auto. }
  assert (forall d, ext_leb d d = true) as Lr by (intros [z|]; cbn; [apply Z.leb_refl|reflexivity]).
  assert (forall a b c, ext_leb a b = true -> ext_leb b c = true -> ext_leb a c = true) as Lt.
  { intros [a|] [b|] [c|]; unfold ext_leb; cbn; intros; try discriminate; auto; lia. }
  induction fs as [|e fs IH]; intros d0 p0 H0.
  - exists d0, p0. splits; [apply returns_const; discriminate|exact H0|apply Lr|intros e q z' []].
  - destruct (contains M e) eqn:Ec.
    + destruct (shortest_path_dist M (S0 all) e WM NM N0) as (d1 & p1 & Hr1 & Hd1 & Hp1); [apply contains_In, Ec|].
      set (st := if ext_ltb d1 d0 then (d1, Some p1) else (d0, p0)).
      assert (match snd st with None => fst st = Inf | Some p => exists e z, fst st = Fin z /\ wpath (edge M) (S0 all) p e z end /\ ext_leb (fst st) d0 = true /\ ext_leb (fst st) d1 = true) as (Q1 & Q2 & Q3).
      { subst st. destruct (ext_ltb d1 d0) eqn:El; cbn [fst snd].
        - destruct d1 as [z|]; [|discriminate]. splits; [exists e, z; auto| |apply Lr]. unfold ext_leb. destruct d0; cbn in *; [lia|reflexivity].
        - splits; [exact H0|apply Lr|]. destruct d0, d1; cbn in *; try discriminate; auto; lia. }
      destruct (IH (fst st) (snd st) Q1) as (d & p & Hr & R1 & R2 & R3).
      exists d, p. splits.
      * cbn [foldM]. rewrite Ec. refine (returns_bind _ (fun n x => foldM _ fs x) st (Ok (d, p)) _ _).
        -- eapply returns_ext; [|refine (returns_bind_ok _ (fun r => if ext_ltb (fst r) d0 then (fst r, Some (snd r)) else (d0, p0)) (d1, p1) Hr1)].
           intros n. cbn [fst]. destruct (shortest_path n M (S0 all) e []) as [r| |]; cbn; [destruct (ext_ltb (fst r) d0); reflexivity|reflexivity|reflexivity].
        -- subst st. destruct (ext_ltb d1 d0); exact Hr.
      * exact R1.
      * eapply Lt; eassumption.
      * intros e' q z' [<-|He'] Hq; [|eapply R3; eauto]. eapply Lt; [exact R2|]. eapply Lt; [exact Q3|]. destruct d1 as [z|]; [|destruct (Hd1 q z' Hq)].
        destruct Hd1 as [_ Hd1]. specialize (Hd1 q z' Hq). unfold ext_leb. cbn. lia.
    + destruct (IH d0 p0 H0) as (d & p & Hr & R1 & R2 & R3). exists d, p. splits; [cbn [foldM]; rewrite Ec; exact Hr|exact R1|exact R2|].
      intros e' q z' [<-|He'] Hq; [|eapply R3; eauto]. exfalso. apply wpath_path in Hq. assert (reach (has_edge M) (S0 all) e) as Hre by (exists q; exact Hq).
      apply reach_cases in Hre. destruct Hre as [<-|Hre]; [apply contains_In in N0; congruence|].
      apply reach1_last in Hre. destruct Hre as (y & _ & Hy). apply has_edge_nodes in Hy; [|exact WM]. destruct Hy as [_ Hy]. apply contains_In in Hy. congruence. Qed.
(** the moves along a path of recorded states are as long as the path *)
Lemma path_length M s p e z : MI M -> wpath (edge M) s p e z -> exists t, p = s :: t /\ plan_length g (flat_moves (path_moves s t)) = z.
Proof. intros (_ & _ & HM). intros Hp. induction Hp as [s|s s2 p e w z Hw Hp (t & -> & IH)].
  - exists []. split; reflexivity.
  - exists (s2 :: t). split; [reflexivity|]. apply HM in Hw. destruct Hw as (l & a & b & ld & K & A & G & B & E & -> & P).
    cbn [path_moves]. rewrite (state_moves_dset s l a b); [|rewrite K; exact Hall|exact G|intros ->; apply B, (dget_dvals s l), G].
    cbn. unfold plan_length in IH |- *. cbn [sumZ fst snd]. rewrite E. f_equal. exact IH. Qed.

(** ** short plans are recorded *)
Definition good_pos (s : state) : Prop := dkeys s = dkeys all /\ NoDup (dvals s) /\ forall l a ld, dget l s = Some a -> dget l all = Some ld -> ~ In a (ld_proh ld).
Lemma good_step s l a b : good_pos s -> dget l s = Some a -> ~ In b (dvals s) -> may_ld true l a b -> good_pos (dset l b s).
Proof. intros (K & D & P) Ha Hb (ld & d & Hl & He & Hp). assert (NoDup (dkeys s)) as Dk by (rewrite K; exact Hall). hnf; splits.
  - rewrite dkeys_dset_in; [exact K|]. eapply dget_Some_key; eauto.
  - apply NoDup_dvals_dset; auto.
  - intros l' a' ld' H1 H2. rewrite dget_dset in H1. destruct (eq_dec l' l) as [->|]; [|eapply P; eauto]. injection H1 as <-. assert (ld' = ld) by congruence. subst ld'. destruct Hp as [Hp|[? _]]; [exact Hp|discriminate]. Qed.
Lemma rec_fwd M h ov s l a b d : MI M -> closed srt g all true M h ov -> In s (h_visited h) -> good_pos s -> dget l s = Some a -> ~ In b (dvals s) -> may_ld true l a b -> edge g a b = Some d ->
  edge M s (dset l b s) = Some d /\ (In (dset l b s) (qs h) \/ In (dset l b s) (h_visited h) \/ In (dset l b s) ov).
Proof. intros (_ & _ & HM) C Hv (K & _ & _) Ha Hb (ld & d' & Hl & He & Hp) Hd. assert (d' = d) by congruence. subst d'. destruct Hp as [Hp|[? _]]; [|discriminate].
  assert (In (l, (d, b)) (jam_options srt true g all s)) as Ho. { apply (In_options srt Hsrt g W all). exists a, ld. splits; auto. apply dget_In, Ha. }
  destruct (C s _ Hv Ho) as [A1 A2]. cbn [fst snd arrow] in A1, A2. rewrite upd_dset in A1, A2; [|rewrite K; exact Hall|eapply dget_Some_key; eauto|rewrite K; exact Hall|eapply dget_Some_key; eauto].
  split; [|exact A2]. destruct A1 as [w Hw]. rewrite Hw. f_equal. apply (legal_fun g all _ _ _ _ (HM _ _ _ Hw)). exists l, a, b, ld. splits; auto. Qed.
Lemma rec_bwd M h ov s l a b d : MI M -> closed srt g all false M h ov -> In (dset l b s) (h_visited h) -> good_pos s -> dget l s = Some a -> ~ In b (dvals s) -> may_ld true l a b -> edge g a b = Some d ->
  edge M s (dset l b s) = Some d /\ (In s (qs h) \/ In s (h_visited h) \/ In s ov).
Proof. intros (_ & _ & HM) C Hv (K & D & P) Ha Hb Hm Hd. pose proof Hm as (ld & d' & Hl & He & Hp). assert (d' = d) by congruence. subst d'.
  assert (NoDup (dkeys s)) as Dk by (rewrite K; exact Hall). assert (In l (dkeys s)) as Hlk by (eapply dget_Some_key; eauto).
  assert (In (l, (d, a)) (jam_options srt false g all (dset l b s))) as Ho.
  { apply (In_options srt Hsrt g W all). exists b, ld. splits; auto.
    - apply dget_In. rewrite dget_dset. destruct (eq_dec l l); congruence.
    - intros C'. apply (dvals_dset_in s l b a Dk D Hb a Ha) in C'. destruct C' as [->|[_ C']]; [|congruence]. apply Hb, (dget_dvals s l), Ha.
    - eapply P; eauto. }
  destruct (C _ _ Hv Ho) as [A1 A2]. cbn [fst snd arrow] in A1, A2.
  assert (upd (dset l b s) l a = s) as E. { rewrite upd_dset; [|rewrite dkeys_dset_in by exact Hlk; exact Dk|rewrite dkeys_dset_in by exact Hlk; exact Hlk]. rewrite dset_dset. apply dset_same, Ha. }
  rewrite E in A1, A2. split; [|exact A2]. destruct A1 as [w Hw]. rewrite Hw. f_equal. apply (legal_fun g all _ _ _ _ (HM _ _ _ Hw)). exists l, a, b, ld. splits; auto. destruct Hp as [Hp|[? _]]; [auto|discriminate]. Qed.
(** what the first round leaves behind: the states next to the start are searched forwards, those next to the only
    final state backwards *)
Definition early (J : jam L N) : Prop :=
  (forall o, In o (jam_options srt true g all (S0 all)) -> seen_by (j_self J) (upd (S0 all) (fst o) (snd (snd o)))) /\
  (forall f, finals = [f] -> forall o, In o (jam_options srt false g all f) -> seen_by (j_other J) (upd f (fst o) (snd (snd o))) \/ upd f (fst o) (snd (snd o)) = S0 all).
Lemma plan_inv (may : L -> N -> N -> Prop) (P : state) ms P' : plan_from may P ms P' -> (ms = [] /\ P' = P) \/ exists l a b ms', ms = (l, a, b) :: ms' /\ dget l P = Some a /\ ~ In b (dvals P) /\ may l a b /\ plan_from may (dset l b P) ms' P'.
Proof. intros H. inversion H; subst; [left; auto|right]. do 4 eexists. splits; [reflexivity|..]; eassumption. Qed.
Lemma short_plan J ms P' : Inv2 srt g all finals J -> h_queue (j_self J) = [] -> h_queue (j_other J) = [] -> early J -> good_pos (S0 all) ->
  plan_from (may_ld true) (S0 all) ms P' -> goal all P' -> length ms <= 3 \/ (finals = [P'] /\ length ms <= 4) ->
  exists q z, wpath (edge (j_mov J)) (S0 all) q P' z /\ (z <= plan_length g ms)%Z.
Proof. intros ((_ & HM & H1 & H2) & C1 & C2) Q1 Q2 [E1 E2] HG HP HF Hlen.
  assert (forall x, seen_by (j_self J) x -> In x (h_visited (j_self J))) as V1 by (intros x [C|C]; [unfold qs in C; rewrite Q1 in C; destruct C|exact C]).
  assert (forall x, seen_by (j_other J) x -> In x (h_visited (j_other J))) as V2 by (intros x [C|C]; [unfold qs in C; rewrite Q2 in C; destruct C|exact C]).
  assert (In (S0 all) (h_visited (j_self J))) as VS by (apply V1, (hi_rt _ _ _ _ _ _ H1 (S0 all) eq_refl)).
  assert (In P' (h_visited (j_other J))) as VE by (apply V2, (hi_rt _ _ _ _ _ _ H2 P'), Hfin, HF).
  assert (forall a b d, edge g a b = Some d -> (0 <= d)%Z) as NN by (intros; eapply Hnn; eauto).
  destruct (plan_inv _ _ _ _ HP) as [[-> EP]|(l1 & a1 & b1 & ms1 & -> & A1 & B1 & M1 & HP1)]; [rewrite EP; exists [S0 all], 0%Z; split; [constructor|reflexivity]|].
  destruct M1 as (ld1 & d1 & L1 & D1 & R1). assert (may_ld true l1 a1 b1) as M1 by (exists ld1, d1; auto).
  destruct (rec_fwd _ _ _ _ _ _ _ d1 HM C1 VS HG A1 B1 M1 D1) as [W1 _].
  pose proof (good_step _ _ _ _ HG A1 B1 M1) as G1. set (x1 := dset l1 b1 (S0 all)) in *.
  destruct (plan_inv _ _ _ _ HP1) as [[-> EP]|(l2 & a2 & b2 & ms2 & -> & A2 & B2 & M2 & HP2)].
  { rewrite EP in *. exists [S0 all; x1], (d1 + 0)%Z. split; [eapply wpath_cons; [exact W1|constructor]|]. unfold plan_length. cbn. rewrite D1. lia. }
  destruct M2 as (ld2 & d2 & L2 & D2 & R2). assert (may_ld true l2 a2 b2) as M2 by (exists ld2, d2; auto).
  assert (In x1 (h_visited (j_self J))) as VX1.
  { apply V1. destruct R1 as [R1|[? _]]; [|discriminate]. specialize (E1 (l1, (d1, b1))). cbn [fst snd] in E1.
    replace x1 with (upd (S0 all) l1 b1); [apply E1; apply (In_options srt Hsrt g W all); exists a1, ld1; splits; auto; apply dget_In, A1|].
    apply upd_dset; [destruct HG as [-> _]; exact Hall|eapply dget_Some_key; eauto]. }
  destruct (rec_fwd _ _ _ _ _ _ _ d2 HM C1 VX1 G1 A2 B2 M2 D2) as [W2 _].
  pose proof (good_step _ _ _ _ G1 A2 B2 M2) as G2. set (x2 := dset l2 b2 x1) in *.
  destruct (plan_inv _ _ _ _ HP2) as [[-> EP]|(l3 & a3 & b3 & ms3 & -> & A3 & B3 & M3 & HP3)].
  { rewrite EP in *. exists [S0 all; x1; x2], (d1 + (d2 + 0))%Z. split; [eapply wpath_cons; [exact W1|]; eapply wpath_cons; [exact W2|constructor]|]. unfold plan_length. cbn. rewrite D1, D2. lia. }
  destruct M3 as (ld3 & d3 & L3 & D3 & R3). assert (may_ld true l3 a3 b3) as M3 by (exists ld3, d3; auto).
  pose proof (good_step _ _ _ _ G2 A3 B3 M3) as G3. set (x3 := dset l3 b3 x2) in *.
  destruct (plan_inv _ _ _ _ HP3) as [[-> EP]|(l4 & a4 & b4 & ms4 & -> & A4 & B4 & M4 & HP4)].
  { rewrite EP in *. destruct (rec_bwd _ _ _ _ _ _ _ d3 HM C2 VE G2 A3 B3 M3 D3) as [W3 _].
    exists [S0 all; x1; x2; x3], (d1 + (d2 + (d3 + 0)))%Z. split; [do 3 (eapply wpath_cons; [eassumption|]); constructor|]. unfold plan_length. cbn. rewrite D1, D2, D3. lia. }
  destruct Hlen as [Hlen|[Ef Hlen]]; [cbn in Hlen; lia|].
  destruct M4 as (ld4 & d4 & L4 & D4 & R4). assert (may_ld true l4 a4 b4) as M4 by (exists ld4, d4; auto).
  destruct (plan_inv _ _ _ _ HP4) as [[-> EP]|(l5 & a5 & b5 & ms5 & -> & _)]; [|cbn in Hlen; lia]. set (x4 := dset l4 b4 x3) in *. rewrite EP in *.
  destruct (rec_bwd _ _ _ _ _ _ _ d4 HM C2 VE G3 A4 B4 M4 D4) as [W4 _]. fold x4 in W4.
  assert (In x3 (h_visited (j_other J)) \/ x3 = S0 all) as V3.
  { specialize (E2 x4 Ef (l4, (d4, a4))). cbn [fst snd] in E2. destruct G3 as (K3 & ND3 & P3). assert (NoDup (dkeys x3)) as Dk by (rewrite K3; exact Hall). assert (In l4 (dkeys x3)) as Hlk by (eapply dget_Some_key; eauto).
    assert (upd x4 l4 a4 = x3) as E. { unfold x4. rewrite upd_dset; [|rewrite dkeys_dset_in by exact Hlk; exact Dk|rewrite dkeys_dset_in by exact Hlk; exact Hlk]. rewrite dset_dset. apply dset_same, A4. }
    rewrite E in E2. destruct E2 as [E2|E2]; [|left; apply V2, E2|right; exact E2]. apply (In_options srt Hsrt g W all). exists b4, ld4. splits; auto.
    - apply dget_In. unfold x4. rewrite dget_dset. destruct (eq_dec l4 l4); congruence.
    - unfold x4. intros C'. apply (dvals_dset_in x3 l4 b4 a4 Dk ND3 B4 a4 A4) in C'. destruct C' as [->|[_ C']]; [|congruence]. apply B4, (dget_dvals x3 l4), A4.
    - eapply P3; eauto. }
  pose proof (NN _ _ _ D1). pose proof (NN _ _ _ D2). pose proof (NN _ _ _ D3). pose proof (NN _ _ _ D4).
  destruct V3 as [V3|V3].
  - destruct (rec_bwd _ _ _ _ _ _ _ d3 HM C2 V3 G2 A3 B3 M3 D3) as [W3 _].
    exists [S0 all; x1; x2; x3; x4], (d1 + (d2 + (d3 + (d4 + 0))))%Z. split; [do 4 (eapply wpath_cons; [eassumption|]); constructor|]. unfold plan_length. cbn. rewrite D1, D2, D3, D4. lia.
  - clearbody x4. rewrite V3 in W4. exists [S0 all; x4], (d4 + 0)%Z. split; [eapply wpath_cons; [exact W4|constructor]|]. unfold plan_length. cbn. rewrite D1, D2, D3, D4. lia. Qed.

Section Early.
Context (ordS : list state -> list state) (dms : dict L (dict N Z)) (Hdms : forall l, In l (dkeys all) -> exists m, dget l dms = Some m /\ m <> []).
Lemma early_keep J0 J J' : h_queue (j_self J0) <> [] -> (forall e, In e (h_queue (j_self J0)) -> e_loads e = S0 all) -> h_visited (j_self J0) = [] -> h_visited (j_other J0) = [] -> map e_loads (h_queue (j_other J0)) = finals ->
  Inv2 srt g all finals J -> J = J0 \/ early J -> jam_round srt ordS g all finals dms 0 false J = Ok J' -> early J'.
Proof. intros N1 N2 N3 N4 N5 HI HQ ER. destruct HQ as [->|[E1 E2]].
  - destruct HI as (I1 & C1 & C2). unfold jam_round in ER. destruct (jam_find_spec srt Hsrt ordS (fun _ => 0%Z) g W all Hall finals dms Hdms 0 true false J0 I1 C1 C2) as (J1 & EF1 & I1' & C1' & C2' & O1 & D1 & G1). rewrite EF1 in ER. cbn [bind] in ER.
    pose proof I1' as (St & M1 & H1 & H2). rewrite St in ER. assert (Inv1 g all finals false (swap_jam J1)) as I2 by (hnf; cbn; auto).
    destruct (jam_find_spec srt Hsrt ordS (fun _ => 0%Z) g W all Hall finals dms Hdms 0 false false (swap_jam J1) I2) as (J2 & EF2 & I2' & C3 & C4 & O2 & D2 & G2); [exact C2'|exact C1'|]. rewrite EF2 in ER. cbn [bind] in ER. injection ER as <-.
    assert (h_visited (j_self J1) = [S0 all]) as V1. { destruct (h_queue (j_self J0)) as [|e q] eqn:Eq; [congruence|]. destruct D1 as [_ ->]. rewrite N3, (N2 e (or_introl eq_refl)). reflexivity. }
    split.
    + intros o Ho. cbn [swap_jam j_self]. rewrite O2. cbn [swap_jam j_other]. specialize (C1' (S0 all) o). rewrite V1, O1, N4 in C1'. destruct (C1' (or_introl eq_refl) Ho) as [_ [C|[C|[]]]]; [left; exact C|right; exact C].
    + intros f Ef o Ho. cbn [swap_jam j_other]. cbn [swap_jam j_self j_other] in D2, O2. rewrite O1 in D2. destruct (h_queue (j_other J0)) as [|e q]; [rewrite Ef in N5; discriminate|]. cbn [map] in N5. rewrite Ef in N5. injection N5 as N5 N6.
      destruct D2 as [_ D2]. rewrite N4, N5 in D2. specialize (C3 f o). rewrite D2, O2, V1 in C3. destruct C3 as [_ [C|[C|[C|[]]]]]; [left; reflexivity|exact Ho|left; left; exact C|left; right; exact C|right; symmetry; exact C].
  - destruct (jam_round_spec srt Hsrt ordS (fun _ => 0%Z) g W all Hall finals dms Hdms 0 false J HI) as (J2 & ER2 & _ & _ & _ & G1 & G2). rewrite ER in ER2. injection ER2 as <-. split.
    + intros o Ho. apply G1, E1, Ho.
    + intros f Ef o Ho. destruct (E2 f Ef o Ho); [left; apply G2; assumption|right; assumption]. Qed.
End Early.
End Plan.
