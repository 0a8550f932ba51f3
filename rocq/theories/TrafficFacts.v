(** Facts about Timer, is_ap_solvable and moves_to_synchronous_moves *)
From Coq Require Import Sorted.
From Verif Require Import Prelude PreludeFacts Base Loop TrafficSpec Traffic SearchFacts.

(** ** Timer *)
Fixpoint timer_run (t : timer) (now : list Z) : list bool :=
  match now with [] => [] | x :: r => let '(b, t') := expired t x in b :: timer_run t' r end.
Definition over (limit : ext) (start now : Z) : Prop := match limit with Inf => False | Fin l => (l < now - start)%Z end.
Lemma timer_run_expired t now i : t_expired t = true -> i < length now -> nth i (timer_run t now) false = true.
Proof. intros E. revert i. induction now as [|x now IH]; intros i Hi; cbn in Hi; [lia|]. cbn. unfold expired. rewrite E. destruct i; [reflexivity|apply IH; lia]. Qed.
Lemma ext_ltb_over limit start now : ext_ltb limit (Fin (now - start)) = true <-> over limit start now.
Proof. destruct limit as [l|]; cbn; [apply Z.ltb_lt|split; [discriminate|tauto]]. Qed.
(** with counter c the next check is call number c, then every 101st *)
Lemma timer_run_spec limit start : forall now c i, i < length now ->
  (nth i (timer_run (mkTimer limit start c false) now) false = true <->
   exists j, j < i /\ c <= j /\ (j - c) mod 101 = 0 /\ over limit start (nth j now 0%Z)).
Proof. induction now as [|x now IH]; intros c i Hi; cbn [length] in Hi; [lia|]. cbn [timer_run expired t_expired t_counter]. destruct c as [|c].
  - cbn [t_limit t_start]. destruct i as [|i].
    + cbn. split; [discriminate|]. intros (j & Hj & _). lia.
    + cbn [nth]. destruct (ext_ltb limit (Fin (x - start))) eqn:E.
      * rewrite timer_run_expired by (auto; cbn; lia). split; [|reflexivity]. intros _. exists 0. splits; try lia; [reflexivity|]. apply ext_ltb_over, E.
      * rewrite IH by lia. split.
        -- intros (j & H1 & H2 & H3 & H4). exists (S j). splits; [lia|lia| |exact H4]. replace (S j - 0) with ((j - 100) + 1 * 101) by lia. rewrite Nat.mod_add by lia. exact H3.
        -- intros (j & H1 & _ & H3 & H4). rewrite Nat.sub_0_r in H3. destruct j as [|j]; [cbn in H4; apply ext_ltb_over in H4; congruence|]. cbn in H4.
           assert (101 <= S j) as Hj. { destruct (Nat.lt_ge_cases (S j) 101) as [Hlt|]; [|assumption]. rewrite Nat.mod_small in H3 by exact Hlt. lia. }
           exists j. splits; [lia|lia| |exact H4]. replace (S j) with ((j - 100) + 1 * 101) in H3 by lia. rewrite Nat.mod_add in H3 by lia. exact H3.
  - destruct i as [|i]; cbn [nth].
    + split; [discriminate|]. intros (j & Hj & _). lia.
    + rewrite IH by lia. split.
      * intros (j & H1 & H2 & H3 & H4). exists (S j). splits; [lia|lia| |exact H4]. exact H3.
      * intros (j & H1 & H2 & H3 & H4). destruct j as [|j]; [lia|]. exists j. splits; [lia|lia| |exact H4]. exact H3. Qed.

(** ** is_ap_solvable *)
Section Ap.
Context {L E : Type} {EL : EqDec L} {EE : EqDec E} (pick : nat -> list E -> E) (Hpick : forall i l, l <> [] -> In (pick i l) l).
Lemma ap_loop_sound items : forall i all, ap_loop pick i all items = true -> exists cs, Forall2 (fun (x : L * list E) c => In c (snd x)) items cs /\ NoDup cs /\ incl cs all.
Proof. induction items as [|[l ends] t IH]; intros i all H; cbn in H.
  - exists []. splits; [constructor|constructor|intros x []].
  - destruct (filter (fun x => mem x all) (set_of ends)) as [|o os] eqn:Eo; [discriminate|]. destruct (IH _ _ H) as (cs & F & D & I).
    assert (In (pick i (o :: os)) (filter (fun x => mem x all) (set_of ends))) as Hp by (rewrite Eo; apply Hpick; discriminate). apply filter_In in Hp. destruct Hp as [P1 P2]. apply (proj1 (In_set_of _ _)) in P1. apply mem_In in P2.
    exists (pick i (o :: os) :: cs). splits.
    + constructor; [exact P1|exact F].
    + constructor; [|exact D]. intros C. apply I, In_sremove in C. tauto.
    + intros x [<-|Hx]; [exact P2|]. apply I, In_sremove in Hx. tauto. Qed.
(** the load that finds no end left: all its ends have been picked by earlier loads *)
Lemma ap_loop_false items : forall i all, ap_loop pick i all items = false ->
  exists pre (l : L) ends post ps, items = pre ++ (l, ends) :: post /\ Forall2 (fun (x : L * list E) c => In c (snd x)) pre ps /\ (forall x, In x ends -> In x all -> In x ps).
Proof. induction items as [|[l ends] t IH]; intros i all H; cbn in H; [discriminate|].
  destruct (filter (fun x => mem x all) (set_of ends)) as [|o os] eqn:Eo.
  - exists [], l, ends, t, []. splits; [reflexivity|constructor|]. intros x Hx Ha.
    assert (In x (filter (fun x => mem x all) (set_of ends))) as C; [|rewrite Eo in C; exact C]. apply filter_In. split; [apply In_set_of, Hx|apply mem_In, Ha].
  - destruct (IH (S i) (sremove (pick i (o :: os)) all) H) as (pre & l' & e' & post & ps & -> & F & Hf).
    assert (In (pick i (o :: os)) (filter (fun x => mem x all) (set_of ends))) as Hp by (rewrite Eo; apply Hpick; discriminate). apply filter_In in Hp. destruct Hp as [P1 P2]. apply (proj1 (In_set_of _ _)) in P1. apply mem_In in P2.
    exists ((l, ends) :: pre), l', e', post, (pick i (o :: os) :: ps). splits; cbn; auto.
    intros x Hx Ha. destruct (eq_dec (pick i (o :: os)) x) as [|Hne]; [auto|]. right. apply Hf; [exact Hx|]. apply In_sremove. auto. Qed.
(** pigeonhole: the loads whose ends are among [ends] cannot be more than the ends *)
Lemma assign_bound items cs ends : Forall2 (fun (x : L * list E) c => In c (snd x)) items cs -> NoDup cs ->
  length (filter (fun x : L * list E => forallb (fun e => mem e ends) (snd x)) items) <= length (set_of ends).
Proof. intros F D.
  assert (exists cs', length cs' = length (filter (fun x : L * list E => forallb (fun e => mem e ends) (snd x)) items) /\ NoDup cs' /\ incl cs' cs /\ incl cs' ends) as (cs' & <- & D' & _ & I).
  { induction F as [|x c items cs Hc F IH]; [exists []; splits; [reflexivity|constructor|intros y []|intros y []]|].
    apply NoDup_cons_iff in D. destruct D as [D1 D2]. destruct (IH D2) as (cs' & E1 & E2 & E3 & E4). cbn. destruct (forallb (fun e => mem e ends) (snd x)) eqn:Ef.
    - exists (c :: cs'). splits; [cbn; auto|constructor; [intros C; apply D1, E3, C|exact E2]|intros y [<-|Hy]; [left; reflexivity|right; apply E3, Hy]|].
      intros y [<-|Hy]; [|apply E4, Hy]. rewrite forallb_forall in Ef. apply mem_In, Ef, Hc.
    - exists cs'. splits; auto. intros y Hy. right. apply E3, Hy. }
  apply NoDup_incl_length; [exact D'|]. intros x Hx. apply In_set_of, I, Hx. Qed.
Lemma covered_count pre ps ends : Forall2 (fun (x : L * list E) c => In c (snd x)) pre ps -> (forall x, In x ends -> In x ps) -> NoDup ends ->
  (forall l e c, In (l, e) pre -> In c e -> In c ends -> incl e ends) -> length ends <= length (filter (fun x : L * list E => forallb (fun e => mem e ends) (snd x)) pre).
Proof. intros F Hc D Hs.
  assert (forall ends', incl ends' ends -> NoDup ends' -> (forall x, In x ends' -> In x ps) -> length ends' <= length (filter (fun x : L * list E => forallb (fun e => mem e ends) (snd x)) pre)) as G; [|apply G; auto; intros x; auto].
  clear Hc D. induction F as [|[l e] c pre ps Hc F IH]; intros ends' Hi D Hp.
  - destruct ends' as [|x t]; [cbn; lia|]. destruct (Hp x); left; reflexivity.
  - cbn. assert (forall l0 e0 c0, In (l0, e0) pre -> In c0 e0 -> In c0 ends -> incl e0 ends) as Hs' by (intros l0 e0 c0 H0; apply (Hs l0 e0 c0); right; exact H0). specialize (IH Hs').
    destruct (In_dec' c ends') as [Hin|Hni].
    + assert (incl e ends) as Hie by (apply (Hs l e c); [left; reflexivity|exact Hc|apply Hi, Hin]).
      assert (forallb (fun e0 => mem e0 ends) e = true) as ->. { apply forallb_forall. intros y Hy. apply mem_In, Hie, Hy. }
      cbn. destruct (in_split _ _ Hin) as (l1 & l2 & ->). rewrite app_length. cbn. enough (length (l1 ++ l2) <= length (filter (fun x : L * list E => forallb (fun e => mem e ends) (snd x)) pre)) by (rewrite app_length in *; lia).
      apply IH.
      * intros y Hy. apply Hi. apply in_app_iff in Hy. apply in_app_iff. cbn. tauto.
      * apply NoDup_remove_1 in D. exact D.
      * intros x Hx. destruct (Hp x) as [->|]; [apply in_app_iff in Hx; apply in_app_iff; cbn; tauto| |assumption]. apply NoDup_remove_2 in D. contradiction.
    + assert (length ends' <= length (filter (fun x : L * list E => forallb (fun e => mem e ends) (snd x)) pre)) as K.
      { apply IH; auto. intros x Hx. destruct (Hp x Hx) as [->|]; [contradiction|assumption]. }
      destruct (forallb (fun e0 => mem e0 ends) e); cbn; lia. Qed.
Lemma assignable_perm (a b : dict L (list E)) : Permutation a b -> assignable a -> assignable b.
Proof. intros P (cs & F & D). revert cs F D. induction P as [|x a b P IH|x y a|a b c P1 IH1 P2 IH2]; intros cs F D.
  - exists cs. auto.
  - inversion F as [|? c ? cs0 Hc F0]; subst. apply NoDup_cons_iff in D. destruct D as [D1 D2].
    assert (exists cs', Forall2 (fun (x : L * list E) c => In c (snd x)) b cs' /\ Permutation cs0 cs') as (cs' & F' & Pc).
    { clear - P F0. revert cs0 F0. induction P as [|x a b P IH|x y a|a b c P1 IH1 P2 IH2]; intros cs F.
      - exists cs. auto.
      - inversion F as [|? c ? cs0 Hc F0]; subst. destruct (IH _ F0) as (cs' & F' & P'). exists (c :: cs'). split; [constructor; auto|constructor; auto].
      - inversion F as [|? c ? cs0 Hc F0]; subst. inversion F0 as [|? c' ? cs1 Hc' F1]; subst. exists (c' :: c :: cs1). split; [repeat constructor; auto|constructor].
      - destruct (IH1 _ F) as (c1 & F1 & Q1). destruct (IH2 _ F1) as (c2 & F2 & Q2). exists c2. split; [exact F2|]. eapply perm_trans; eauto. }
    exists (c :: cs'). split; [constructor; auto|]. constructor; [|apply (Permutation_NoDup Pc), D2]. intros C. apply D1. apply (Permutation_in _ (Permutation_sym Pc)), C.
  - inversion F as [|? c ? cs0 Hc F0]; subst. inversion F0 as [|? c' ? cs1 Hc' F1]; subst. exists (c' :: c :: cs1). split; [repeat constructor; auto|].
    apply (Permutation_NoDup (perm_swap c' c cs1)), D.
  - destruct (IH1 _ F D) as (c1 & F1 & D1). exact (IH2 _ F1 D1). Qed.
End Ap.

(** ** moves_to_synchronous_moves *)
Section Sync.
Context {L N : Type} {EL : EqDec L} {EN : EqDec N}.
Notation move := (L * N * N)%type.
Implicit Types (P : dict L N) (ms : list move).
Definition item (kv : L * (N * N)) : move := (fst kv, fst (snd kv), snd (snd kv)).
Lemma dvals_dset_in P l b x : NoDup (dkeys P) -> NoDup (dvals P) -> ~ In b (dvals P) -> forall a, dget l P = Some a -> (In x (dvals (dset l b P)) <-> x = b \/ (In x (dvals P) /\ x <> a)).
Proof. intros Hk Hv Hb a Ha. induction P as [|[k v] P IH]; [discriminate|]. cbn in *. apply NoDup_cons_iff in Hk, Hv. destruct Hk as [K1 K2], Hv as [V1 V2].
  destruct (eq_dec l k) as [->|Hne].
  - inversion Ha; subst v. cbn. split.
    + intros [->|Hx]; [auto|]. right. split; [auto|]. intros ->. contradiction.
    + intros [->|[[->|Hx] Hxa]]; [auto|congruence|auto].
  - cbn. rewrite IH by (auto; tauto). split.
    + intros [->|[->|[Hx Hxa]]]; [|auto|auto]. right. split; [auto|]. intros ->. apply V1. apply in_map_iff. exists (l, a). split; [reflexivity|]. apply dget_In, Ha.
    + intros [->|[[->|Hx] Hxa]]; auto. Qed.
Lemma NoDup_dvals_dset P l b : NoDup (dkeys P) -> NoDup (dvals P) -> ~ In b (dvals P) -> NoDup (dvals (dset l b P)).
Proof. intros Hk Hv Hb. induction P as [|[k v] P IH]; cbn; [constructor; [intros []|constructor]|]. cbn in *. apply NoDup_cons_iff in Hk, Hv. destruct Hk as [K1 K2], Hv as [V1 V2].
  destruct (eq_dec l k) as [->|Hne]; cbn; constructor; [tauto|exact V2| |apply IH; tauto].
  - intros C. apply in_map_iff in C. destruct C as ([k' v'] & E & C). cbn in E. subst v'. apply V1. apply in_map_iff.
    clear - C Hb K2 Hne. induction P as [|[k2 v2] P IH]; cbn in *; [destruct C as [C|[]]; inversion C; subst; tauto|]. apply NoDup_cons_iff in K2. destruct K2.
    destruct (eq_dec l k2) as [->|]; cbn in C; destruct C as [C|C].
    + inversion C; subst. tauto.
    + exists (k', v). auto.
    + inversion C; subst. exists (k', v). auto.
    + destruct IH as ([a2 b2] & E2 & H2); [tauto|tauto|exact C|]. cbn in *. subst. exists (a2, v). auto. Qed.

(** one round on a legal plan: the longest prefix without a repeated load *)
Lemma sync_scan_legal may : forall ms P P' cur occ, plan_from may P ms P' -> NoDup (dkeys P) -> NoDup (dvals P) -> (forall x, In x occ <-> In x (dvals P)) -> NoDup (dkeys cur) ->
  exists done rest occ' P1, ms = map item done ++ rest /\ sync_scan ms cur occ ms = Ok (cur ++ done, occ', rest) /\ plan_from may P1 rest P' /\ NoDup (dkeys P1) /\ NoDup (dvals P1) /\
    (forall x, In x occ' <-> In x (dvals P1)) /\ NoDup (dkeys (cur ++ done)) /\
    (rest = [] \/ exists l a b t, rest = (l, a, b) :: t /\ In l (dkeys (cur ++ done))).
Proof. induction ms as [|[[l a] b] ms IH]; intros P P' cur occ HP Hk Hv Ho Hc.
  - exists [], [], occ, P. rewrite (app_nil_r cur). splits; auto.
  - inversion HP; subst. cbn [sync_scan]. destruct (dmem l cur) eqn:Em.
    + exists [], ((l, a, b) :: ms), occ, P. rewrite (app_nil_r cur). splits; auto. right. exists l, a, b, ms. split; [reflexivity|]. apply dmem_key, Em.
    + match goal with K : ~ In b (dvals P) |- _ => rename K into Hb end. match goal with K : dget l P = Some a |- _ => rename K into Ha end.
      assert (mem b occ = false) as -> by (apply mem_notIn; rewrite Ho; exact Hb). assert (mem a occ = true) as ->.
      { apply mem_In, Ho. apply in_map_iff. exists (l, a). split; [reflexivity|apply dget_In, Ha]. }
      assert (lremove (l, a, b) ((l, a, b) :: ms) = ms) as ->. { cbn [lremove]. destruct (eq_dec (l, a, b) (l, a, b)); [reflexivity|congruence]. }
      apply dmem_nokey in Em.
      destruct (IH (dset l b P) P' (dset l (a, b) cur) (sadd b (sremove a occ))) as (done & rest & occ' & P1 & E1 & E2 & H1 & H2 & H3 & H4 & H5 & H6); auto.
      * apply NoDup_dset, Hk.
      * apply NoDup_dvals_dset; auto.
      * intros x. rewrite In_sadd, In_sremove, Ho, (dvals_dset_in P l b x Hk Hv Hb a Ha). tauto.
      * apply NoDup_dset, Hc.
      * rewrite dset_notin in * by exact Em. rewrite <- app_assoc in *. cbn [app] in *. exists ((l, (a, b)) :: done), rest, occ', P1. splits; auto. cbn. rewrite <- E1. reflexivity. Qed.

Definition SyncInv may (all : list move) (P' : dict L N) (st : list move * list N * list (dict L (N * N))) : Prop :=
  let '(ms, occ, out) := st in exists P, plan_from may P ms P' /\ NoDup (dkeys P) /\ NoDup (dvals P) /\ (forall x, In x occ <-> In x (dvals P)) /\
    all = flat_map (map item) out ++ ms /\ (forall c, In c out -> c <> [] /\ NoDup (dkeys c)) /\
    (forall o1 c o2, out = o1 ++ c :: o2 -> match flat_map (map item) o2 ++ ms with [] => True | (l, _, _) :: _ => In l (dkeys c) end).
Lemma sync_spec may P (mv : list (dict L (N * N))) P' : plan_from may P (flat_moves mv) P' -> NoDup (dkeys P) -> NoDup (dvals P) ->
  exists out, returns (fun n => moves_to_synchronous_moves n mv P) (Ok out) /\ SyncInv may (flat_moves mv) P' ([], set_of (dvals P'), out).
Proof. intros HP Hk Hv. unfold moves_to_synchronous_moves.
  destruct (loop_returns_nat sync_step (SyncInv may (flat_moves mv) P') (fun st => length (fst (fst st))) (fun r => exists out, r = Ok out /\ SyncInv may (flat_moves mv) P' ([], set_of (dvals P'), out)))
    with (s := (flat_moves mv, set_of (dvals P), @nil (dict L (N * N)))) as (r & Hr & out & -> & HI).
  - intros [[m occ] out] (Q & H1 & H2 & H3 & H4 & H5 & H6 & H7). unfold sync_step. destruct m as [|x m].
    + split; [discriminate|]. exists out. split; [reflexivity|]. inversion H1; subst. exists P'. splits; auto. intros y. apply In_set_of.
    + destruct (sync_scan_legal may (x :: m) Q P' [] occ H1 H2 H3 H4 (NoDup_nil _)) as (done & rest & occ' & P1 & E1 & E2 & I1 & I2 & I3 & I4 & I5 & I6). cbn [app] in *.
      assert (done <> []) as Hd. { intros ->. destruct I6 as [->|(l & a & b & t & _ & [])]. discriminate. }
      rewrite E2. split.
      * exists P1. splits; auto.
        -- rewrite H5, flat_map_app, <- app_assoc. cbn. rewrite app_nil_r, E1. reflexivity.
        -- intros c Hc. apply in_app_iff in Hc. destruct Hc as [Hc|[<-|[]]]; [apply H6, Hc|]. split; [exact Hd|exact I5].
        -- intros o1 c o2 Eo. destruct o2 as [|c2 o2 _] using rev_ind.
           ++ apply app_inj_tail in Eo. destruct Eo as [-> ->]. cbn. destruct I6 as [->|(l & a & b & t & -> & Hl)]; [exact Logic.I|exact Hl].
           ++ rewrite app_comm_cons, app_assoc in Eo. apply app_inj_tail in Eo. destruct Eo as [-> <-]. specialize (H7 o1 c o2 eq_refl). rewrite E1 in H7. rewrite flat_map_app. cbn. rewrite app_nil_r, <- app_assoc. exact H7.
      * cbn [fst]. rewrite E1, app_length, map_length. destruct done; [congruence|cbn; lia].
  - exists P. splits; auto.
    + intros x. apply In_set_of.
    + intros c [].
    + intros o1 c o2 Eo. destruct o1; discriminate.
  - exists out. split; [exact Hr|exact HI]. Qed.
End Sync.
