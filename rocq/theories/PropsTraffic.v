(** Property theorems C59, C62, C63 (is_ap_solvable, moves_to_synchronous_moves, Timer). *)
From Coq Require Import Sorted.
From Verif Require Import Prelude PreludeFacts Base Loop TrafficSpec Traffic TrafficFacts.

(** ** C63 *)
(** The answers of a series of calls; [now] are the clock readings, one per call. *)
Theorem C63_timer_exact timeout start t now i : timer_new timeout start = Ok t -> i < length now ->
  (nth i (timer_run t now) false = true <->
   exists limit j, timeout = Some limit /\ j < i /\ j mod 101 = 0 /\ (limit < nth j now 0 - start)%Z).
Proof. intros E Hi. unfold timer_new in E. destruct timeout as [l|].
  - destruct (l <? 0)%Z; [discriminate|]. inversion E; subst t. rewrite timer_run_spec by exact Hi. split.
    + intros (j & H1 & _ & H2 & H3). rewrite Nat.sub_0_r in H2. exists l, j. auto.
    + intros (l' & j & E' & H1 & H2 & H3). inversion E'; subst l'. exists j. rewrite Nat.sub_0_r. splits; auto; lia.
  - inversion E; subst t. rewrite timer_run_spec by exact Hi. split.
    + intros (j & H1 & _ & H2 & []).
    + intros (l' & j & E' & _). discriminate. Qed.
(** in particular: once True it stays True, and with a clock that does not run backwards it is True at every call
    more than 101 calls after the time has run out *)
Theorem C63_timer_stays timeout start t now i k : timer_new timeout start = Ok t -> k < length now -> i <= k ->
  nth i (timer_run t now) false = true -> nth k (timer_run t now) false = true.
Proof. intros E Hk Hi H. apply (C63_timer_exact _ _ _ _ _ E) in H; [|lia]. destruct H as (l & j & H1 & H2 & H3 & H4).
  apply (C63_timer_exact _ _ _ _ _ E Hk). exists l, j. splits; auto; lia. Qed.
Theorem C63_timer_notices limit start t now i k : timer_new (Some limit) start = Ok t -> k < length now -> i + 101 <= k ->
  (forall a b, a <= b -> b < length now -> (nth a now 0 <= nth b now 0)%Z) -> (limit < nth i now 0 - start)%Z -> nth k (timer_run t now) false = true.
Proof. intros E Hk Hi Hm Hl. apply (C63_timer_exact _ _ _ _ _ E Hk). exists limit.
  pose proof (Nat.div_mod (i + 100) 101) as D. pose proof (Nat.mod_upper_bound (i + 100) 101) as B. exists (101 * ((i + 100) / 101)). splits; [reflexivity|lia| |].
  - rewrite Nat.mul_comm. apply Nat.mod_mul. lia.
  - assert (i <= 101 * ((i + 100) / 101)) as Hle by lia. specialize (Hm i (101 * ((i + 100) / 101)) Hle). lia. Qed.
Theorem C63_timer_negative limit start : (exists t, timer_new (Some limit) start = Ok t) <-> (0 <= limit)%Z.
Proof. cbn. destruct (limit <? 0)%Z eqn:E; split.
  - intros [t H]. discriminate.
  - intros H. apply Z.ltb_lt in E. lia.
  - intros _. apply Z.ltb_ge in E. exact E.
  - eauto. Qed.
Example ex_timer : exists t, timer_new (Some 5%Z) 10%Z = Ok t /\ nth 101 (timer_run t (repeat 16%Z 200)) false = true /\ nth 0 (timer_run t (repeat 16%Z 200)) false = false /\
  nth 101 (timer_run t (repeat 15%Z 101 ++ repeat 16%Z 200)) false = false /\ nth 102 (timer_run t (repeat 15%Z 101 ++ repeat 16%Z 200)) false = true.
Proof. eexists. splits; vm_compute; reflexivity. Qed.

(** ** C59 *)
Section Ap.
Context {L E : Type} {EL : EqDec L} {EE : EqDec E}.
Implicit Types (a : dict L (list E)).
(** sorted(items, key=len) *)
Definition sorts_by_len (srt : dict L (list E) -> dict L (list E)) : Prop :=
  forall a, Permutation (srt a) a /\ StronglySorted (fun x y => length (snd x) <= length (snd y)) (srt a).
(** True is right, whatever set.pop() picks *)
Theorem C59_solvable_sound_partial srt pick a : sorts_by_len srt -> (forall i l, l <> [] -> In (pick i l) l) ->
  is_ap_solvable srt pick a = true -> assignable a.
Proof. intros Hs Hp H. unfold is_ap_solvable in H. apply (ap_loop_sound pick Hp) in H. destruct H as (cs & F & D & _).
  apply (assignable_perm (srt a)); [apply Hs|]. exists cs. auto. Qed.
(** the answer is exact if any two sets of ends are nested or disjoint *)
Theorem C59_laminar_exact_partial srt pick a : sorts_by_len srt -> (forall i l, l <> [] -> In (pick i l) l) ->
  (forall l e, In (l, e) a -> NoDup e) ->
  (forall l e l' e' x, In (l, e) a -> In (l', e') a -> In x e -> In x e' -> incl e e' \/ incl e' e) ->
  (is_ap_solvable srt pick a = true <-> assignable a).
Proof. intros Hs Hp Hn Hl. split; [apply C59_solvable_sound_partial; auto|]. intros HA. destruct (is_ap_solvable srt pick a) eqn:Es; [reflexivity|exfalso].
  destruct (Hs a) as [P S]. apply (assignable_perm _ (srt a)) in HA; [|apply Permutation_sym, P]. destruct HA as (cs & F & D).
  unfold is_ap_solvable in Es. apply (ap_loop_false pick Hp) in Es. destruct Es as (pre & l & ends & post & ps & Ea & Fp & Hc).
  assert (forall x, In x (srt a) -> In x a) as Hin by (intros x; apply Permutation_in, P). rewrite Ea in *.
  assert (In (l, ends) a) as Hle by (apply Hin, in_app_iff; right; left; reflexivity). assert (NoDup ends) as Hnd by exact (Hn _ _ Hle).
  assert (length ends <= length (filter (fun x : L * list E => forallb (fun e => mem e ends) (snd x)) pre)) as K1.
  { apply (covered_count pre ps); auto.
    - intros x Hx. apply Hc; [exact Hx|]. apply In_set_of, in_concat. exists ends. split; [apply in_map_iff; exists (l, ends); auto|exact Hx].
    - intros l' e' c He' Hc1 Hc2. assert (In (l', e') a) as Ha' by (apply Hin, in_app_iff; left; exact He').
      destruct (Hl l' e' l ends c Ha' Hle Hc1 Hc2) as [|Hi]; [assumption|].
      assert (length e' <= length ends) as Hlen.
      { clear - S He'. induction pre as [|x pre IH]; [destruct He'|]. cbn in S. apply StronglySorted_inv in S. destruct S as [S1 S2]. destruct He' as [->|He']; [|apply IH; auto].
        rewrite Forall_forall in S2. apply (S2 (l, ends)). apply in_app_iff. right. left. reflexivity. }
      apply NoDup_length_incl; [exact Hnd|exact Hlen|exact Hi]. }
  pose proof (assign_bound _ cs ends F D) as K2. rewrite filter_app, app_length in K2. cbn in K2.
  assert (forallb (fun e => mem e ends) ends = true) as Ef by (apply forallb_forall; intros y Hy; apply mem_In, Hy). rewrite Ef in K2. cbn in K2.
  assert (length (set_of ends) <= length ends) as K3. { apply NoDup_incl_length; [apply NoDup_set_of|]. intros x Hx. apply In_set_of, Hx. } lia. Qed.
(** ... and for one or two loads, whatever their ends *)
Theorem C59_two_loads_partial srt pick a : sorts_by_len srt -> (forall i l, l <> [] -> In (pick i l) l) ->
  (forall l e, In (l, e) a -> NoDup e) -> length a <= 2 -> (is_ap_solvable srt pick a = true <-> assignable a).
Proof. intros Hs Hp Hn H2. split; [apply C59_solvable_sound_partial; auto|]. intros HA. destruct (is_ap_solvable srt pick a) eqn:Es; [reflexivity|exfalso].
  destruct (Hs a) as [P S]. apply (assignable_perm _ (srt a)) in HA; [|apply Permutation_sym, P]. destruct HA as (cs & F & D).
  unfold is_ap_solvable in Es. apply (ap_loop_false pick Hp) in Es. destruct Es as (pre & l & ends & post & ps & Ea & Fp & Hc).
  assert (forall x, In x (srt a) -> In x a) as Hin by (intros x; apply Permutation_in, P). rewrite <- (Permutation_length P) in H2. rewrite Ea in *.
  assert (In (l, ends) a) as Hle by (apply Hin, in_app_iff; right; left; reflexivity).
  assert (forall x, In x ends -> In x ps) as Hcov. { intros x Hx. apply Hc; [exact Hx|]. apply In_set_of, in_concat. exists ends. split; [apply in_map_iff; exists (l, ends); auto|exact Hx]. }
  destruct pre as [|[l1 e1] [|? ?]]; [| |rewrite app_length in H2; cbn in H2; lia].
  - inversion Fp; subst ps. inversion F as [|? c ? ? Hc1 _]; subst. apply (Hcov c Hc1).
  - inversion Fp as [|? p ? ps' Hp1 Fp']; subst. inversion Fp'; subst. inversion F as [|? c1 ? cs1 Hc1 F1]; subst. inversion F1 as [|? c2 ? cs2 Hc2 F2]; subst. cbn [snd] in *.
    assert (length e1 <= length ends) as Hlen. { cbn in S. apply StronglySorted_inv in S. destruct S as [_ S]. rewrite Forall_forall in S. apply (S (l, ends)). left. reflexivity. }
    assert (length ends <= 1) as L1 by (apply (NoDup_incl_length (l' := [p])); [exact (Hn _ _ Hle)|exact Hcov]).
    destruct (Hcov c2 Hc2) as [<-|[]]. assert (c1 = p) as ->; [|apply NoDup_cons_iff in D; apply (proj1 D); left; reflexivity].
    destruct e1 as [|x [|y e1]]; [destruct Hc1| |cbn in Hlen; lia]. destruct Hc1 as [<-|[]], Hp1 as [<-|[]]. reflexivity. Qed.
End Ap.
(** C59 fails: {1,2}, {2,3}, {1,2} can be served by 1, 3, 2, but picking 1 and 2 for the first two leaves nothing *)
Fixpoint insert_len {L E} (x : L * list E) (l : dict L (list E)) : dict L (list E) :=
  match l with [] => [x] | y :: t => if length (snd x) <=? length (snd y) then x :: l else y :: insert_len x t end.
Definition sort_len {L E} (a : dict L (list E)) : dict L (list E) := fold_right insert_len [] a.
Lemma sort_len_ok {L E} : @sorts_by_len L E sort_len.
Proof. assert (forall (x : L * list E) l, Permutation (insert_len x l) (x :: l)) as P.
  { intros x l. induction l as [|y t IH]; cbn; [reflexivity|]. destruct (length (snd x) <=? length (snd y)); [reflexivity|]. rewrite IH. apply perm_swap. }
  intros a. induction a as [|x a [I1 I2]]; cbn; [split; [reflexivity|constructor]|]. split; [rewrite P, I1; reflexivity|].
  clear I1. fold (sort_len a). revert I2. generalize (sort_len a) as s. intros s I2. induction s as [|y t IH]; cbn. { constructor; constructor. }
  apply StronglySorted_inv in I2. destruct I2 as [S1 S2]. destruct (Nat.leb_spec (length (snd x)) (length (snd y))).
  - constructor; [constructor; auto|]. constructor; [assumption|]. eapply Forall_impl; [|exact S2]. cbn. intros z Hz. lia.
  - constructor; [apply IH, S1|]. apply Forall_forall. intros z Hz. apply (Permutation_in _ (P x t)) in Hz. destruct Hz as [<-|Hz]; [lia|]. rewrite Forall_forall in S2. apply S2, Hz. Qed.
Definition ap_ex : dict nat (list nat) := [(0, [1; 2]); (1, [2; 3]); (2, [1; 2])].
Theorem C59_solvable_refuted : sorts_by_len (@sort_len nat nat) /\ (forall (i : nat) (l : list nat), l <> [] -> In (hd 0 l) l) /\
  assignable ap_ex /\ is_ap_solvable sort_len (fun _ l => hd 0 l) ap_ex = false.
Proof. splits; [apply sort_len_ok|intros i [|x l] H; [congruence|left; reflexivity]| |vm_compute; reflexivity].
  exists [1; 3; 2]. split; [repeat (apply Forall2_cons; [cbn; lia|]); constructor|]. repeat (constructor; [cbn; lia|]). constructor. Qed.
(** the hypotheses of the laminar theorem are met, with both answers *)
Definition ap_lam (n : nat) : dict nat (list nat) := [(0, [1; 2]); (1, [1; 2]); (2, [3]); (3, 1 :: 2 :: 3 :: match n with 0 => [] | _ => [4] end)].
Example ex_laminar n : n <= 1 -> (forall l e, In (l, e) (ap_lam n) -> NoDup e) /\
  (forall l e l' e' x, In (l, e) (ap_lam n) -> In (l', e') (ap_lam n) -> In x e -> In x e' -> incl e e' \/ incl e' e) /\
  is_ap_solvable sort_len (fun _ l => hd 0 l) (ap_lam n) = (1 <=? n).
Proof. intros Hn. assert (n = 0 \/ n = 1) as [-> | ->] by lia; splits; try (vm_compute; reflexivity).
  1,3: intros l e [H|[H|[H|[H|[]]]]]; inversion H; subst; repeat (constructor; [cbn; lia|]); constructor.
  all: intros l e l' e' x [H|[H|[H|[H|[]]]]] [H'|[H'|[H'|[H'|[]]]]] Hx Hx'; inversion H; inversion H'; subst; cbn in Hx, Hx'; unfold incl; cbn; solve [left; intros; lia|right; intros; lia|exfalso; lia]. Qed.
(** two loads with overlapping, not nested ends *)
Example ex_two_loads : length [(0, [1; 2]); (1, [2; 3])] <= 2 /\ (forall l e, In (l, e) [(0, [1; 2]); (1, [2; 3])] -> NoDup e) /\
  is_ap_solvable sort_len (fun _ l => last l 0) [(0, [1; 2]); (1, [2; 3])] = true /\ is_ap_solvable sort_len (fun _ l => last l 0) [(0, [2]); (1, [2])] = false.
Proof. splits; [cbn; lia| |vm_compute; reflexivity|vm_compute; reflexivity]. intros l e [H|[H|[]]]; inversion H; subst; repeat (constructor; [cbn; lia|]); constructor. Qed.

(** ** C62 *)
Section Sync.
Context {L N : Type} {EL : EqDec L} {EN : EqDec N}.
(** do the moves (load, from, to) one after the other; None if a load is not where its move starts *)
Fixpoint replay (P : dict L N) (ms : list (L * N * N)) : option (dict L N) :=
  match ms with [] => Some P | (l, a, b) :: t => match dget l P with Some x => if eq_dec x a then replay (dset l b P) t else None | None => None end end.
Lemma replay_app ms : forall P ms', replay P (ms ++ ms') = match replay P ms with Some Q => replay Q ms' | None => None end.
Proof. induction ms as [|[[l a] b] ms IH]; intros P ms'; cbn; [reflexivity|]. destruct (dget l P) as [x|]; [|reflexivity]. destruct (eq_dec x a); [apply IH|reflexivity]. Qed.
Lemma dset_mid (pre : dict L N) l a b t : ~ In l (dkeys pre) -> dget l (pre ++ (l, a) :: t) = Some a /\ dset l b (pre ++ (l, a) :: t) = pre ++ (l, b) :: t.
Proof. induction pre as [|[k v] pre IH]; intros H; cbn [app dget dset]; [destruct (eq_dec l l); [auto|congruence]|]. cbn in H. destruct (eq_dec l k) as [->|Hn]; [tauto|]. destruct IH as [I1 I2]; [tauto|]. split; [exact I1|rewrite I2; reflexivity]. Qed.
Lemma replay_state : forall t1 t2 (pre : dict L N), dkeys t1 = dkeys t2 -> NoDup (dkeys pre ++ dkeys t1) -> replay (pre ++ t1) (sequence (state_moves t1 t2)) = Some (pre ++ t2).
Proof. induction t1 as [|[l a] t1 IH]; intros [|[l' b] t2] pre E D; try discriminate; [reflexivity|]. cbn in E. injection E as <- E. cbn [dkeys map fst] in D. fold (@dkeys L N) in D.
  assert (NoDup (dkeys (pre ++ [(l, b)]) ++ dkeys t1)) as D' by (unfold dkeys in *; rewrite map_app, <- app_assoc; exact D). specialize (IH t2 (pre ++ [(l, b)]) E D'). rewrite <- !app_assoc in IH. cbn [app] in IH.
  assert (~ In l (dkeys pre)) as Hl. { apply NoDup_remove_2 in D. intros C. apply D, in_app_iff. auto. }
  cbn [state_moves]. destruct (eq_dec (l, a) (l, b)) as [e|Hne]; [injection e as ->; exact IH|]. unfold sequence in *. cbn [app map concat fst snd replay].
  destruct (dset_mid pre l a b t1 Hl) as [-> ->]. destruct (eq_dec a a); [exact IH|congruence]. Qed.
Lemma last_cons_default {X} (p : list X) : forall a b, last (a :: p) b = last p a.
Proof. induction p as [|x p IH]; intros a b; [reflexivity|]. change (last (x :: p) b = last (x :: p) a). rewrite !IH. reflexivity. Qed.
(** path_to_moves: the moves, one at a time, lead from the first state through all the others to the last; no path, no moves *)
Theorem C62_path_to_moves s0 (path : list (dict L N)) : NoDup (dkeys s0) -> (forall s, In s path -> dkeys s = dkeys s0) ->
  exists moves, path_to_moves (s0 :: path) = Ok moves /\ replay s0 (sequence moves) = Some (last path s0) /\
    (forall m, In m moves -> exists l a b, m = [(l, (a, b))] /\ a <> b).
Proof. intros D HK. eexists. split; [reflexivity|]. split.
  - revert s0 D HK. induction path as [|s1 path IH]; intros s0 D HK; [reflexivity|]. cbn [path_moves]. unfold sequence in *. rewrite map_app, concat_app, replay_app.
    pose proof (HK s1 (or_introl eq_refl)) as E1. pose proof (replay_state s0 s1 []) as R. unfold sequence in R. cbn [app] in R. rewrite R; [|symmetry; exact E1|exact D].
    rewrite last_cons_default. apply IH.
    + rewrite E1. exact D.
    + intros s Hs. rewrite E1. apply HK. right. exact Hs.
  - revert s0 D HK. induction path as [|s1 path IH]; intros s0 D HK m Hm; [destruct Hm|]. cbn [path_moves] in Hm. apply in_app_iff in Hm. pose proof (HK s1 (or_introl eq_refl)) as E1. destruct Hm as [Hm|Hm].
    + clear - Hm E1. revert s1 E1 Hm. induction s0 as [|[l a] s0 IH]; intros [|[l' b] s1] E Hm; try discriminate; [destruct Hm|]. cbn in E. injection E as -> E. cbn [state_moves] in Hm. apply in_app_iff in Hm. destruct Hm as [Hm|Hm]; [|eapply IH; eauto].
      destruct (eq_dec (l, a) (l, b)) as [e|Hne]; [destruct Hm|]. destruct Hm as [<-|[]]. exists l, a, b. split; [reflexivity|]. congruence.
    + apply (IH s1); auto; [rewrite E1; exact D|]. intros s Hs. rewrite E1. apply HK. right. exact Hs. Qed.
Theorem C62_path_to_moves_empty : path_to_moves (@nil (dict L N)) = Err IndexError.
Proof. reflexivity. Qed.
(** [starts] are the start positions of all loads, each load and each location once *)
Theorem C62_synchronous_moves may (starts ends : dict L N) (moves : list (dict L (N * N))) : NoDup (dkeys starts) -> NoDup (dvals starts) ->
  plan_from may starts (concat (map (map (fun kv => (fst kv, fst (snd kv), snd (snd kv)))) moves)) ends ->
  exists groups, returns (fun n => moves_to_synchronous_moves n moves starts) (Ok groups) /\
    concat (map (map (fun kv => (fst kv, fst (snd kv), snd (snd kv)))) groups) = concat (map (map (fun kv => (fst kv, fst (snd kv), snd (snd kv)))) moves) /\
    (forall c, In c groups -> c <> [] /\ NoDup (dkeys c)) /\
    (forall before c d after, groups = before ++ c :: d :: after -> match d with [] => False | (l, _) :: _ => In l (dkeys c) end).
Proof. intros Hk Hv HP. destruct (sync_spec may starts moves ends) as (out & Hr & (P & H1 & H2 & H3 & H4 & H5 & H6 & H7)); auto.
  { unfold flat_moves. rewrite flat_map_concat_map. exact HP. }
  exists out. splits; [exact Hr| |exact H6|].
  - unfold flat_moves in H5. rewrite !flat_map_concat_map, app_nil_r in H5. symmetry. exact H5.
  - intros before c d after E. specialize (H7 before c (d :: after) E). destruct (H6 d) as [Hd _]; [rewrite E; apply in_app_iff; cbn; auto|]. cbn in H7. destruct d as [|[l [x y]] d]; [congruence|]. exact H7. Qed.
End Sync.
(** two loads: both move in the first step, one of them in the second *)
Example ex_path_to_moves : NoDup (dkeys [(0, 1); (1, 2)]) /\ (forall s, In s [[(0, 3); (1, 4)]; [(0, 3); (1, 5)]] -> dkeys s = dkeys [(0, 1); (1, 2)]) /\
  path_to_moves [[(0, 1); (1, 2)]; [(0, 3); (1, 4)]; [(0, 3); (1, 5)]] = Ok [[(0, (1, 3))]; [(1, (2, 4))]; [(1, (4, 5))]].
Proof. splits; [repeat (constructor; [cbn; lia|]); constructor| |vm_compute; reflexivity]. intros s [<-|[<-|[]]]; reflexivity. Qed.
(** three loads in a row on 1,2,3 moving on to 4, 3, 2, then load 0 once more *)
Definition sync_starts : dict nat nat := [(0, 3); (1, 2); (2, 1)].
Definition sync_plan : list (dict nat (nat * nat)) := [[(0, (3, 4))]; [(1, (2, 3))]; [(2, (1, 2))]; [(0, (4, 5))]].
Example ex_sync : NoDup (dkeys sync_starts) /\ NoDup (dvals sync_starts) /\
  plan_from (fun _ a b => b = S a) sync_starts (concat (map (map (fun kv => (fst kv, fst (snd kv), snd (snd kv)))) sync_plan)) [(0, 5); (1, 3); (2, 2)] /\
  moves_to_synchronous_moves 10 sync_plan sync_starts = Ok [[(0, (3, 4)); (1, (2, 3)); (2, (1, 2))]; [(0, (4, 5))]].
Proof. splits; [repeat (constructor; [cbn; lia|]); constructor|repeat (constructor; [cbn; lia|]); constructor| |vm_compute; reflexivity].
  cbn. do 4 (apply plan_step; [reflexivity|cbn; lia|reflexivity|cbn]). apply plan_done. Qed.
(** an illegal plan (two loads swapping places) is never finished *)
Example ex_sync_diverges : diverges (fun n => moves_to_synchronous_moves n [[(0, (1, 2))]; [(1, (2, 1))]] [(0, 1); (1, 2)]).
Proof. apply (loop_diverges sync_step (fun st => fst st = ([(0, 1, 2); (1, 2, 1)], [1; 2]))); [|reflexivity].
  intros [[m occ] out] E. cbn in E. inversion E; subst. eexists. split; [vm_compute; reflexivity|reflexivity]. Qed.
