(** Proofs about the generators under any schedule of edits. *)
From Verif Require Import Prelude PreludeFacts Base BaseFacts BaseFacts2 BaseFacts3 Spec SpecFacts Loop SearchFacts BaseAlgFacts Bfs BfsFacts Topo TopoFacts Gen.

Section G.
Context {A O V : Type} {EA : EqDec A}.
Notation graph := (graph A O V).

(** ** topological_sort *)
Section Topo.
Context (c : gclass) (srt : list A -> list A) (gs : nat -> graph).
Notation st := (state_at (topo_next c srt) TNew gs).
Notation ev := (event_at (topo_next c srt) TNew gs).
Definition fin (err : option exn) : event A := match err with None => Stop | Some e => Raise e end.
Lemma done_stops k : st k = TDone -> forall i, k <= i -> st i = TDone /\ ev i = Stop.
Proof. intros H i Hi. induction Hi as [|i Hi IH]; [split; [exact H|unfold event_at; rewrite H; reflexivity]|]. destruct IH as [E _]. assert (st (S i) = TDone) as E' by (cbn [state_at]; rewrite E; reflexivity). split; [exact E'|]. unfold event_at. rewrite E'. reflexivity. Qed.
(** from a suspended state through the rest of the batch *)
Lemma batch_run g2' rest : forall g2 t k, foldM (fun g2 task => del_node g2 task) (t :: rest) g2 = Ok g2' -> st (S k) = TAt g2 t rest ->
  (forall i, i < length rest -> ev (S k + i) = Yield (nth i rest t)) /\ topo_next c srt (gs (S k + length rest)) (st (S k + length rest)) = topo_batch srt g2'.
Proof. induction rest as [|u rest IH]; intros g2 t k E Hst; cbn [foldM bind] in E; destruct (del_node g2 t) as [g3| |] eqn:Ed; try discriminate; cbn [bind] in E.
  - injection E as <-. split; [intros i Hi; cbn in Hi; lia|]. cbn [length]. rewrite Nat.add_0_r, Hst. cbn [topo_next]. rewrite Ed. reflexivity.
  - assert (topo_next c srt (gs (S k)) (st (S k)) = (Yield u, TAt g3 u rest)) as En by (rewrite Hst; cbn [topo_next]; rewrite Ed; reflexivity).
    destruct (IH g3 u (S k)) as [H1 H2]; [exact E|change (st (S (S k))) with (snd (topo_next c srt (gs (S k)) (st (S k)))); rewrite En; reflexivity|]. cbn [length]. split.
    + intros [|i] Hi; [rewrite Nat.add_0_r; unfold event_at; rewrite En; reflexivity|]. replace (S k + S i) with (S (S k) + i) by lia. rewrite H1 by lia. cbn [nth]. f_equal. apply nth_indep. lia.
    + replace (S k + S (length rest)) with (S (S k) + length rest) by lia. exact H2. Qed.
Lemma nth_events l err i : i < length l -> forall d, nth i (map Yield l ++ [fin err]) Stop = Yield (nth i l d).
Proof. intros Hi d. rewrite app_nth1 by (rewrite map_length; exact Hi). rewrite (nth_indep _ _ (Yield d)) by (rewrite map_length; exact Hi). apply map_nth. Qed.
Lemma topo_run n : forall g2 out full err, loop n (topo_step srt) (g2, out) = Ok (full, err) ->
  topo_next c srt (gs (length out)) (st (length out)) = topo_batch srt g2 ->
  (exists rest, full = out ++ rest) /\ forall i, length out <= i -> ev i = nth i (map Yield full ++ [fin err]) Stop.
Proof. induction n as [|n IH]; intros g2 out full err E Hn; [discriminate|]. cbn [loop] in E. unfold topo_step in E. unfold topo_batch in Hn. destruct (srt (nodes_in_degree g2 0)) as [|t rest].
  - assert (E2 : (full, err) = (out, if is_nil (nodes g2) then None else Some AttributeError)) by (destruct (is_nil (nodes g2)); congruence). injection E2 as -> ->. clear E.
    split; [exists []; rewrite app_nil_r; reflexivity|]. intros i Hi. destruct (Nat.eq_dec i (length out)) as [->|Hne].
    + unfold event_at. rewrite Hn. rewrite app_nth2 by (rewrite map_length; lia). rewrite map_length, Nat.sub_diag. destruct (is_nil (nodes g2)); reflexivity.
    + assert (st (S (length out)) = TDone) as Hd by (cbn [state_at]; rewrite Hn; reflexivity). destruct (done_stops _ Hd i ltac:(lia)) as [_ ->]. symmetry. apply nth_overflow. rewrite app_length, map_length. cbn [length]. lia.
  - destruct (foldM (fun g2 task => del_node g2 task) (t :: rest) g2) as [g2'| |] eqn:Ef; try discriminate.
    assert (st (S (length out)) = TAt g2 t rest) as Hst by (cbn [state_at]; rewrite Hn; reflexivity).
    destruct (batch_run g2' rest g2 t (length out) Ef Hst) as [H1 H2]. destruct (IH g2' (out ++ t :: rest) full err E) as [(r & Er) H3].
    { rewrite app_length. cbn [length]. replace (length out + S (length rest)) with (S (length out) + length rest) by lia. exact H2. }
    split; [exists ((t :: rest) ++ r); rewrite Er, <- app_assoc; reflexivity|]. intros i Hi. destruct (le_lt_dec (length (out ++ t :: rest)) i) as [L|L]; [apply H3, L|].
    rewrite (nth_events full err i) with (d := t) by (rewrite Er, app_length; lia). rewrite Er, app_nth1 by exact L. rewrite app_nth2 by lia. rewrite app_length in L. cbn [length] in L.
    destruct (i - length out) as [|j] eqn:Ej; [unfold event_at; replace i with (length out) by lia; rewrite Hn; reflexivity|]. cbn [nth]. replace i with (S (length out) + j) by lia. apply H1. lia. Qed.
Lemma topo_schedule n order err : topological_sort_of c srt n (gs 0) = Ok (order, err) -> forall i, ev i = nth i (map Yield order ++ [fin err]) Stop.
Proof. unfold topological_sort_of. destruct (copy_of c (gs 0)) as [g2| |] eqn:Ec; try discriminate. cbn [bind]. intros E i. apply (topo_run n g2 [] order err E); [|cbn; lia]. cbn [length state_at topo_next]. rewrite Ec. reflexivity. Qed.
End Topo.

(** ** breadth_first_walk *)
Section Walk.
Context (s : A) (e : option A) (rv : bool) (gs : nat -> graph).
Notation st := (state_at (walk_next s e rv) WNew gs).
Notation ev := (event_at (walk_next s e rv) WNew gs).
Notation succ g x := (if rv then nodes_to g x else nodes_from g x).
Lemma wdone_stops k : st k = WDone -> forall i, k <= i -> st i = WDone /\ ev i = Stop.
Proof. intros H i Hi. induction Hi as [|i Hi IH]; [split; [exact H|unfold event_at; rewrite H; reflexivity]|]. destruct IH as [E _]. assert (st (S i) = WDone) as E' by (cbn [state_at]; rewrite E; reflexivity). split; [exact E'|]. unfold event_at. rewrite E'. reflexivity. Qed.

(** a graph that does not change: the list of Bfs.v *)
Lemma walk_run g n : (forall i, gs i = g) -> forall vis q out full, loop n (bfw_step (fun x => succ g x) e) (vis, q, out) = Ok full ->
  walk_next s e rv (gs (length out)) (st (length out)) = walk_pop vis q ->
  (exists rest, full = out ++ rest) /\ forall i, length out <= i -> ev i = nth i (map Yield full) Stop.
Proof. intros Hg. induction n as [|n IH]; intros vis q out full E Hn; [discriminate|]. cbn [loop] in E. unfold bfw_step in E. destruct q as [|x q].
  - injection E as <-. cbn [walk_pop] in Hn. split; [exists []; rewrite app_nil_r; reflexivity|]. intros i Hi. rewrite nth_overflow by (rewrite map_length; exact Hi). destruct (Nat.eq_dec i (length out)) as [->|Hne]; [unfold event_at; rewrite Hn; reflexivity|].
    apply (wdone_stops (S (length out))); [cbn [state_at]; rewrite Hn; reflexivity|lia].
  - cbn [walk_pop] in Hn. assert (st (S (length out)) = WAt x vis q) as Hst by (cbn [state_at]; rewrite Hn; reflexivity). assert (length (out ++ [x]) = S (length out)) as Lx by (rewrite app_length; cbn; lia).
    assert (ev (length out) = Yield x) as Ex by (unfold event_at; rewrite Hn; reflexivity).
    destruct (eq_dec (Some x) e) as [Ee|Ee].
    + injection E as <-. split; [exists [x]; reflexivity|]. intros i Hi. rewrite map_app. cbn [map]. destruct (Nat.eq_dec i (length out)) as [->|Hne].
      * rewrite app_nth2 by (rewrite map_length; lia). rewrite map_length, Nat.sub_diag. exact Ex.
      * rewrite nth_overflow by (rewrite app_length, map_length; cbn; lia). assert (walk_next s e rv (gs (S (length out))) (st (S (length out))) = (Stop, WDone)) as En by (rewrite Hst; cbn [walk_next]; destruct (eq_dec (Some x) e); [reflexivity|congruence]).
        destruct (Nat.eq_dec i (S (length out))) as [->|Hne2]; [unfold event_at; rewrite En; reflexivity|]. apply (wdone_stops (S (S (length out)))); [change (st (S (S (length out)))) with (snd (walk_next s e rv (gs (S (length out))) (st (S (length out))))); rewrite En; reflexivity|lia].
    + destruct (bfs_push x (succ g x) vis q) as [vis' q'] eqn:Ep. destruct (IH vis' q' (out ++ [x]) full E) as [(r & Er) H3].
      { rewrite Lx, Hst. cbn [walk_next]. destruct (eq_dec (Some x) e); [congruence|]. rewrite Hg, Ep. reflexivity. }
      split; [exists (x :: r); rewrite Er, <- app_assoc; reflexivity|]. intros i Hi. destruct (Nat.eq_dec i (length out)) as [->|Hne]; [|apply H3; lia].
      rewrite Ex, Er, <- app_assoc, map_app. rewrite app_nth2 by (rewrite map_length; lia). rewrite map_length, Nat.sub_diag. reflexivity. Qed.
Lemma walk_static g n full : (forall i, gs i = g) -> breadth_first_walk n g s e rv = Ok full -> forall i, ev i = nth i (map Yield full) Stop.
Proof. intros Hg. unfold breadth_first_walk. destruct (contains g s) eqn:Es; [|discriminate]. cbn [negb]. destruct (match e with Some x => negb (contains g x) | None => false end) eqn:Ee; [discriminate|]. intros E i.
  apply (walk_run g n Hg [(s, None)] [s] [] full); [|cbn [length state_at walk_next]; rewrite Hg, Es; cbn [negb]; rewrite Ee; reflexivity|cbn; lia]. rewrite <- E. apply (f_equal (fun f => loop n f _)). destruct rv; reflexivity. Qed.
(** any schedule *)
Context (Hs : contains (gs 0) s = true) (He : forall x, e = Some x -> contains (gs 0) x = true).
Definition run_inv (k : nat) : Prop := exists out q vis node,
  st (S k) = WAt node vis q /\ length out = S k /\ (exists o, out = o ++ [node]) /\ dkeys vis = out ++ q /\ NoDup (out ++ q) /\ nth 0 out s = s /\
  (forall i, i <= k -> ev i = Yield (nth i out s)) /\
  (forall y, In y (out ++ q) -> y = s \/ exists i, i < k /\ In y (succ (gs (S i)) (nth i out s))) /\
  (forall i, i < k -> Some (nth i out s) <> e) /\
  (forall i y, i < k -> In y (succ (gs (S i)) (nth i out s)) -> In y (out ++ q)).
Definition fin_inv (k : nat) : Prop := exists out,
  0 < k /\ length out = k /\ NoDup out /\ nth 0 out s = s /\
  (forall i, i < k -> ev i = Yield (nth i out s)) /\ (forall i, k <= i -> ev i = Stop) /\
  (forall y, In y out -> y = s \/ exists i, S i < k /\ In y (succ (gs (S i)) (nth i out s))) /\
  (forall i, i < k -> Some (nth i out s) = e -> S i = k) /\
  ((forall x, e = Some x -> ~ In x out) -> forall i y, i < k -> In y (succ (gs (S i)) (nth i out s)) -> In y out).
Lemma walk_first : run_inv 0.
Proof. assert (walk_next s e rv (gs 0) WNew = (Yield s, WAt s [(s, None)] [])) as E.
  { cbn [walk_next]. rewrite Hs. cbn [negb]. destruct e as [x|]; [rewrite (He x eq_refl)|]; reflexivity. }
  exists [s], [], [(s, None)], s. splits; auto.
  - cbn [state_at]. rewrite E. reflexivity.
  - exists []. reflexivity.
  - apply NoDup_cons; [intros []|constructor].
  - intros i Hi. assert (i = 0) as -> by lia. unfold event_at. cbn [state_at]. rewrite E. reflexivity.
  - intros y [<-|[]]. auto.
  - intros i Hi. lia.
  - intros i y Hi. lia. Qed.
Lemma walk_inv_step k : run_inv k -> run_inv (S k) \/ fin_inv (S k).
Proof. intros (out & q & vis & node & Hst & Hl & (o & Eo) & Hv & Hnd & H0 & Hev & Hj & Hne & Hcl).
  assert (length o = k) as Lo by (rewrite Eo, app_length in Hl; cbn in Hl; lia).
  assert (nth k out s = node) as Hk by (rewrite Eo, app_nth2, Lo, Nat.sub_diag by lia; reflexivity).
  assert (forall r i, i <= k -> nth i (out ++ r) s = nth i out s) as Happ by (intros r i Hi; apply app_nth1; lia).
  destruct (eq_dec (Some node) e) as [Ee|Ee].
  - right. assert (walk_next s e rv (gs (S k)) (st (S k)) = (Stop, WDone)) as En by (rewrite Hst; cbn [walk_next]; destruct (eq_dec (Some node) e); [reflexivity|congruence]).
    exists out. splits; auto; [lia|apply NoDup_app_iff in Hnd; apply Hnd| | | | |].
    + intros i Hi. apply Hev. lia.
    + intros i Hi. destruct (Nat.eq_dec i (S k)) as [->|]; [unfold event_at; rewrite En; reflexivity|]. apply (wdone_stops (S (S k))); [change (st (S (S k))) with (snd (walk_next s e rv (gs (S k)) (st (S k)))); rewrite En; reflexivity|lia].
    + intros y Hy. destruct (Hj y ltac:(apply in_app_iff; auto)) as [->|(i & Hi & Hy2)]; [auto|]. right. exists i. split; [lia|exact Hy2].
    + intros i Hi Ei. destruct (Nat.eq_dec i k) as [->|]; [reflexivity|]. exfalso. apply (Hne i); [lia|exact Ei].
    + intros C. exfalso. apply (C node); [auto|]. rewrite Eo. apply in_app_iff. cbn; auto.
  - destruct (bfs_push node (succ (gs (S k)) node) vis q) as [vis' q'] eqn:Ep. assert (walk_next s e rv (gs (S k)) (st (S k)) = walk_pop vis' q') as En by (rewrite Hst; cbn [walk_next]; destruct (eq_dec (Some node) e); [congruence|]; rewrite Ep; reflexivity).
    apply bfs_push_spec in Ep. destruct Ep as (new & -> & -> & Hnn & Hnew). rewrite Hv in Hnew.
    assert (NoDup (out ++ q ++ new)) as Hnd'. { rewrite app_assoc. apply NoDup_app_iff. splits; auto. intros x Hx Hx2. apply Hnew in Hx2. tauto. }
    assert (forall y, In y (out ++ q ++ new) -> y = s \/ exists i, i < S k /\ In y (succ (gs (S i)) (nth i out s))) as Hj'.
    { intros y Hy. rewrite app_assoc in Hy. apply in_app_iff in Hy. destruct Hy as [Hy|Hy]; [destruct (Hj y Hy) as [->|(i & Hi & Hy2)]; [auto|]; right; exists i; split; [lia|exact Hy2]|]. right. exists k. split; [lia|]. rewrite Hk. apply Hnew in Hy. apply Hy. }
    assert (forall i y, i < S k -> In y (succ (gs (S i)) (nth i out s)) -> In y (out ++ q ++ new)) as Hcl'.
    { intros i y Hi Hy. rewrite app_assoc. destruct (Nat.eq_dec i k) as [->|]; [|apply in_app_iff; left; apply (Hcl i y); [lia|exact Hy]]. rewrite Hk in Hy. apply in_app_iff. destruct (in_dec eq_dec y (out ++ q)) as [|Hn]; [auto|]. right. apply Hnew. auto. }
    assert (forall i, i < S k -> Some (nth i out s) <> e) as Hne'. { intros i Hi. destruct (Nat.eq_dec i k) as [->|]; [rewrite Hk; exact Ee|apply Hne; lia]. }
    destruct (q ++ new) as [|x q2] eqn:Eq; cbn [walk_pop] in En.
    + right. rewrite app_nil_r in *. exists out. splits; auto; [lia| | | |].
      * intros i Hi. apply Hev. lia.
      * intros i Hi. destruct (Nat.eq_dec i (S k)) as [->|]; [unfold event_at; rewrite En; reflexivity|]. apply (wdone_stops (S (S k))); [change (st (S (S k))) with (snd (walk_next s e rv (gs (S k)) (st (S k)))); rewrite En; reflexivity|lia].
      * intros y Hy. destruct (Hj y ltac:(apply in_app_iff; auto)) as [->|(i & Hi & Hy2)]; [auto|]. right. exists i. split; [lia|exact Hy2].
      * intros i Hi Ei. destruct (Hne' i Hi Ei).
    + left. exists (out ++ [x]), q2, (vis ++ map (fun z => (z, Some node)) new), x.
      assert (forall i, i <= k -> nth i (out ++ [x]) s = nth i out s) as Hap by (intros; apply Happ; auto).
      assert (out ++ x :: q2 = (out ++ [x]) ++ q2) as Ea by (rewrite <- app_assoc; reflexivity). splits.
      * change (st (S (S k))) with (snd (walk_next s e rv (gs (S k)) (st (S k)))). rewrite En. reflexivity.
      * rewrite app_length. cbn. lia.
      * exists out. reflexivity.
      * rewrite dkeys_app, Hv. unfold dkeys. rewrite map_map. cbn [fst]. rewrite map_id, <- app_assoc, Eq. exact Ea.
      * rewrite <- Ea. exact Hnd'.
      * rewrite Hap by lia. exact H0.
      * intros i Hi. destruct (Nat.eq_dec i (S k)) as [->|]; [|rewrite Hap by lia; apply Hev; lia]. unfold event_at. rewrite En. cbn [fst]. f_equal. rewrite app_nth2, Hl, Nat.sub_diag by lia. reflexivity.
      * rewrite <- Ea. intros y Hy. destruct (Hj' y Hy) as [->|(i & Hi & Hy2)]; [auto|]. right. exists i. split; [exact Hi|]. rewrite Hap by lia. exact Hy2.
      * intros i Hi. rewrite Hap by lia. apply Hne'. lia.
      * rewrite <- Ea. intros i y Hi. rewrite Hap by lia. apply Hcl'. lia. Qed.
Lemma walk_all k : run_inv k \/ exists k0, k0 <= k /\ fin_inv k0.
Proof. induction k as [|k [IH|(k0 & L & IH)]]; [left; exact walk_first| |right; exists k0; split; [lia|exact IH]]. destruct (walk_inv_step k IH) as [H|H]; [left; exact H|right; exists (S k); split; [lia|exact H]]. Qed.
End Walk.
End G.
