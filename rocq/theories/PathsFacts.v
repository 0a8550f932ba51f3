(** Proofs about all_simple_paths and all_paths. *)
From Verif Require Import Prelude PreludeFacts Base BaseFacts BaseFacts2 BaseFacts3 Spec SpecFacts Loop SearchFacts BaseAlg BaseAlgFacts DagFacts CpmFacts Paths.

(** p is an initial segment of q *)
Lemma app_cons_last {X} (l : list X) (x : X) r : l ++ x :: r = (l ++ [x]) ++ r.
Proof. rewrite <- app_assoc. reflexivity. Qed.
Lemma last_app_cons {X} (l : list X) (x : X) r d : last (l ++ x :: r) d = last (x :: r) d.
Proof. induction l as [|y l IH]; [reflexivity|]. rewrite <- IH. cbn [app]. destruct (l ++ x :: r) eqn:E; [destruct l; discriminate|reflexivity]. Qed.
Lemma last_In {X} (r : list X) (x d : X) : In (last (x :: r) d) (x :: r).
Proof. revert x. induction r as [|y r IH]; intros x; [cbn; auto|]. right. apply IH. Qed.
Lemma suffix_cons {X} (t : list X) (x : X) p q : x :: p = t ++ q -> (t = [] /\ q = x :: p) \/ (exists t', t = x :: t' /\ p = t' ++ q).
Proof. destruct t as [|y t]; cbn; intros E; [left; auto|right]. inv E. eauto. Qed.

Section F.
Context {A O V : Type} {EA : EqDec A}.
Notation graph := (graph A O V).
Implicit Types (g : graph) (x y a b s e : A).

(** ** all_simple_paths.  Stored tuples are reversed: the head is the newest node. *)
Definition antichain (L : list (list A)) : Prop := NoDup L /\ forall p q t, In p L -> In q L -> q = t ++ p -> t = [].
Lemma antichain_extend L p xs : antichain (p :: L) -> NoDup xs -> antichain (L ++ map (fun x => x :: p) xs).
Proof. intros [Hn Ha] Hx. apply NoDup_cons_iff in Hn. destruct Hn as [Hp Hn].
  assert (forall q t, In q L -> q = t ++ p -> False) as K1.
  { intros q t Hq E. assert (t = []) as -> by (apply (Ha p q t); cbn; auto). cbn in E. subst. auto. }
  assert (forall q t, In q L -> p = t ++ q -> False) as K2.
  { intros q t Hq E. assert (t = []) as -> by (apply (Ha q p t); cbn; auto). cbn in E. subst. auto. }
  split.
  - apply NoDup_app_iff. splits; [exact Hn| |].
    + apply FinFun.Injective_map_NoDup; [|exact Hx]. intros u v E. inv E. reflexivity.
    + intros q Hq C. apply in_map_iff in C. destruct C as (x & <- & _). apply (K1 (x :: p) [x] Hq). reflexivity.
  - intros q1 q2 t H1 H2 E. apply in_app_iff in H1, H2. destruct H1 as [H1|H1], H2 as [H2|H2].
    + apply (Ha q1 q2 t); cbn; auto.
    + apply in_map_iff in H2. destruct H2 as (x & <- & _). apply suffix_cons in E. destruct E as [[-> _]|(t' & -> & E)]; [reflexivity|].
      destruct (K2 q1 t' H1 E).
    + apply in_map_iff in H1. destruct H1 as (x & <- & _). exfalso. apply (K1 q2 (t ++ [x]) H2). rewrite <- app_assoc. exact E.
    + apply in_map_iff in H1, H2. destruct H1 as (x & <- & _), H2 as (y & <- & _). apply suffix_cons in E. destruct E as [[-> _]|(t' & -> & E)]; [reflexivity|].
      exfalso. apply (f_equal (@length A)) in E. rewrite app_length in E. cbn in E. lia. Qed.

Definition asp_new g e (path : list A) : list A := filter (fun n => negb (mem n path)) (nodes_from g (hd e path)).
Lemma asp_fold e path (l : list (A * A * V)) : forall paths q,
  fold_left (asp_edge e path) l (paths, q) =
  (paths ++ map (fun n => n :: path) (filter (fun n => eqb n e) (filter (fun n => negb (mem n path)) (map (fun z : A * A * V => snd (fst z)) l))),
   q ++ map (fun n => n :: path) (filter (fun n => negb (eqb n e)) (filter (fun n => negb (mem n path)) (map (fun z : A * A * V => snd (fst z)) l)))).
Proof. induction l as [|[[a n] v] l IH]; intros paths q; cbn [fold_left map filter fst snd]; [rewrite !app_nil_r; reflexivity|].
  cbn [asp_edge]. destruct (mem n path); cbn [negb]; [apply IH|]. cbn [filter]. destruct (eqb n e); cbn [negb map]; rewrite IH, ?app_cons_last with (r := map _ _); reflexivity. Qed.

Definition asp_inv g s e (st : list (list A) * list (list A)) : Prop :=
  let '(paths, q) := st in
  antichain (q ++ paths) /\
  (forall p, In p q -> exists h t, p = h :: t /\ simple_path (has_edge g) s (rev p) h /\ ~ In e p) /\
  (forall p, In p paths -> simple_path (has_edge g) s (rev p) e) /\
  (forall P, simple_path (has_edge g) s P e -> exists p t, In p (q ++ paths) /\ P = rev p ++ t).

Lemma antichain_perm L L' : Permutation L L' -> antichain L -> antichain L'.
Proof. intros HP [Hn Ha]. split; [eapply Permutation_NoDup; eauto|]. intros p q t Hp Hq. apply Ha; eapply Permutation_in; try exact Hp; try exact Hq; symmetry; exact HP. Qed.
Lemma NoDup_rev' (l : list A) : NoDup l -> NoDup (rev l).
Proof. intros H. eapply Permutation_NoDup; [apply Permutation_rev|exact H]. Qed.

Lemma all_simple_paths_loop g s e : wf g -> In s (nodes g) -> s <> e ->
  exists r, returns (fun n => loop n (asp_step g e) ([], [[s]])) (Ok r) /\ NoDup r /\ forall P, In P r <-> simple_path (has_edge g) s P e.
Proof. intros W Hs Hse. set (N := length (nodes g)). set (B := S N). set (w := fun p : list A => B ^ (S N - length p)).
  destruct (loop_returns_nat (asp_step g e) (asp_inv g s e) (fun st => qsum w (snd st))
    (fun r => exists l, r = Ok l /\ NoDup l /\ forall P, In P l <-> simple_path (has_edge g) s P e)) with (s := (@nil (list A), [[s]])) as (r & Hr & l & -> & Hl); [| |exists l; auto].
  - intros [paths q] (I1 & I2 & I3 & I4). unfold asp_step. destruct q as [|path q].
    + split; [discriminate|]. exists (map (@rev A) paths). splits; [reflexivity| |].
      * apply FinFun.Injective_map_NoDup; [|apply I1]. intros u v E. rewrite <- (rev_involutive u), E. apply rev_involutive.
      * intros P. rewrite in_map_iff. split; [intros (p & <- & Hp); apply I3, Hp|]. intros HP. destruct (I4 P HP) as (p & t & Hp & E). cbn in Hp.
        exists p. split; [|exact Hp]. destruct t as [|x t]; [rewrite app_nil_r in E; auto|exfalso].
        destruct HP as [HP HN]. destruct (I3 p Hp) as [Hpp _]. subst P.
        assert (In e (x :: t)) as He.
        { pose proof (path_last _ _ _ _ e HP) as HL. rewrite <- HL. rewrite last_app_cons. apply last_In. }
        apply NoDup_app_iff in HN. destruct HN as (_ & _ & HN). apply (HN e); [eapply path_end_In; eauto|exact He].
    + destruct (I2 path) as (h & t & Ep & [Hpath Hnd] & Hne); [cbn; auto|]. subst path. rewrite asp_fold.
      assert (map (fun x : A * A * V => snd (fst x)) (edges_from g h) = nodes_from g h) as ->.
      { unfold edges_from, nodes_from, dkeys. rewrite map_map. reflexivity. }
      set (new := filter (fun n => negb (mem n (h :: t))) (nodes_from g h)).
      assert (NoDup new) as Hnew by (apply NoDup_filter, NoDup_nodes_from, W).
      assert (forall x, In x new <-> has_edge g h x /\ ~ In x (h :: t)) as Hin.
      { intros x. unfold new. rewrite filter_In, negb_true_iff, mem_notIn, (In_from g h x W). reflexivity. }
      assert (forall x, In x new -> simple_path (has_edge g) s (rev (x :: h :: t)) x) as Hsp.
      { intros x Hx. apply Hin in Hx. destruct Hx as [Hx Hn]. split; [cbn [rev] in *; eapply path_snoc; eauto|]. apply NoDup_rev'. constructor; [exact Hn|].
        rewrite <- (rev_involutive (h :: t)). apply NoDup_rev', Hnd. }
      split.
      * cbn [asp_inv]. splits.
        -- apply (antichain_perm ((q ++ paths) ++ map (fun n => n :: h :: t) new)).
           ++ rewrite <- !app_assoc. apply Permutation_app_head.
              rewrite (perm_filter_split (fun n => eqb n e) new) at 1. rewrite map_app, (app_assoc paths). apply Permutation_app_comm.
           ++ apply antichain_extend; [exact I1|exact Hnew].
        -- intros p Hp. apply in_app_iff in Hp. destruct Hp as [Hp|Hp]; [apply I2; cbn; auto|]. apply in_map_iff in Hp. destruct Hp as (x & <- & Hx).
           apply filter_In in Hx. destruct Hx as [Hx Hxe]. apply negb_true_iff, eqb_false in Hxe. exists x, (h :: t). splits; [reflexivity|apply Hsp, Hx|].
           intros [<-|C]; [congruence|auto].
        -- intros p Hp. apply in_app_iff in Hp. destruct Hp as [Hp|Hp]; [auto|]. apply in_map_iff in Hp. destruct Hp as (x & <- & Hx).
           apply filter_In in Hx. destruct Hx as [Hx Hxe]. apply eqb_eq in Hxe. subst x. apply Hsp, Hx.
        -- intros P HP. destruct (I4 P HP) as (p & tl & Hp & E). cbn in Hp. destruct Hp as [<-|Hp].
           ++ destruct HP as [HP HN]. destruct tl as [|x tl].
              ** exfalso. rewrite app_nil_r in E. subst P. apply Hne. apply in_rev. eapply path_end_In; eauto.
              ** assert (In x new) as Hx.
                 { apply Hin. split.
                   - rewrite E in HP. cbn [rev] in HP. rewrite <- app_assoc in HP. apply path_split in HP. destruct HP as [_ HP]. apply path_inv2 in HP. apply HP.
                   - intros C. rewrite E in HN. apply NoDup_app_iff in HN. destruct HN as (_ & _ & HN). apply (HN x); [apply in_rev in C; exact C|cbn; auto]. }
                 exists (x :: h :: t), tl. split; [|rewrite E; cbn [rev]; rewrite <- !app_assoc; reflexivity].
                 destruct (eqb x e) eqn:Ex; apply in_app_iff; [right|left]; apply in_app_iff; right; apply in_map_iff; exists x; (split; [reflexivity|]); apply filter_In; rewrite Ex; auto.
           ++ exists p, tl. split; [|exact E]. apply in_app_iff in Hp. apply in_app_iff. destruct Hp as [Hp|Hp]; [left|right]; apply in_app_iff; auto.
      * cbn [snd qsum]. rewrite qsum_app. set (nq := map _ _).
        assert (length (h :: t) <= N) as HL.
        { apply NoDup_incl_length; [rewrite <- (rev_involutive (h :: t)); apply NoDup_rev', Hnd|]. intros x Hx. apply in_rev in Hx.
          apply (path_nodes (fun z => In z (nodes g)) (has_edge g) s (rev (h :: t)) h Hs); [intros u v Huv; apply (has_edge_nodes g u v W Huv)|exact Hpath|exact Hx]. }
        assert (length nq <= N) as HQ.
        { unfold nq. rewrite map_length. etransitivity; [apply filter_length_le|]. apply NoDup_incl_length; [exact Hnew|]. intros x Hx. apply Hin in Hx. apply (has_edge_nodes g h x W), Hx. }
        assert (qsum w nq <= length nq * B ^ (N - length (h :: t))) as HW.
        { apply qsum_le. intros p Hp. apply in_map_iff in Hp. destruct Hp as (x & <- & _). unfold w. cbn [length Nat.sub]. lia. }
        assert (w (h :: t) = B * B ^ (N - length (h :: t))) as Hw.
        { unfold w. replace (S N - length (h :: t)) with (S (N - length (h :: t))) by lia. reflexivity. }
        rewrite Hw. assert (0 < B ^ (N - length (h :: t))) as Hpos by (pose proof (Nat.pow_nonzero B (N - length (h :: t))); unfold B in *; lia).
        assert (length nq * B ^ (N - length (h :: t)) < B * B ^ (N - length (h :: t))); [|lia]. apply Nat.mul_lt_mono_pos_r; [exact Hpos|unfold B; lia].
  - cbn [asp_inv]. splits.
    + split; [constructor; [intros []|constructor]|]. intros p q t [<-|[]] [<-|[]] E. apply (f_equal (@length A)) in E. rewrite app_length in E. cbn in E. destruct t; [reflexivity|cbn in E; lia].
    + intros p [<-|[]]. exists s, []. splits; [reflexivity|split; [constructor|constructor; [intros []|constructor]]|]. intros [C|[]]. congruence.
    + intros p [].
    + intros P [HP _]. destruct (path_head _ _ _ _ HP) as (t & ->). exists [s], t. split; [cbn; auto|reflexivity]. Qed.

Lemma all_simple_paths_spec g s e : wf g -> In s (nodes g) -> In e (nodes g) -> s <> e ->
  exists r, returns (fun n => all_simple_paths n g s e) (Ok r) /\ NoDup r /\ forall P, In P r <-> simple_path (has_edge g) s P e.
Proof. intros W Hs He Hne. unfold all_simple_paths. assert (contains g s = true) as -> by (apply contains_In, Hs).
  assert (contains g e = true) as -> by (apply contains_In, He). cbn [negb]. destruct (eqb s e) eqn:E; [apply eqb_eq in E; congruence|].
  destruct (is_connected_spec g s e W) as (c & Hc & Hiff). destruct c.
  - destruct (all_simple_paths_loop g s e W Hs Hne) as (r & Hr & Hn & HP). exists r. splits; auto.
    refine (returns_bind _ (fun n c => _) true _ Hc _). exact Hr.
  - exists []. splits; [|constructor|].
    + refine (returns_bind _ (fun n c => _) false _ Hc _). apply returns_const. discriminate.
    + intros P. split; [intros []|]. intros [HP _]. exfalso. assert (reach (has_edge g) s e) as HR by (exists P; exact HP). apply reach_cases in HR.
      destruct HR as [HR|HR]; [congruence|]. apply Hiff in HR. discriminate. Qed.

(** ** all_paths *)
Lemma ends_with_spec n (p : list A) : ends_with n p = true <-> exists q, p = q ++ [n].
Proof. unfold ends_with. split.
  - destruct (rev p) as [|x r] eqn:E; [discriminate|]. intros Hx. apply eqb_eq in Hx. subst x. exists (rev r). rewrite <- (rev_involutive p), E. reflexivity.
  - intros (q & ->). rewrite rev_app_distr. cbn. apply eqb_refl. Qed.
Lemma path_ends_with R s (p : list A) b n : path R s p b -> (ends_with n p = true <-> b = n).
Proof. intros HP. rewrite ends_with_spec. split.
  - intros (q & ->). pose proof (path_last _ _ _ _ n HP) as HL. rewrite last_last in HL. auto.
  - intros ->. exists (removelast p). assert (p <> []) as Hp0 by (intros ->; exact (path_nonempty _ _ _ HP)).
    pose proof (app_removelast_last n Hp0) as E. rewrite (path_last _ _ _ _ n HP) in E. exact E. Qed.

Definition real g s (p : list A) : Prop := exists b, path (has_edge g) s p b.
Lemma lremove_In_sub (p q : list A) L : In p (lremove q L) -> In p L.
Proof. apply (lremove_In p q L). Qed.
Lemma ap_extend_fold n2 (new : list (list A)) : forall paths, NoDup paths ->
  NoDup (fold_left (ap_extend n2) new paths) /\
  (forall p, In p (fold_left (ap_extend n2) new paths) -> In p paths \/ exists q, In q new /\ p = q ++ [n2]) /\
  ((forall q, In q new -> ~ In (q ++ [n2]) new) -> forall p, In p (fold_left (ap_extend n2) new paths) <-> (In p paths /\ ~ In p new) \/ exists q, In q new /\ p = q ++ [n2]).
Proof. induction new as [|q new IH]; intros paths Hn; cbn [fold_left].
  - splits; auto. intros _ p. split; [auto|]. intros [[H _]|(q & [] & _)]. exact H.
  - set (p1 := ap_extend n2 paths q).
    assert (NoDup (if mem q paths then lremove q paths else paths)) as Hn0 by (destruct (mem q paths); [apply NoDup_lremove|]; exact Hn).
    assert (forall p, In p (if mem q paths then lremove q paths else paths) <-> In p paths /\ p <> q) as H0.
    { intros p. destruct (mem_spec q paths) as [h|h]; [apply In_lremove_NoDup, Hn|]. split; [intros Hp; split; [exact Hp|]; intros ->; auto|tauto]. }
    assert (NoDup p1) as Hn1.
    { unfold p1, ap_extend. destruct (mem_spec (q ++ [n2]) (if mem q paths then lremove q paths else paths)) as [h|h]; [exact Hn0|]. apply NoDup_app_single; auto. }
    assert (forall p, In p p1 <-> (In p paths /\ p <> q) \/ p = q ++ [n2]) as H1.
    { intros p. unfold p1, ap_extend. destruct (mem_spec (q ++ [n2]) (if mem q paths then lremove q paths else paths)) as [h|h].
      - rewrite H0. split; [auto|]. intros [Hp| ->]; [exact Hp|]. apply H0, h.
      - rewrite in_app_iff, H0. cbn. intuition auto. }
    destruct (IH p1 Hn1) as (K1 & K2 & K3). splits.
    + exact K1.
    + intros p Hp. apply K2 in Hp. destruct Hp as [Hp|(q' & Hq' & ->)]; [|right; exists q'; cbn; auto]. apply H1 in Hp. destruct Hp as [[Hp _]| ->]; [auto|]. right. exists q. cbn; auto.
    + intros Hd p. rewrite K3 by (intros q' Hq' C; apply (Hd q'); cbn; auto). rewrite H1. split.
      * intros [[[[Hp Hpq]| ->] Hnn]|(q' & Hq' & ->)].
        -- left. split; [exact Hp|]. intros [C|C]; [congruence|auto].
        -- right. exists q. cbn; auto.
        -- right. exists q'. cbn; auto.
      * intros [[Hp Hnn]|(q' & [->|Hq'] & ->)].
        -- left. split; [left; split; [exact Hp|intros ->; apply Hnn; cbn; auto]|intros C; apply Hnn; cbn; auto].
        -- left. split; [auto|]. intros C. apply (Hd q'); cbn; auto.
        -- right. exists q'. auto. Qed.

(** everything all_paths returns is a path from s to e, whatever the graph *)
Lemma ap_next_sound fuel g s n1 new st n2 st' : wf g -> has_edge g n1 n2 -> (forall p, In p new -> path (has_edge g) s p n1) ->
  NoDup (fst (fst st)) -> (forall p, In p (fst (fst st)) -> real g s p) -> ap_next fuel g n1 new st n2 = Ok st' ->
  NoDup (fst (fst st')) /\ forall p, In p (fst (fst st')) -> real g s p.
Proof. intros W He Hnew Hn Hr. destruct st as [[paths q] skip]. unfold ap_next. cbn [fst] in *. destruct (mem n2 skip); [intros E; inv E; auto|].
  destruct (is_connected fuel g n2 n1) as [con| |]; cbn [bind]; [|discriminate|discriminate].
  destruct (if (1 <? length (nodes_from g n2)) && con then _ else _) as [skip'| |]; cbn [bind]; [|discriminate|discriminate]. intros E. inv E. cbn [fst].
  destruct (ap_extend_fold n2 new paths Hn) as (K1 & K2 & _). split; [exact K1|]. intros p Hp. apply K2 in Hp. destruct Hp as [Hp|(p' & Hp' & ->)]; [auto|].
  exists n2. eapply path_snoc; [apply Hnew, Hp'|exact He]. Qed.
Lemma all_paths_sound fuel g s e r : wf g -> In s (nodes g) -> all_paths fuel g s e = Ok r -> NoDup r /\ forall p, In p r -> path (has_edge g) s p e.
Proof. intros W Hs. unfold all_paths. destruct (negb (contains g s)); [discriminate|]. destruct (negb (contains g e)); [discriminate|]. destruct (eqb s e) eqn:Ese; [discriminate|].
  destruct (is_connected fuel g s e) as [con| |]; cbn [bind]; [|discriminate|discriminate]. destruct con; cbn [negb]; [|intros E; inv E; split; [constructor|intros p []]].
  intros E.
  destruct (loop_partial (ap_step fuel g e) (fun st => NoDup (fst (fst st)) /\ forall p, In p (fst (fst st)) -> real g s p)
    (fun r => match r with Ok l => NoDup l /\ forall p, In p l -> path (has_edge g) s p e | _ => True end)) with (n := fuel) (s := ([[s]], [s], @nil A)) (r := Ok r) as [C|H]; [| |exact E|discriminate|exact H].
  - intros [[paths q] skip] [Hn Hr]. cbn [fst] in *. unfold ap_step. destruct q as [|n1 q].
    + split; [apply NoDup_filter, Hn|]. intros p Hp. apply filter_In in Hp. destruct Hp as [Hp Hl]. destruct (Hr p Hp) as (b & Hb). apply (path_ends_with _ _ _ _ e Hb) in Hl. subst. exact Hb.
    + destruct (eqb n1 e); [cbn [fst]; auto|].
      set (new := filter (ends_with n1) paths).
      assert (forall p, In p new -> path (has_edge g) s p n1) as Hnew.
      { intros p Hp. apply filter_In in Hp. destruct Hp as [Hp Hl]. destruct (Hr p Hp) as (b & Hb). apply (path_ends_with _ _ _ _ n1 Hb) in Hl. subst. exact Hb. }
      assert (forall l st, incl l (nodes_from g n1) -> NoDup (fst (fst st)) -> (forall p, In p (fst (fst st)) -> real g s p) ->
         match foldM (ap_next fuel g n1 new) l st with Ok st' => NoDup (fst (fst st')) /\ forall p, In p (fst (fst st')) -> real g s p | _ => True end) as HF.
      { induction l as [|n2 l IH]; intros st Hl Hn' Hr'; cbn [foldM]; [auto|]. destruct (ap_next fuel g n1 new st n2) as [st'|x|] eqn:En; cbn [bind]; auto.
        destruct (ap_next_sound fuel g s n1 new st n2 st' W) as [A1 A2]; auto; [apply (In_from g n1 n2 W), Hl; cbn; auto|]. apply IH; auto. intros y Hy. apply Hl. cbn; auto. }
      specialize (HF (nodes_from g n1) (paths, q, skip) ltac:(intros y Hy; exact Hy) Hn Hr).
      destruct (foldM (ap_next fuel g n1 new) (nodes_from g n1) (paths, q, skip)); auto.
  - cbn [fst]. split; [constructor; [intros []|constructor]|]. intros p [<-|[]]. exists s. constructor. Qed.

(** on an acyclic graph: terminates with all of them *)
Lemma acyclic_levels g : wf g -> acyclic (has_edge g) -> exists lev : A -> nat, forall x, In x (nodes g) -> level (has_edge g) x (lev x).
Proof. intros W Hac. apply (finite_choice (fun x k => level (has_edge g) x k) 0 (nodes g)).
  intros x Hx. destruct (graph_level g x W Hx) as [H|H]; [exact H|]. destruct (acyclic_not_behind _ x Hac H). Qed.
Lemma level_lt g x k : wf g -> In x (nodes g) -> level (has_edge g) x k -> acyclic (has_edge g) -> k < length (nodes g).
Proof. intros W Hx [[a Ha] _] Hac. apply steps_path in Ha. destruct Ha as (p & Hp & Hl).
  assert (NoDup p) as Hn.
  { destruct (ListDec.NoDup_dec eq_dec p) as [h|h]; [exact h|]. destruct (path_dup_cycle _ _ _ _ Hp h) as (z & _ & Hz). destruct (Hac z Hz). }
  assert (incl p (nodes g)) as Hi.
  { destruct p as [|h t]; [discriminate|]. intros z Hz. destruct t as [|u t]; [apply path_inv1 in Hp; destruct Hp as [_ <-]; destruct Hz as [<-|[]]; exact Hx|].
    pose proof (path_cons_head _ _ _ _ _ Hp) as ->. pose proof (path_inv2 _ _ _ _ _ _ Hp) as (_ & HR & _).
    apply (path_nodes (fun z => In z (nodes g)) (has_edge g) h (h :: u :: t) x); [apply (has_edge_nodes g h u W HR)| |exact Hp|exact Hz]. intros y v Hyv. apply (has_edge_nodes g y v W Hyv). }
  apply (NoDup_incl_length Hn) in Hi. lia. Qed.

Lemma ap_next_dag g n1 new n2 paths q : wf g -> acyclic (has_edge g) -> has_edge g n1 n2 ->
  returns (fun m => ap_next m g n1 new (paths, q, []) n2) (Ok (fold_left (ap_extend n2) new paths, if mem n2 q then q else q ++ [n2], [])).
Proof. intros W Hac He. unfold ap_next. cbn [mem]. destruct (is_connected_spec g n2 n1 W) as (c & Hc & Hiff).
  destruct c.
  - exfalso. apply (Hac n1). exists n2. split; [exact He|]. apply reach1_reach, Hiff. reflexivity.
  - refine (returns_bind _ (fun m con => _) false _ Hc _). rewrite andb_false_r. cbn [bind]. apply returns_const. discriminate. Qed.

Definition ap_post s e g (r : res (list (list A))) : Prop := exists l, r = Ok l /\ NoDup l /\ forall P, In P l <-> path (has_edge g) s P e.

Lemma ap_round g s n1 paths q : wf g -> acyclic (has_edge g) -> NoDup paths -> (forall p, In p paths -> real g s p) ->
  exists paths' q', returns (fun m => foldM (ap_next m g n1 (filter (ends_with n1) paths)) (nodes_from g n1) (paths, q, [])) (Ok (paths', q', [])) /\
    NoDup paths' /\ (forall p, In p paths' <-> (In p paths /\ (~ path (has_edge g) s p n1 \/ nodes_from g n1 = [])) \/ exists p' n2, In p' paths /\ path (has_edge g) s p' n1 /\ has_edge g n1 n2 /\ p = p' ++ [n2]) /\
    (forall x, In x q' <-> In x q \/ has_edge g n1 x) /\ exists nq, q' = q ++ nq /\ incl nq (nodes_from g n1) /\ length nq <= length (nodes_from g n1).
Proof. intros W Hac Hn Hr. set (new := filter (ends_with n1) paths).
  assert (forall p, In p new <-> In p paths /\ path (has_edge g) s p n1) as Hnew.
  { intros p. unfold new. rewrite filter_In. split; intros [Hp Hl]; (split; [exact Hp|]); destruct (Hr p Hp) as (b & Hb).
    - apply (path_ends_with _ _ _ _ n1 Hb) in Hl. subst. exact Hb.
    - apply (path_ends_with _ _ _ _ n1 Hl). reflexivity. }
  assert (forall n2 p, has_edge g n1 n2 -> In p new -> ~ In (p ++ [n2]) new) as Hdis.
  { intros n2 p He Hp C. apply Hnew in C. destruct C as [_ C]. pose proof (path_last _ _ _ _ n2 C) as HL. rewrite last_last in HL. subst n2. apply (Hac n1). exists n1. split; [exact He|apply reach_refl]. }
  pose (Q := fun (pre : list A) (st : list (list A) * list A * list A) => let '(ps, q', sk) := st in sk = [] /\ NoDup ps /\
    (forall p, In p ps <-> (In p paths /\ (~ In p new \/ pre = [])) \/ exists p' n2, In p' new /\ In n2 pre /\ p = p' ++ [n2]) /\
    (forall x, In x q' <-> In x q \/ In x pre) /\ exists nq, q' = q ++ nq /\ incl nq pre /\ length nq <= length pre).
  destruct (foldM_returns (fun m => ap_next m g n1 new) Q (fun _ => False) (nodes_from g n1)) with (s0 := (paths, q, @nil A)) as (r & Hret & HP).
  - intros pre n2 post [[ps q'] sk] E (-> & P1 & P2 & P3 & nq & P4 & P5 & P6).
    assert (has_edge g n1 n2) as He by (apply (In_from g n1 n2 W); rewrite E; apply in_app_iff; cbn; auto).
    eexists. split; [apply (ap_next_dag g n1 new n2 ps q' W Hac He)|]. cbn [Q].
    destruct (ap_extend_fold n2 new ps P1) as (K1 & _ & K3). specialize (K3 (fun p Hp => Hdis n2 p He Hp)). hnf; splits.
    + reflexivity.
    + exact K1.
    + intros p. rewrite K3, P2. split.
      * intros [[[[Hp Hx]|(p' & m & Hp' & Hm & ->)] Hni]|(p' & Hp' & ->)].
        -- left. auto.
        -- right. exists p', m. splits; auto. apply in_app_iff. auto.
        -- right. exists p', n2. splits; auto. apply in_app_iff. cbn; auto.
      * intros [[Hp [Hx|Hx]]|(p' & m & Hp' & Hm & ->)].
        -- left. auto.
        -- destruct pre; discriminate.
        -- apply in_app_iff in Hm. destruct Hm as [Hm|[<-|[]]]; [|right; exists p'; auto]. left. split; [right; exists p', m; auto|].
           apply Hdis; [|exact Hp']. apply (In_from g n1 m W). rewrite E. apply in_app_iff. auto.
    + intros x. rewrite in_app_iff. destruct (mem_spec n2 q') as [h|h]; [rewrite P3|rewrite in_app_iff, P3]; cbn; intuition (subst; auto). apply P3 in h. tauto.
    + destruct (mem_spec n2 q') as [h|h].
      * exists nq. splits; [exact P4|intros x Hx; apply in_app_iff; left; apply P5, Hx|rewrite app_length; lia].
      * exists (nq ++ [n2]). splits; [rewrite P4, <- app_assoc; reflexivity| |rewrite !app_length; cbn; lia].
        intros x Hx. apply in_app_iff in Hx. apply in_app_iff. destruct Hx as [Hx|Hx]; [left; apply P5, Hx|auto].
  - hnf; splits; [reflexivity|exact Hn| | |].
    + intros p. split; [intros Hp; left; auto|]. intros [[Hp _]|(p' & m & _ & [] & _)]. exact Hp.
    + intros x. cbn. tauto.
    + exists []. rewrite app_nil_r. splits; auto. intros x [].
  - destruct r as [[[ps q'] sk]|x|]; [|destruct HP|destruct HP]. destruct HP as (-> & P1 & P2 & P3 & P4). exists ps, q'. splits; auto.
    + intros p. rewrite P2. split.
      * intros [[Hp [Hx|Hx]]|(p' & m & Hp' & Hm & ->)]; [left; split; [exact Hp|left; intros C; apply Hx, Hnew; auto]|left; auto|].
        right. apply Hnew in Hp'. exists p', m. splits; try tauto. apply (In_from g n1 m W), Hm.
      * intros [[Hp [Hx|Hx]]|(p' & m & Hp' & Hpp & Hm & ->)]; [left; split; [exact Hp|left; intros C; apply Hx, Hnew, C]|left; auto|].
        right. exists p', m. splits; auto; [apply Hnew; auto|apply (In_from g n1 m W), Hm].
    + intros x. rewrite P3, (In_from g n1 x W). reflexivity. Qed.

Lemma settles_of {S0 R0} (f : nat -> res S0) (s' : S0) : returns f (Ok s') ->
  settles (R := R0) (fun m => match f m with Ok x => inl x | Err e => inr (Err e) | OutOfFuel => inr OutOfFuel end) (inl s').
Proof. intros (_ & [N HN] & H). hnf; splits; [discriminate|exists N; intros n Hn; rewrite HN by exact Hn; reflexivity|intros n; destruct (H n) as [-> | ->]; auto]. Qed.

Definition ap_inv g s e (st : list (list A) * list A * list A) : Prop :=
  let '(paths, q, skip) := st in
  skip = [] /\ NoDup paths /\ (forall p, In p paths -> real g s p) /\ (forall x, In x q -> In x (nodes g)) /\
  (forall P, path (has_edge g) s P e -> exists p t, In p paths /\ P = p ++ t) /\
  (forall p b, In p paths -> path (has_edge g) s p b -> b <> e -> (exists c, has_edge g b c) -> In b q).

Lemma all_paths_dag g s e : wf g -> acyclic (has_edge g) -> In s (nodes g) -> In e (nodes g) -> s <> e ->
  exists l, returns (fun n => all_paths n g s e) (Ok l) /\ NoDup l /\ forall P, In P l <-> path (has_edge g) s P e.
Proof. intros W Hac Hs He Hne. unfold all_paths. assert (contains g s = true) as -> by (apply contains_In, Hs).
  assert (contains g e = true) as -> by (apply contains_In, He). cbn [negb]. destruct (eqb s e) eqn:E; [apply eqb_eq in E; congruence|].
  destruct (is_connected_spec g s e W) as (c & Hc & Hiff). destruct c.
  2:{ exists []. splits; [|constructor|].
    + refine (returns_bind _ (fun n c => _) false _ Hc _). apply returns_const. discriminate.
    + intros P. split; [intros []|]. intros HP. exfalso. assert (reach (has_edge g) s e) as HR by (exists P; exact HP). apply reach_cases in HR.
      destruct HR as [HR|HR]; [congruence|]. apply Hiff in HR. discriminate. }
  destruct (acyclic_levels g W Hac) as (lev & Hlev).
  set (N := length (nodes g)). set (B := S N). set (w := fun x => B ^ (N - lev x)).
  assert (forall x y, has_edge g x y -> N - lev y < N - lev x) as Hlt.
  { intros x y Hxy. destruct (has_edge_nodes g x y W Hxy) as [Hx Hy]. pose proof (level_lt g x (lev x) W Hx (Hlev x Hx) Hac) as H1. fold N in H1.
    destruct (Hlev x Hx) as [[a Ha] _]. destruct (Hlev y Hy) as [_ Hm]. specialize (Hm _ _ (steps_snoc _ _ _ _ _ Ha Hxy)). lia. }
  destruct (loop_returns2 (fun m => ap_step m g e) (ap_inv g s e) (fun (t1 t2 : list (list A) * list A * list A) => qsum w (snd (fst t1)) < qsum w (snd (fst t2))) (ap_post s e g)) with (s := ([[s]], [s], @nil A)) as (r & Hr & l & -> & Hl).
  - apply (wf_of lt (fun t1 : list (list A) * list A * list A => qsum w (snd (fst t1)))). apply lt_wf.
  - intros [[paths q] skip] (-> & I1 & I2 & I3 & I4 & I5). unfold ap_step. destruct q as [|n1 q].
    + eexists. split; [apply settles_const; discriminate|]. cbn beta iota. exists (filter (ends_with e) paths). splits; [reflexivity|apply NoDup_filter, I1|].
      intros P. rewrite filter_In. split.
      * intros [HP HE]. destruct (I2 P HP) as (b & Hb). apply (path_ends_with _ _ _ _ e Hb) in HE. subst. exact Hb.
      * intros HP. destruct (I4 P HP) as (p & t & Hp & ->). destruct t as [|x t]; [rewrite app_nil_r in *; split; [exact Hp|apply (path_ends_with _ _ _ _ e HP); reflexivity]|exfalso].
        destruct (I2 p Hp) as (b & Hb). assert (has_edge g b x /\ path (has_edge g) x (x :: t) e) as [Hbx Hxe].
        { assert (exists p0, p = p0 ++ [b]) as (p0 & ->) by (apply ends_with_spec, (path_ends_with _ _ _ _ b Hb); reflexivity).
          rewrite <- app_assoc in HP. apply path_split in HP. destruct HP as [_ HP]. apply path_inv2 in HP. tauto. }
        destruct (eq_dec b e) as [->|Hbe]; [apply (Hac e); exists x; split; [exact Hbx|exists (x :: t); exact Hxe]|].
        destruct (I5 p b Hp Hb Hbe). exists x. exact Hbx.
    + destruct (eqb n1 e) eqn:En.
      * eexists. split; [apply settles_const; discriminate|]. cbn beta iota. apply eqb_eq in En. subst n1. split.
        -- hnf; splits; auto; [intros x Hx; apply I3; cbn; auto|]. intros p b Hp Hb Hbe Hex. destruct (I5 p b Hp Hb Hbe Hex) as [C|C]; [congruence|exact C].
        -- cbn [fst snd qsum]. unfold w at 2. pose proof (Nat.pow_nonzero B (N - lev e)). unfold B in *. lia.
      * destruct (ap_round g s n1 paths q W Hac I1 I2) as (paths' & q' & Hret & J1 & J2 & J3 & nq & J4 & J5 & J6).
        eexists. split; [apply (settles_of _ _ Hret)|]. cbn beta iota. split.
        -- hnf; splits.
           ++ reflexivity.
           ++ exact J1.
           ++ intros p Hp. apply J2 in Hp. destruct Hp as [[Hp _]|(p' & n2 & _ & Hp' & Hn2 & ->)]; [auto|]. exists n2. eapply path_snoc; eauto.
           ++ intros x Hx. apply J3 in Hx. destruct Hx as [Hx|Hx]; [apply I3; cbn; auto|apply (has_edge_nodes g n1 x W Hx)].
           ++ intros P HP. destruct (I4 P HP) as (p & t & Hp & EP). destruct (I2 p Hp) as (b & Hb).
              destruct (eq_dec b n1) as [->|Hbn].
              ** destruct t as [|x t].
                 --- exfalso. rewrite app_nil_r in EP. subst P. pose proof (path_last _ _ _ _ s HP) as L1. pose proof (path_last _ _ _ _ s Hb) as L2. apply eqb_false in En. congruence.
                 --- assert (has_edge g n1 x) as Hx.
                     { assert (exists p0, p = p0 ++ [n1]) as (p0 & ->) by (apply ends_with_spec, (path_ends_with _ _ _ _ n1 Hb); reflexivity).
                       rewrite EP, <- app_assoc in HP. apply path_split in HP. destruct HP as [_ HP]. apply path_inv2 in HP. tauto. }
                     exists (p ++ [x]), t. split; [apply J2; right; exists p, x; auto|]. rewrite <- app_assoc. exact EP.
              ** exists p, t. split; [|exact EP]. apply J2. left. split; [exact Hp|]. left. intros C.
                 pose proof (path_last _ _ _ _ s C) as L1. pose proof (path_last _ _ _ _ s Hb) as L2. congruence.
           ++ intros p b Hp Hb Hbe Hex. apply J3. apply J2 in Hp. destruct Hp as [[Hp Hx]|(p' & n2 & _ & Hp' & Hn2 & ->)].
              ** destruct (I5 p b Hp Hb Hbe Hex) as [<-|C]; [|auto]. destruct Hx as [Hx|Hx]; [tauto|]. destruct Hex as (c & Hc'). apply (In_from g n1 c W) in Hc'. rewrite Hx in Hc'. destruct Hc'.
              ** pose proof (path_last _ _ _ _ s Hb) as L. rewrite last_last in L. subst n2. auto.
        -- cbn [fst snd qsum]. rewrite J4, qsum_app. assert (qsum w nq < w n1); [|lia].
           assert (qsum w nq <= length nq * (B ^ (N - lev n1 - 1))) as HW.
           { apply qsum_le. intros x Hx. unfold w. apply Nat.pow_le_mono_r; [unfold B; lia|]. specialize (Hlt n1 x). specialize (Hlt (proj1 (In_from g n1 x W) (J5 x Hx))). lia. }
           assert (length nq <= N) as HL.
           { etransitivity; [exact J6|]. apply NoDup_incl_length; [apply NoDup_nodes_from, W|]. intros x Hx. apply (In_from g n1 x W) in Hx. apply (has_edge_nodes g n1 x W Hx). }
           assert (In n1 (nodes g)) as Hn1 by (apply I3; cbn; auto).
           pose proof (level_lt g n1 (lev n1) W Hn1 (Hlev n1 Hn1) Hac) as HLv. fold N in HLv.
           assert (w n1 = B * B ^ (N - lev n1 - 1)) as Hw1.
           { unfold w. replace (N - lev n1) with (S (N - lev n1 - 1)) at 1 by lia. reflexivity. }
           rewrite Hw1. assert (0 < B ^ (N - lev n1 - 1)) as Hpos by (pose proof (Nat.pow_nonzero B (N - lev n1 - 1)); unfold B in *; lia).
           assert (length nq * B ^ (N - lev n1 - 1) < B * B ^ (N - lev n1 - 1)); [|lia]. apply Nat.mul_lt_mono_pos_r; [exact Hpos|unfold B; lia].
  - hnf; splits.
    + reflexivity.
    + constructor; [intros []|constructor].
    + intros p [<-|[]]. exists s. constructor.
    + intros x [<-|[]]. exact Hs.
    + intros P HP. destruct (path_head _ _ _ _ HP) as (t & ->). exists [s], t. split; [cbn; auto|reflexivity].
    + intros p b [<-|[]] Hb _ _. apply path_inv1 in Hb. destruct Hb as [_ ->]. cbn; auto.
  - exists l. split; [|exact Hl]. refine (returns_bind _ (fun n c => _) true _ Hc _). cbn [negb]. apply returns2_diag in Hr. exact Hr. Qed.
End F.
