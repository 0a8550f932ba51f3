(** tsp_branch_and_bound on complete graphs: it ends, and what it returns is a tour with its length *)
From Coq Require Import Factorial.
From Verif Require Import Prelude PreludeFacts Base BaseFacts BaseFacts2 BaseFacts3 Spec Loop BaseAlgFacts Sp Tsp TspSpec Bnb.
Section Facts.
Context {A O : Type} {EA : EqDec A}.
Notation graph := (graph A O Z).
Lemma insort_perm {X} (lt : X -> X -> bool) x q : Permutation (insort lt x q) (x :: q).
Proof. induction q as [|y q IH]; [reflexivity|]. cbn [insort]. destruct (lt x y); [reflexivity|]. rewrite IH. apply perm_swap. Qed.
Context (srt : list (Z * A) -> list (Z * A)) (ord : list A -> list A -> list A) (ltt : list A -> list A -> bool) (Hord : forall t s, Permutation (ord t s) s).
Context (g : graph) (W : wf g) (HC : complete g) (start : A) (rest : list A) (En : nodes g = start :: rest) (Hloop : edge g start start = None) (H4 : 4 <= length (nodes g)).
Let n := length (nodes g).
Lemma start_in : In start (nodes g).
Proof. rewrite En. left. reflexivity. Qed.
(** consecutive nodes differ *)
Fixpoint steps (x : A) (t : list A) : Prop := match t with [] => True | y :: r => x <> y /\ In y (nodes g) /\ steps y r end.
Lemma steps_dfp fuel c t : forall x acc, In x (nodes g) -> steps x t -> exists z, walk_length g x t = Some z /\ dfp_loop fuel g x t c acc = Ok (Fin (acc + z)).
Proof. induction t as [|y t IH]; intros x acc Hx Hs; cbn [walk_length dfp_loop]; [exists 0%Z; split; [reflexivity|f_equal; f_equal; lia]|]. destruct Hs as (H1 & H2 & H3). destruct (HC x y Hx H2 H1) as (v & -> & Hv). cbn [truthy]. apply Z.eqb_neq in Hv. rewrite Hv.
  destruct (IH y (acc + v)%Z H2 H3) as (z & -> & ->). exists (v + z)%Z. split; [reflexivity|]. f_equal. f_equal. lia. Qed.
Lemma steps_nodup t : forall x, NoDup (x :: t) -> incl (x :: t) (nodes g) -> steps x t.
Proof. induction t as [|y t IH]; intros x ND Hi; cbn [steps]; [exact I|]. apply NoDup_cons_iff in ND. destruct ND as [N1 N2]. splits; [intros ->; apply N1; left; reflexivity|apply Hi; right; left; reflexivity|]. apply IH; [exact N2|]. intros z Hz. apply Hi. right. exact Hz. Qed.
Lemma steps_snoc t y : forall x, steps x t -> In y (nodes g) -> last (x :: t) x <> y -> steps x (t ++ [y]).
Proof. induction t as [|z t IH]; intros x Hs Hy Hl; cbn [app steps] in *; [auto|]. destruct Hs as (K1 & K2 & K3). splits; auto. apply IH; auto. intros C. apply Hl. rewrite <- C. apply (last_indep t z x z). Qed.

Definition partial (t : list A) : Prop := (exists r, t = start :: r) /\ NoDup t /\ incl t (nodes g) /\ 2 <= length t <= n - 2.
Definition full (e : ext * list A) : Prop := exists p z, snd e = p ++ [start] /\ Permutation p (nodes g) /\ (exists r, p = start :: r) /\ tour_length g p = Some z /\ fst e = Fin z.
Definition good (e : ext * list A) : Prop := partial (snd e) \/ full e.
Fixpoint Wt (m : nat) : nat := match m with 0 => 1 | S m' => S (m * Wt m') end.
Definition pot (e : ext * list A) : nat := if length (snd e) =? S n then 1 else fact (n - length (snd e)).
Definition wt (e : ext * list A) : nat := if length (snd e) =? S n then 1 else Wt (n - length (snd e)).
Definition psm (q : list (ext * list A)) : nat := list_sum (map pot q).
Definition wsm (q : list (ext * list A)) : nat := list_sum (map wt q).
Lemma list_sum_perm l l' : Permutation l l' -> list_sum l = list_sum l'.
Proof. intros H. unfold list_sum. induction H; cbn in *; lia. Qed.
Lemma psm_perm q q' : Permutation q q' -> psm q = psm q'.
Proof. intros H. apply list_sum_perm, Permutation_map, H. Qed.
Lemma wsm_perm q q' : Permutation q q' -> wsm q = wsm q'.
Proof. intros H. apply list_sum_perm, Permutation_map, H. Qed.
Lemma full_length e : full e -> length (snd e) = S n.
Proof. intros (p & z & -> & H & _). rewrite app_length, (Permutation_length H). cbn. unfold n. lia. Qed.
Lemma Wt_pos m : 1 <= Wt m.
Proof. destruct m; cbn; lia. Qed.

Definition rem (t : list A) : list A := filter (fun x => negb (mem x t)) (nodes g).
Lemma In_rem t x : In x (rem t) <-> In x (nodes g) /\ ~ In x t.
Proof. clear. unfold rem. rewrite filter_In, negb_true_iff, mem_notIn. tauto. Qed.
Lemma rem_perm t : NoDup t -> incl t (nodes g) -> Permutation (nodes g) (t ++ rem t).
Proof. clear - W. intros ND Hi. apply NoDup_Permutation; [apply wf_nodes, W| |].
  - apply NoDup_app_iff. splits; [exact ND|apply NoDup_filter, wf_nodes, W|]. intros x Hx Hr. apply In_rem in Hr. tauto.
  - intros x. rewrite in_app_iff, In_rem. destruct (in_dec eq_dec x t); firstorder. Qed.
Lemma rem_length t : NoDup t -> incl t (nodes g) -> length (rem t) = n - length t.
Proof. clear - W. intros ND Hi. pose proof (Permutation_length (rem_perm t ND Hi)) as H. rewrite app_length in H. unfold n. lia. Qed.

Lemma child_spec t x : partial t -> In x (rem t) -> exists e, (forall fuel q, bnb_child srt ord ltt fuel g t (rem t) q x = Ok (insort (qlt ltt) e q)) /\ good e /\ pot e = fact (n - length t - 1) /\ wt e <= Wt (n - length t - 1).
Proof. intros ([r Er] & ND & Hi & HL) Hx. pose proof (rem_length t ND Hi) as HR. pose proof (rem_perm t ND Hi) as HP. pose proof (lremove_perm x (rem t) Hx) as HQ. pose proof (Permutation_length HQ) as HQL. cbn [length] in HQL.
  pose proof (proj1 (In_rem t x) Hx) as [Hx1 Hx2].
  assert (NoDup (t ++ [x])) as ND1. { apply NoDup_app_iff. splits; [exact ND|constructor; [intros []|constructor]|]. intros y Hy [<-|[]]. contradiction. }
  assert (incl (t ++ [x]) (nodes g)) as Hi1. { intros y Hy. apply in_app_iff in Hy. destruct Hy as [Hy|[<-|[]]]; auto. }
  unfold bnb_child. destruct (lremove x (rem t)) as [|l [|l' lb]] eqn:El; cbn [length] in HQL; [lia| |].
  - (* the last two nodes *)
    assert (Permutation (t ++ [x; l]) (nodes g)) as HF. { rewrite HP. apply Permutation_app_head. rewrite HQ. reflexivity. }
    assert (NoDup (t ++ [x; l])) as ND2 by (apply (Permutation_NoDup (Permutation_sym HF) (wf_nodes _ W))).
    subst t. cbn [hd]. assert (steps start (r ++ [x; l])) as Hs by (apply steps_nodup; [exact ND2|intros y Hy; apply (Permutation_in _ HF), Hy]).
    assert (steps start ((r ++ [x; l]) ++ [start])) as Hs2. { apply steps_snoc; [exact Hs|rewrite En; left; reflexivity|]. intros C. cbn [app] in ND2. apply NoDup_cons_iff in ND2. destruct ND2 as [N _]. apply N. change [x; l] with ([x] ++ [l]) in C |- *. rewrite app_assoc in C |- *. change (start :: (r ++ [x]) ++ [l]) with ((start :: r ++ [x]) ++ [l]) in C. rewrite last_last in C. subst l. apply in_app_iff. right. left. reflexivity. }
    destruct (steps_dfp 0 [] _ start 0%Z start_in Hs2) as (z & Hz & _).
    exists (Fin z, ((start :: r) ++ [x]) ++ [l; start]).
    assert (((start :: r) ++ [x]) ++ [l; start] = (start :: r ++ [x; l]) ++ [start]) as Eq by (rewrite <- app_assoc; cbn [app]; rewrite <- app_assoc; reflexivity).
    assert (full (Fin z, ((start :: r) ++ [x]) ++ [l; start])) as Hfull. { exists (start :: r ++ [x; l]), z. cbn [fst snd]. splits; [exact Eq|exact HF|eexists; reflexivity|exact Hz|reflexivity]. }
    splits.
    + intros fuel q. rewrite Eq. cbn [app distance_from_path]. destruct (steps_dfp fuel [] _ start 0%Z start_in Hs2) as (z' & Hz' & ->). cbn [bind]. assert (z' = z) as -> by congruence. rewrite Z.add_0_l. reflexivity.
    + right. exact Hfull.
    + unfold pot. rewrite (full_length _ Hfull), Nat.eqb_refl. replace (n - length (start :: r) - 1) with 1 by lia. reflexivity.
    + unfold wt. rewrite (full_length _ Hfull), Nat.eqb_refl. apply Wt_pos.
  - subst t. assert (steps start (r ++ [x])) as Hs by (apply steps_nodup; assumption). destruct (steps_dfp 0 [] _ start 0%Z start_in Hs) as (z & Hz & _).
    exists (ext_add (Fin z) (Fin (lower_bound srt ord g ((start :: r) ++ [x]) (l :: l' :: lb))), (start :: r) ++ [x]).
    assert (length ((start :: r) ++ [x]) = S (length (start :: r))) as EL by (rewrite app_length; cbn; lia).
    splits.
    + intros fuel q. cbn [app distance_from_path]. destruct (steps_dfp fuel [] _ start 0%Z start_in Hs) as (z' & Hz' & ->). cbn [bind]. assert (z' = z) as -> by congruence. rewrite Z.add_0_l. reflexivity.
    + left. cbn [snd]. hnf. rewrite EL. splits; [eexists; reflexivity|exact ND1|exact Hi1|lia|lia].
    + unfold pot. cbn [snd]. rewrite EL. destruct (Nat.eqb_spec (S (length (start :: r))) (S n)); [lia|]. f_equal. lia.
    + unfold wt. cbn [snd]. rewrite EL. destruct (Nat.eqb_spec (S (length (start :: r))) (S n)); [lia|]. replace (n - S (length (start :: r))) with (n - length (start :: r) - 1) by lia. lia. Qed.
Lemma children_spec t l : partial t -> (forall x, In x l -> In x (rem t)) -> forall q, exists es q', (forall fuel, foldM (bnb_child srt ord ltt fuel g t (rem t)) l q = Ok q') /\ Permutation q' (es ++ q) /\ Forall good es /\ psm es = length l * fact (n - length t - 1) /\ wsm es <= length l * Wt (n - length t - 1).
Proof. intros Ht. induction l as [|x l IH]; intros Hl q; cbn [foldM].
  - exists [], q. splits; auto.
  - destruct (child_spec t x Ht (Hl x (or_introl eq_refl))) as (e & He & Hg & Hp & Hw). destruct (IH (fun y Hy => Hl y (or_intror Hy)) (insort (qlt ltt) e q)) as (es & q' & H1 & H2 & H3 & H5 & H6).
    exists (e :: es), q'. splits.
    + intros fuel. rewrite He. cbn [bind]. apply H1.
    + rewrite H2, insort_perm. cbn [app]. symmetry. apply Permutation_middle.
    + constructor; assumption.
    + unfold psm, list_sum in *. cbn. rewrite H5, Hp. reflexivity.
    + unfold wsm, list_sum in *. cbn. lia. Qed.

Definition BInv (st : list (ext * list A) * list (ext * list A)) : Prop := let '(q, q2) := st in Forall good q /\ Forall full q2 /\ length q2 <= n /\ length q2 + psm q = fact (n - 1).
Lemma partial_notfull t : partial t -> forallb (fun x => mem x t) (nodes g) = false.
Proof. intros (_ & ND & Hi & HL). apply not_true_is_false. intros C. rewrite forallb_forall in C. assert (length (nodes g) <= length t) as K. { apply NoDup_incl_length; [apply wf_nodes, W|]. intros x Hx. apply mem_In, C, Hx. } fold n in K. lia. Qed.
Lemma full_full e : full e -> forallb (fun x => mem x (snd e)) (nodes g) = true.
Proof. intros (p & z & -> & H & _). apply forallb_forall. intros x Hx. apply mem_In, in_app_iff. left. apply (Permutation_in _ (Permutation_sym H)), Hx. Qed.
Lemma Forall_perm {X} (P : X -> Prop) l l' : Permutation l l' -> Forall P l -> Forall P l'.
Proof. intros H F. rewrite Forall_forall in *. intros x Hx. apply F, (Permutation_in _ (Permutation_sym H)), Hx. Qed.
Lemma fact_big : n < fact (n - 1).
Proof. assert (4 <= n) as H by exact H4. clear - H. remember (n - 4) as k eqn:E. replace n with (4 + k) by lia. clear. induction k as [|k IH]; [cbn; lia|]. replace (4 + S k - 1) with (S (4 + k - 1)) by lia. cbn [fact]. nia. Qed.
Definition outcome (glb : Z) (r : res (ext * list A)) : Prop := r = Err AssertionError \/ exists d t, r = Ok (Fin d, t) /\ hamiltonian g t /\ tour_length g t = Some d /\ (glb <= d)%Z.
Lemma bnb_loop glb st : BInv st -> exists r, returns (fun fuel => loop fuel (bnb_step srt ord ltt fuel g glb) st) r /\ outcome glb r.
Proof. intros HI. destruct (loop_returns2 (fun fuel => bnb_step srt ord ltt fuel g glb) BInv (fun a b => wsm (fst a) < wsm (fst b)) (outcome glb)) with (s := st) as (r & Hr & HP); auto; [apply (well_founded_ltof _ (fun a => wsm (fst a)))| |exists r; split; [apply returns2_diag in Hr; exact Hr|exact HP]].
  clear st HI. intros [q q2] (I1 & I2 & I3 & I4). pose proof fact_big as HB. unfold bnb_step. destruct q as [|[d t] q]; [exfalso; cbn in I4; lia|].
  assert (psm ((d, t) :: q) = pot (d, t) + psm q) as EP by reflexivity. assert (wsm ((d, t) :: q) = wt (d, t) + wsm q) as EW by reflexivity.
  apply Forall_cons_iff in I1. destruct I1 as [Hg Iq]. destruct Hg as [Hp|Hf].
  - cbn [snd] in Hp. rewrite (partial_notfull t Hp). pose proof Hp as (_ & ND & Hi & HL). destruct (children_spec t (ord t (rem t)) Hp (fun x Hx => Permutation_in x (Hord t (rem t)) Hx) q) as (es & q' & H1 & H2 & H3 & H5 & H6).
    rewrite (Permutation_length (Hord t (rem t))), (rem_length t ND Hi) in H5, H6. exists (inl (q', q2)). split.
    + apply (settles_ext (fun _ => inl (q', q2))); [|apply settles_const; discriminate]. intros m. fold (rem t). rewrite H1. reflexivity.
    + assert (psm q' = psm es + psm q) as E1 by (rewrite (psm_perm _ _ H2); unfold psm; rewrite map_app, list_sum_app; reflexivity). assert (wsm q' = wsm es + wsm q) as E2 by (rewrite (wsm_perm _ _ H2); unfold wsm; rewrite map_app, list_sum_app; reflexivity).
      assert (pot (d, t) = fact (n - length t)) as E3 by (unfold pot; cbn [snd]; destruct (Nat.eqb_spec (length t) (S n)); [lia|reflexivity]). assert (wt (d, t) = Wt (n - length t)) as E4 by (unfold wt; cbn [snd]; destruct (Nat.eqb_spec (length t) (S n)); [lia|reflexivity]).
      assert (exists m, n - length t = S m) as [m Em] by (exists (n - length t - 1); lia). rewrite Em in *. replace (S m - 1) with m in * by lia. split; [hnf; splits; auto|].
      * apply (Forall_perm good _ _ (Permutation_sym H2)). apply Forall_app. auto.
      * rewrite E1, H5. rewrite EP, E3 in I4. cbn [fact] in I4. lia.
      * cbn [fst]. rewrite E2, EW, E4. cbn [Wt]. lia.
  - pose proof (full_full _ Hf) as E. cbn [snd] in E. rewrite E. clear E. assert (pot (d, t) = 1) as E3 by (unfold pot; rewrite (full_length _ Hf), Nat.eqb_refl; reflexivity). assert (wt (d, t) = 1) as E4 by (unfold wt; rewrite (full_length _ Hf), Nat.eqb_refl; reflexivity). fold n. destruct (Nat.ltb_spec (length q2) n) as [Hlt|Hge].
    + eexists. split; [apply settles_const; discriminate|]. pose proof (insort_perm (q2lt ltt) (d, t) q2) as HPm. split; [hnf; splits; auto|cbn [fst]; lia].
      * apply (Forall_perm full _ _ (Permutation_sym HPm)). constructor; assumption.
      * rewrite (Permutation_length HPm). cbn. lia.
      * rewrite (Permutation_length HPm). cbn [length]. lia.
    + destruct q2 as [|[d2 t2] q2]; [cbn in Hge; unfold n in Hge; lia|]. apply Forall_cons_iff in I2. destruct I2 as [(p & z & Hp1 & Hp2 & Hp3 & Hp4 & Hp5) _]. cbn [fst snd] in Hp1, Hp5. subst d2 t2. rewrite removelast_last.
      eexists. split; [apply settles_const; destruct (ext_leb (Fin glb) (Fin z)); discriminate|]. destruct (ext_leb (Fin glb) (Fin z)) eqn:E; [|left; reflexivity]. right. exists z, p. splits; auto. apply Z.leb_le. exact E. Qed.
Lemma init_spec l : forall q, (forall s e d, In (s, e, d) l -> s = start /\ In e (nodes g) /\ e <> start) -> Forall good q ->
  Forall good (fold_left (fun q e => let '(s, e, d) := e in insort (qlt ltt) (Fin (d + lower_bound srt ord g [s; e] (lremove s (nodes g))), [s; e]) q) l q) /\
  psm (fold_left (fun q e => let '(s, e, d) := e in insort (qlt ltt) (Fin (d + lower_bound srt ord g [s; e] (lremove s (nodes g))), [s; e]) q) l q) = length l * fact (n - 2) + psm q.
Proof. induction l as [|[[s e] d] l IH]; intros q Hl Hq; cbn [fold_left]; [auto|]. destruct (Hl s e d (or_introl eq_refl)) as (-> & He & Hne). set (x := (Fin _, [start; e])). pose proof (insort_perm (qlt ltt) x q) as HP.
  destruct (IH (insort (qlt ltt) x q)) as [H1 H2]; [intros; apply (Hl s e0 d0); right; assumption| |].
  - apply (Forall_perm good _ _ (Permutation_sym HP)). constructor; [|exact Hq]. left. cbn [snd x]. hnf. splits; [eauto| | |cbn [length]; unfold n; lia|cbn [length]; unfold n; lia].
    + constructor; [intros [->|[]]; congruence|constructor; [intros []|constructor]].
    + intros y [<-|[<-|[]]]; [rewrite En; left; reflexivity|exact He].
  - split; [exact H1|]. rewrite H2, (psm_perm _ _ HP). unfold psm. cbn [map list_sum fold_right]. unfold pot at 1. cbn [snd length x]. destruct (Nat.eqb_spec 2 (S n)); [unfold n in *; lia|]. cbn [length]. unfold list_sum. cbn. lia. Qed.
Lemma edges_count_start : length (edges_from g start) = n - 1.
Proof. clear H4. pose proof (wf_nodes _ W) as ND. rewrite En in ND. apply NoDup_cons_iff in ND. destruct ND as [N1 N2].
  assert (Permutation (map (fun e : A * A * Z => snd (fst e)) (edges_from g start)) rest) as H.
  { apply NoDup_Permutation; [| exact N2|].
    - pose proof (NoDup_edges_from g start W) as K. assert (map ekey (edges_from g start) = map (pair start) (map (fun e : A * A * Z => snd (fst e)) (edges_from g start))) as E. { unfold edges_from. rewrite !map_map. reflexivity. } rewrite E in K. apply NoDup_map_inv in K. exact K.
    - intros y. rewrite in_map_iff. split.
      + intros ([[s e] d] & <- & He). apply (In_edges_from g start _ W) in He. destruct He as (b & v & E & Hb). injection E as -> -> ->. cbn [fst snd]. assert (In b (nodes g)) as Hn by (apply (has_edge_nodes g start b W); exists v; exact Hb). rewrite En in Hn. destruct Hn as [->|Hn]; [congruence|exact Hn].
      + intros Hy. assert (start <> y) as Hne by (intros ->; contradiction). destruct (HC start y) as (v & Hv & _); [rewrite En; left; reflexivity|rewrite En; right; exact Hy|exact Hne|]. exists (start, y, v). split; [reflexivity|]. apply (In_edges_from g start _ W). eauto. }
  apply Permutation_length in H. rewrite map_length in H. unfold n. rewrite En. cbn. lia. Qed.
Lemma bnb_spec : exists r, returns (fun fuel => tsp_branch_and_bound srt ord ltt fuel g) r /\ outcome (lower_bound srt ord g [] (nodes g)) r.
Proof. destruct (bnb_loop (lower_bound srt ord g [] (nodes g)) (bnb_init srt ord ltt g start, [])) as (r & Hr & Ho).
  - destruct (init_spec (edges_from g start) []) as [H1 H2]; [|constructor|].
    + intros s e d He. apply (In_edges_from g start _ W) in He. destruct He as (b & v & E & Hb). injection E as -> -> ->. splits; auto; [apply (has_edge_nodes g start b W); exists v; exact Hb|]. intros ->. congruence.
    + hnf. splits; [exact H1|constructor|cbn; lia|]. unfold bnb_init. rewrite H2, edges_count_start. cbn [length psm map list_sum fold_right]. assert (4 <= n) as K by exact H4. assert (exists m, n - 1 = S m) as [m Em] by (exists (n - 2); lia). rewrite Em. replace (n - 2) with m by lia. cbn [fact]. unfold psm. cbn. lia.
  - exists r. split; [|exact Ho]. refine (returns_ext _ _ _ _ Hr). intros m. unfold tsp_branch_and_bound. rewrite En. reflexivity. Qed.
End Facts.
