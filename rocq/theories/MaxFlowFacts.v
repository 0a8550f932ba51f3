(** Facts about maximum_flow. *)
From Verif Require Import Prelude PreludeFacts Base BaseFacts BaseFacts2 BaseFacts3 Spec SpecFacts Loop SearchFacts
  BaseAlgFacts Sp SpFacts FlowSpec Flow FlowFacts.
Local Open Scope Z_scope.

Lemma fold_min_spec {B} (f : B -> Z) t : forall m, (forall x, In x t -> fold_left (fun m y => Z.min m (f y)) t m <= f x) /\ fold_left (fun m y => Z.min m (f y)) t m <= m /\
  (fold_left (fun m y => Z.min m (f y)) t m = m \/ exists x, In x t /\ fold_left (fun m y => Z.min m (f y)) t m = f x).
Proof. induction t as [|x t IH]; intros m; cbn [fold_left]; [splits; [intros x []|lia|auto]|]. destruct (IH (Z.min m (f x))) as (H1 & H2 & H3). splits.
  - intros y [<-|Hy]; [lia|apply H1, Hy].
  - lia.
  - destruct H3 as [H3|(y & Hy & H3)]; [|right; exists y; cbn; auto]. destruct (Z.min_spec m (f x)) as [[_ Hm]|[_ Hm]]; rewrite Hm in *; [auto|right; exists x; cbn; auto]. Qed.

(** ** Dijkstra's answer never repeats a node *)
Section Simple.
Context {A O : Type} {EA : EqDec A}.
Notation graph := (graph A O Z).
Implicit Types (g : graph) (s e : A).
Lemma relax_paths cost (path V : list A) es : forall q M i q' M' i', fold_left (sp_relax cost path V) es (q, M, i) = (q', M', i') ->
  forall x, In x q' -> In x q \/ snd (snd x) = path.
Proof. induction es as [|[[u v2] d] es IH]; intros q M i q' M' i' E x Hx; cbn [fold_left] in E; [inv E; auto|].
  cbn [sp_relax] in E. destruct (mem v2 V); [eapply IH; eauto|].
  destruct (match dget v2 M with None => true | Some prev => cost + d <? prev end); [|eapply IH; eauto].
  destruct (IH _ _ _ _ _ _ E x Hx) as [[<-|H]|H]; auto. Qed.
Lemma shortest_path_simple n g s e S0 d p : shortest_path n g s e S0 = Ok (d, p) -> NoDup p.
Proof. unfold shortest_path. destruct (negb (contains g s)); [discriminate|]. destruct (negb (contains g e)); [discriminate|]. intros EL.
  destruct (loop_partial (sp_step g e) (fun st => forall x, In x (fst (fst (fst st))) -> NoDup (snd (snd x)) /\ incl (snd (snd x)) (snd st))
    (fun r => match r with Ok (d, p) => NoDup p | _ => True end)) with (n := n) (s := ([(0, 0%nat, (s, @nil A))], [(s, 0)], 1%nat, set_of S0)) (r := Ok (d, p)) as [C|H]; [| |exact EL|discriminate|exact H].
  - intros [[[q M] i] V] H. cbn [fst snd] in H. unfold sp_step. pose proof (heappop_spec q) as HP. destruct (heappop q) as [[m r]|]; [|constructor].
    destruct m as [[cost j] [v1 path]]. destruct HP as [HP _].
    assert (forall x, In x r -> NoDup (snd (snd x)) /\ incl (snd (snd x)) V) as Hr by (intros x Hx; apply H; eapply Permutation_in; [symmetry; exact HP|cbn; auto]).
    destruct (mem_spec v1 V) as [h|h]; [exact Hr|].
    destruct (H (cost, j, (v1, path))) as [H1 H2]; [eapply Permutation_in; [symmetry; exact HP|cbn; auto]|]. cbn [snd] in H1, H2.
    assert (NoDup (v1 :: path)) as Hn by (constructor; [intros C; apply h, H2, C|exact H1]).
    destruct (eq_dec v1 e) as [E|E]; [apply NoDup_rev, Hn|].
    destruct (fold_left (sp_relax cost (v1 :: path) (sadd v1 V)) (edges_from g v1) (r, M, i)) as [[q' M'] i'] eqn:Ef. cbn [fst snd].
    intros x Hx. destruct (relax_paths _ _ _ _ _ _ _ _ _ _ Ef x Hx) as [Hq| ->].
    + destruct (Hr x Hq) as [K1 K2]. split; [exact K1|]. intros z Hz. apply In_sadd. right. apply K2, Hz.
    + split; [exact Hn|]. intros z [<-|Hz]; apply In_sadd; [auto|]. right. apply H2, Hz.
  - cbn [fst snd]. intros x [<-|[]]. cbn. split; [constructor|intros z []]. Qed.
End Simple.

(** ** What is assumed of the path search: it finds a simple path if there is a path, on graphs whose edge
    values satisfy P. *)
Definition finds_paths {A O W} {EA : EqDec A} (P : W -> Prop) (sp : nat -> graph A O W -> A -> A -> res (option (list A))) : Prop :=
  forall (h : graph A O W) s e, reachable h -> (forall x y w, edge h x y = Some w -> P w) -> contains h s = true -> contains h e = true ->
    exists o, returns (fun n => sp n h s e) (Ok o) /\
      match o with Some p => simple_path (has_edge h) s p e | None => ~ reach (has_edge h) s e end.
Lemma dijkstra_finds_paths {A O} {EA : EqDec A} : finds_paths (fun w => 0 <= w) (@dijkstra A O EA).
Proof. intros h s e H Hw Hs He. apply reachable_wf in H.
  destruct (shortest_path_dist h s e H) as (d & p & Hr & Hd & Hp); [intros a b w; apply Hw|apply contains_In, Hs|apply contains_In, He|].
  exists (match d with Inf => None | Fin _ => Some p end). split; [apply (returns_bind_ok _ (fun r => match fst r with Inf => None | Fin _ => Some (snd r) end) (d, p) Hr)|].
  destruct d as [z|].
  - split; [apply (wpath_path _ _ _ _ _ Hp)|]. destruct Hr as (_ & [N HN] & _). eapply shortest_path_simple. apply (HN N (le_n N)).
  - intros (p' & Hp'). apply path_wpath in Hp'. destruct Hp' as (d & Hd'). apply (Hd p' d Hd'). Qed.

(** reachable graphs are closed under the operations *)
Section Reach.
Context {A O V : Type} {EA : EqDec A}.
Implicit Types (g : graph A O V).
Lemma reachable_step g o g' : reachable g -> step g o = Ok g' -> reachable g'.
Proof. intros (ops & H) E. exists (ops ++ [o]). unfold run in *. rewrite foldM_app, H. cbn. rewrite E. reflexivity. Qed.
Lemma reachable_empty : reachable (@empty_graph A O V).
Proof. exists []. reflexivity. Qed.
Lemma reachable_add_edge g a b v : reachable g -> exists g', add_edge g a b v false = Ok g' /\ reachable g' /\
  (forall x y, edge g' x y = if eq_dec x a then (if eq_dec y b then Some v else edge g x y) else edge g x y) /\
  (forall x, In x (nodes g') <-> In x (nodes g) \/ x = a \/ x = b) /\ (forall x, node g' x = node g x).
Proof. intros H. pose proof (reachable_wf _ H) as W. rewrite add_edge_eq by exact W. exists (add_edge_result g a b v false). splits.
  - reflexivity.
  - apply (reachable_step g (OpAddEdge a b v false) _ H). apply (add_edge_eq g a b v false W).
  - intros x y. unfold add_edge_result. apply edge_add_edge1_result.
  - intros x. unfold add_edge_result. rewrite nodes_add_edge1_result, !In_sadd. tauto.
  - intros x. unfold add_edge_result. apply node_add_edge1_result. Qed.
Lemma reachable_del_edge g a b : reachable g -> exists g', del_edge g a b = Ok g' /\ reachable g' /\
  (forall x y, edge g' x y = if eq_dec x a then (if eq_dec y b then None else edge g x y) else edge g x y) /\ nodes g' = nodes g /\ (forall x, node g' x = node g x).
Proof. intros H. pose proof (reachable_wf _ H) as W. rewrite del_edge_eq by exact W. exists (del_edge_result g a b). splits.
  - reflexivity.
  - apply (reachable_step g (OpDelEdge a b) _ H). apply (del_edge_eq g a b W).
  - intros x y. apply edge_del_edge_result, W.
  - apply nodes_del_edge_result.
  - intros x. apply node_del_edge_result. Qed.
Lemma reachable_from_list g ls g' : reachable g -> from_list g ls = Ok g' -> reachable g'.
Proof. intros H E. apply (reachable_step g (OpFromList ls) _ H). exact E. Qed.
End Reach.

Section MF.
Context {A O W : Type} {EA : EqDec A} (inv : Z -> W) (P : W -> Prop) (sp : nat -> graph A O W -> A -> A -> res (option (list A))).
Hypothesis HP : forall c, 0 < c -> P (inv c).
Hypothesis Hsp : finds_paths P sp.
Notation graph := (graph A O Z).
Implicit Types (g : graph) (s e x y : A).

Definition fz (F : A -> A -> option Z) x y : Z := match F x y with Some v => v | None => 0 end.
Definition rep g (N0 : list A) (F : A -> A -> option Z) (st : graph * graph * Base.graph A O W) : Prop :=
  let '(flow, cap, ig) := st in
  reachable flow /\ reachable cap /\ reachable ig /\ incl N0 (nodes ig) /\
  (forall x y, edge flow x y = F x y) /\
  (forall x y, edge cap x y = match F x y with Some v => Some (amount g x y - v) | None => None end) /\
  (forall x y, edge ig x y = if 0 <? amount g x y - fz F x y then Some (inv (amount g x y - fz F x y)) else None).
Definition addF (F : A -> A -> option Z) a b v : A -> A -> option Z :=
  fun x y => if eq_dec x a then (if eq_dec y b then Some (fz F a b + v) else F x y) else F x y.
Lemma fz_addF F a b v x y : fz (addF F a b v) x y = fz F x y + v * (ind1 a x * ind1 b y).
Proof. unfold fz, addF, ind1. destruct (eq_dec x a) as [->|h]; [destruct (eq_dec y b) as [->|k]|].
  - destruct (eq_dec a a), (eq_dec b b); try congruence. fold (fz F a b). lia.
  - destruct (eq_dec b y); [congruence|]. destruct (F a y); lia.
  - destruct (eq_dec a x); [congruence|]. destruct (F x y); lia. Qed.

Lemma mf_update_spec g N0 F st pf a b d : rep g N0 F st -> edge g a b = Some d ->
  exists st', mf_update inv g pf st (a, b, d) = Ok st' /\ rep g N0 (addF F a b pf) st'.
Proof. destruct st as [[flow cap] ig]. intros (R1 & R2 & R3 & R4 & E1 & E2 & E3) Ed. unfold mf_update. rewrite Ed, E1.
  assert (match F a b with None => pf | Some v => v + pf end = fz F a b + pf) as -> by (unfold fz; destruct (F a b); lia).
  destruct (reachable_add_edge flow a b (fz F a b + pf) R1) as (flow' & -> & R1' & E1' & _). cbn [bind].
  destruct (reachable_add_edge cap a b (d - (fz F a b + pf)) R2) as (cap' & -> & R2' & E2' & _). cbn [bind].
  assert (amount g a b = d) as Ea by (unfold amount; rewrite Ed; reflexivity).
  assert (exists ig', (if 0 <? d - (fz F a b + pf) then add_edge ig a b (inv (d - (fz F a b + pf))) false else del_edge ig a b) = Ok ig' /\ reachable ig' /\ incl N0 (nodes ig') /\
    forall x y, edge ig' x y = if eq_dec x a then (if eq_dec y b then (if 0 <? d - (fz F a b + pf) then Some (inv (d - (fz F a b + pf))) else None) else edge ig x y) else edge ig x y) as (ig' & -> & R3' & R4' & E3').
  { destruct (0 <? d - (fz F a b + pf)).
    - destruct (reachable_add_edge ig a b (inv (d - (fz F a b + pf))) R3) as (ig' & -> & K1 & K2 & K3 & _). exists ig'. splits; auto. intros z Hz. apply K3. left. apply R4, Hz.
    - destruct (reachable_del_edge ig a b R3) as (ig' & -> & K1 & K2 & K3 & _). exists ig'. splits; auto. rewrite K3. exact R4. }
  cbn [bind]. eexists. split; [reflexivity|]. hnf; splits; auto.
  - intros x y. rewrite E1', E1. reflexivity.
  - intros x y. rewrite E2', E2. unfold addF. destruct (eq_dec x a) as [->|h]; [destruct (eq_dec y b) as [->|k]|]; try reflexivity. rewrite Ea. reflexivity.
  - intros x y. rewrite E3', E3, fz_addF. unfold ind1. destruct (eq_dec x a) as [->|h]; [destruct (eq_dec y b) as [->|k]|].
    + destruct (eq_dec a a), (eq_dec b b); try congruence. rewrite Ea. replace (pf * (1 * 1)) with pf by lia. reflexivity.
    + destruct (eq_dec b y); [congruence|]. replace (pf * ((if eq_dec a a then 1 else 0) * 0)) with 0 by lia. rewrite Z.add_0_r. reflexivity.
    + destruct (eq_dec a x); [congruence|]. replace (pf * (0 * (if eq_dec b y then 1 else 0))) with 0 by lia. rewrite Z.add_0_r. reflexivity. Qed.

(** the whole path *)
Fixpoint addP (F : A -> A -> option Z) (p : list A) v : A -> A -> option Z :=
  match p with
  | a :: ((b :: _) as t) => addP (addF F a b v) t v
  | _ => F
  end.
Lemma fz_addP p : forall F v x y, fz (addP F p v) x y = fz F x y + v * steps_of p x y.
Proof. induction p as [|a p IH]; intros F v x y; [cbn; lia|]. destruct p as [|b p]; [cbn; lia|].
  change (addP F (a :: b :: p) v) with (addP (addF F a b v) (b :: p) v). change (steps_of (a :: b :: p) x y) with (ind1 a x * ind1 b y + steps_of (b :: p) x y).
  rewrite IH, fz_addF. ring. Qed.
Lemma addP_pos p : forall F v, 0 < v -> (forall x y w, F x y = Some w -> 0 < w) -> forall x y w, addP F p v x y = Some w -> 0 < w.
Proof. induction p as [|a p IH]; intros F v Hv H x y w; [apply H|]. destruct p as [|b p]; [apply H|].
  change (addP F (a :: b :: p) v) with (addP (addF F a b v) (b :: p) v). apply (IH _ v Hv). intros x' y' w'. unfold addF.
  destruct (eq_dec x' a) as [->|]; [destruct (eq_dec y' b) as [->|]|]; try apply H. intros E. inv E. unfold fz. destruct (F a b) eqn:EF; [apply H in EF|]; lia. Qed.
Lemma mf_updates g N0 pf p : forall F st es, rep g N0 F st -> edges_along g p = Ok es -> exists st', foldM (mf_update inv g pf) es st = Ok st' /\ rep g N0 (addP F p pf) st'.
Proof. induction p as [|a p IH]; intros F st es HR E; [cbn in E; inv E; exists st; auto|]. destruct p as [|b p]; [cbn in E; inv E; exists st; auto|].
  change (edges_along g (a :: b :: p)) with (match edge g a b with None => Err KeyError | Some v => rest <- edges_along g (b :: p) ;; Ok ((a, b, v) :: rest) end) in E.
  destruct (edge g a b) as [d|] eqn:Ed; [|discriminate]. destruct (edges_along g (b :: p)) as [rest|?|] eqn:Er; [|discriminate|discriminate]. cbn [bind] in E. inv E.
  destruct (mf_update_spec g N0 F st pf a b d HR Ed) as (st1 & E1 & R1). cbn [foldM]. rewrite E1. cbn [bind].
  change (addP F (a :: b :: p) pf) with (addP (addF F a b pf) (b :: p) pf). apply (IH _ _ _ R1 eq_refl). Qed.

(** the least remaining capacity on the path *)
Lemma edges_along_steps g p es : edges_along g p = Ok es -> (forall a b d, In (a, b, d) es -> 0 < steps_of p a b /\ edge g a b = Some d) /\
  (forall a b, 0 < steps_of p a b -> exists d, In (a, b, d) es).
Proof. revert es. induction p as [|a p IH]; intros es E; [cbn in E; inv E; split; [intros ? ? ? []|cbn; lia]|]. destruct p as [|b p]; [cbn in E; inv E; split; [intros ? ? ? []|cbn; lia]|].
  change (edges_along g (a :: b :: p)) with (match edge g a b with None => Err KeyError | Some v => rest <- edges_along g (b :: p) ;; Ok ((a, b, v) :: rest) end) in E.
  destruct (edge g a b) as [d|] eqn:Ed; [|discriminate]. destruct (edges_along g (b :: p)) as [rest|?|] eqn:Er; [|discriminate|discriminate]. cbn [bind] in E. inv E.
  destruct (IH rest eq_refl) as [H1 H2]. split.
  - intros x y w. change (steps_of (a :: b :: p) x y) with (ind1 a x * ind1 b y + steps_of (b :: p) x y). pose proof (steps_of_nonneg (b :: p) x y) as HN.
    intros [H|H]; [inv H; split; [|exact Ed]; unfold ind1; destruct (eq_dec x x), (eq_dec y y); try congruence; lia|].
    destruct (H1 _ _ _ H) as [H3 H4]. split; [|exact H4]. unfold ind1. destruct (eq_dec a x), (eq_dec b y); lia.
  - intros x y. change (steps_of (a :: b :: p) x y) with (ind1 a x * ind1 b y + steps_of (b :: p) x y). unfold ind1.
    destruct (eq_dec a x) as [->|h]; [destruct (eq_dec b y) as [->|k]|]; intros H; [exists d; cbn; auto| |]; (destruct (H2 x y) as (w & Hw); [lia|]; exists w; cbn; auto). Qed.

Definition mf_inv g s e U (st : Z * Z * (graph * graph * Base.graph A O W)) : Prop :=
  let '(u, t, gs) := st in exists F, rep g (if U =? 0 then [] else [s; e]) F gs /\ u = U - t /\ 0 <= t <= U /\
    (forall x y v, F x y = Some v -> 0 < v) /\ (forall x y, 0 <= fz F x y <= amount g x y) /\
    (forall x, x <> s -> x <> e -> outflow g (fz F) x = inflow g (fz F) x) /\
    outflow g (fz F) s = t /\ inflow g (fz F) s = 0 /\ outflow g (fz F) e = 0 /\ inflow g (fz F) e = t.
Definition mf_post g s e U (r : res (Z * graph)) : Prop := exists t fg, r = Ok (t, fg) /\ reachable fg /\ 0 <= t <= U /\
  (forall x y v, edge fg x y = Some v -> 0 < v) /\ (forall x y, 0 <= amount fg x y <= amount g x y) /\
  (forall x, x <> s -> x <> e -> outflow g (amount fg) x = inflow g (amount fg) x) /\
  outflow g (amount fg) s = t /\ inflow g (amount fg) s = 0 /\ outflow g (amount fg) e = 0 /\ inflow g (amount fg) e = t /\
  (t = U \/ ~ reach (unsaturated g (amount fg)) s e).

Lemma sum_out g x : wf g -> sum_values (edges_from g x) = outflow g (amount g) x.
Proof. intros HW. unfold outflow. rewrite (sumZ_ext (nodes g) _ (fun y => match dget y (inner (g_edges g) x) with Some c => c | None => 0 end)).
  - rewrite sum_dict; [|apply HW|apply nwf_inner_nd, HW|intros y Hy; apply (In_nodes_from g x y HW) in Hy; destruct Hy as (v & Hv); apply (edge_nodes g x y v HW Hv)].
    unfold edges_from. generalize (inner (g_edges g) x) as d. induction d as [|[k v] d IH]; cbn; [reflexivity|]. rewrite <- IH. reflexivity.
  - intros y _. unfold amount, edge. rewrite eget_inner. reflexivity. Qed.
Lemma sum_in g x : wf g -> sum_values (edges_to g x) = inflow g (amount g) x.
Proof. intros HW. unfold inflow. rewrite (sumZ_ext (nodes g) _ (fun y => match dget y (inner (g_rev g) x) with Some c => c | None => 0 end)).
  - rewrite sum_dict; [|apply HW|apply nwf_inner_nd, HW|intros y Hy; apply (In_nodes_to g y x HW) in Hy; destruct Hy as (v & Hv); apply (edge_nodes g y x v HW Hv)].
    unfold edges_to. generalize (inner (g_rev g) x) as d. induction d as [|[k v] d IH]; cbn; [reflexivity|]. rewrite <- IH. reflexivity.
  - intros y _. unfold amount, edge. rewrite (wf_mirror g HW), eget_inner. reflexivity. Qed.

Lemma mf_loop g s e U gs0 : wf g -> In s (nodes g) -> In e (nodes g) -> s <> e -> U = Z.min (outflow g (amount g) s) (inflow g (amount g) e) -> mf_inv g s e U (U, 0, gs0) ->
  exists r, returns2 (fun n m => loop n (mf_step inv sp m g s e) (U, 0, gs0)) r /\ mf_post g s e U r.
Proof. intros HW Hs He Hse HU Hinit.
  apply (loop_returns2 (fun m => mf_step inv sp m g s e) (mf_inv g s e U) (fun a b => (Z.to_nat (fst (fst a)) < Z.to_nat (fst (fst b)))%nat) (mf_post g s e U)); [apply (wf_of lt (fun a : Z * Z * (graph * graph * Base.graph A O W) => Z.to_nat (fst (fst a)))), lt_wf| |exact Hinit].
  intros [[u t] [[flow cap] ig]] (F & (R1 & R2 & R3 & R4 & E1 & E2 & E3) & -> & Ht & Fp & Fc & Cons & Cs1 & Cs2 & Ce1 & Ce2).
  assert (forall x y, amount flow x y = fz F x y) as EF by (intros x y; unfold amount, fz; rewrite E1; reflexivity).
  assert (forall x, outflow g (amount flow) x = outflow g (fz F) x) as EO by (intros x; apply sumZ_ext; intros y _; apply EF).
  assert (forall x, inflow g (amount flow) x = inflow g (fz F) x) as EI by (intros x; apply sumZ_ext; intros y _; apply EF).
  assert (t = U \/ ~ reach (unsaturated g (amount flow)) s e -> mf_post g s e U (Ok (t, flow))) as Hdone.
  { intros Hd. exists t, flow. splits; [reflexivity|exact R1|apply Ht|apply Ht| | | | | | | |exact Hd].
    - intros x y v. rewrite E1. apply Fp.
    - intros x y. rewrite EF. apply Fc.
    - intros x H1 H2. rewrite EO, EI. auto.
    - rewrite EO. exact Cs1.
    - rewrite EI. exact Cs2.
    - rewrite EO. exact Ce1.
    - rewrite EI. exact Ce2. }
  unfold mf_step. cbn [fst snd]. destruct (Z.eqb_spec (U - t) 0) as [h|h].
  - eexists. split; [apply settles_const; discriminate|]. cbn. apply Hdone. left. lia.
  - destruct (Z.eqb_spec U 0) as [hu|hu]; [lia|].
    destruct (Hsp ig s e R3) as (o & Ho & Hop).
    { intros x y w. rewrite E3. destruct (Z.ltb_spec 0 (amount g x y - fz F x y)); [|discriminate]. intros E. inv E. apply HP. exact H. }
    { apply contains_In, R4. cbn; auto. }
    { apply contains_In, R4. cbn; auto. }
    assert (forall x y, has_edge ig x y <-> unsaturated g (amount flow) x y) as HE.
    { intros x y. unfold has_edge, unsaturated. rewrite E3, EF. specialize (Fc x y). destruct (Z.ltb_spec 0 (amount g x y - fz F x y)); split; try lia; [eauto|intros (v & C); discriminate]. }
    destruct o as [p|].
    +       destruct Hop as [Hpath Hnd].
      assert (forall x y, 0 < steps_of p x y -> 0 < amount g x y - fz F x y) as Hpos.
      { intros x y Hxy. apply (steps_of_pos _ _ _ _ _ _ Hpath) in Hxy. apply HE in Hxy. unfold unsaturated in Hxy. rewrite EF in Hxy. lia. }
      assert (path (has_edge g) s p e) as Hpg.
      { eapply path_mono; [|exact Hpath]. intros x y _ _ Hxy. apply HE in Hxy. unfold unsaturated, amount in Hxy. destruct (edge g x y) as [c|] eqn:Ec; [exists c; exact Ec|lia]. }
      assert (incl p (nodes g)) as Hpi by (intros x Hx; apply (path_nodes (fun z => In z (nodes g)) (has_edge g) s p e Hs); auto; intros a b Hab; apply (has_edge_nodes g a b HW Hab)).
      assert (exists q, p = s :: q /\ q <> []) as (q & Ep & Hq).
      { destruct (path_head _ _ _ _ Hpath) as (q & ->). exists q. split; [reflexivity|]. intros ->. apply path_inv1 in Hpath. destruct Hpath. congruence. }
      assert (exists es, edges_path g p = Ok es /\ edges_along g p = Ok es) as (es & Ees1 & Ees).
      { unfold edges_path. destruct (Nat.ltb_spec (length p) 2) as [hl|hl]; [rewrite Ep in hl; destruct q; [congruence|cbn in hl; lia]|].
        pose proof (edges_along_spec g p) as HS. destruct (edges_along g p) as [es|x|]; [eauto| |destruct HS; rewrite Ep; discriminate].
        destruct HS as [_ HS]; [rewrite Ep; discriminate|]. destruct HS. eauto. }
      destruct (edges_along_steps g p es Ees) as [HS1 HS2].
      destruct es as [|x0 es].
      { exfalso. destruct q as [|b q]; [congruence|]. destruct (HS2 s b) as (d & []). rewrite Ep. change (steps_of (s :: b :: q) s b) with (ind1 s s * ind1 b b + steps_of (b :: q) s b).
        pose proof (steps_of_nonneg (b :: q) s b). unfold ind1. destruct (eq_dec s s), (eq_dec b b); try congruence. lia. }
      set (pf := fold_left (fun m (ed : A * A * Z) => Z.min m (mf_left cap ed)) es (mf_left cap x0)).
      assert (forall a b d, In (a, b, d) (x0 :: es) -> mf_left cap (a, b, d) = amount g a b - fz F a b) as HL.
      { intros a b d Hab. destruct (HS1 _ _ _ Hab) as [Hst Hd]. cbn [mf_left]. rewrite E2. assert (amount g a b = d) as Ea by (unfold amount; rewrite Hd; reflexivity). unfold fz. specialize (Fc a b). unfold fz in Fc.
        destruct (F a b); lia. }
      destruct (fold_min_spec (mf_left cap) es (mf_left cap x0)) as (M1 & M2 & M3). fold pf in M1, M2, M3.
      assert (forall x y, 0 < steps_of p x y -> pf <= amount g x y - fz F x y) as Hle.
      { intros x y Hxy. destruct (HS2 _ _ Hxy) as (d & Hd). rewrite <- (HL _ _ _ Hd). destruct Hd as [<-|Hd]; [exact M2|apply M1, Hd]. }
      assert (0 < pf) as Hpf.
      { destruct M3 as [M3|([[a b] d] & Hx & M3)].
        - rewrite M3. destruct x0 as [[a b] d]. rewrite (HL a b d) by (cbn; auto). apply Hpos. apply (HS1 a b d). cbn; auto.
        - rewrite M3, (HL a b d) by (cbn; auto). apply Hpos. apply (HS1 a b d). cbn; auto. }
      destruct (mf_updates g [s; e] pf p F (flow, cap, ig) (x0 :: es)) as (st' & Est & Rst); [hnf; splits; auto|exact Ees|].
      exists (inl (U - t - pf, t + pf, st')). split.
      * destruct Ho as (_ & [K HK] & Ho2). hnf; splits; [discriminate| |].
        -- exists K. intros n Hn. rewrite (HK n Hn). cbn [bind]. rewrite Ees1. cbn [bind mf_path_flow]. fold pf. rewrite Est. reflexivity.
        -- intros n. destruct (Ho2 n) as [-> | ->]; [left; reflexivity|right]. cbn [bind]. rewrite Ees1. cbn [bind mf_path_flow]. fold pf. rewrite Est. reflexivity.
      * destruct (simple_balance (nodes g) p (has_edge ig) s e (wf_nodes g HW) Hpi (conj Hpath Hnd) Hse) as (B1 & B2 & B3 & B4 & B5).
        set (F' := addP F p pf).
        assert (forall x y, fz F' x y = fz F x y + pf * steps_of p x y) as EF' by (intros x y; apply fz_addP).
        assert (forall x, outflow g (fz F') x = outflow g (fz F) x + pf * sumZ (nodes g) (fun y => steps_of p x y)) as EO'.
        { intros x. unfold outflow. rewrite <- sumZ_scale, <- sumZ_plus. apply sumZ_ext. intros y _. apply EF'. }
        assert (forall x, inflow g (fz F') x = inflow g (fz F) x + pf * sumZ (nodes g) (fun y => steps_of p y x)) as EI'.
        { intros x. unfold inflow. rewrite <- sumZ_scale, <- sumZ_plus. apply sumZ_ext. intros y _. apply EF'. }
        assert (forall x y, 0 <= fz F' x y <= amount g x y) as Fc'.
        { intros x y. rewrite EF'. specialize (Fc x y). pose proof (steps_of_nonneg p x y) as HN. pose proof (steps_of_le1 p x y Hnd) as HN1.
          assert (steps_of p x y = 0 \/ steps_of p x y = 1) as [Hst|Hst] by lia; rewrite Hst; [lia|]. specialize (Hle x y). lia. }
        assert (t + pf <= U) as HtU.
        { assert (t + pf <= outflow g (amount g) s) as K1.
          { replace (t + pf) with (outflow g (fz F') s) by (rewrite EO'; lia). apply sumZ_le. intros y _. apply Fc'. }
          assert (t + pf <= inflow g (amount g) e) as K2.
          { replace (t + pf) with (inflow g (fz F') e) by (rewrite EI'; lia). apply sumZ_le. intros y _. apply Fc'. }
          lia. }
        split; [|cbn [fst snd]; lia]. exists F'. splits; auto; try lia.
        -- assert (U =? 0 = false) as -> by (apply Z.eqb_neq; lia). exact Rst.
        -- apply addP_pos; auto.
        -- intros x Hx1 Hx2. rewrite EO', EI', Cons, B5 by assumption. reflexivity.
        -- rewrite EO'. lia.
        -- rewrite EI'. lia.
        -- rewrite EO'. lia.
        -- rewrite EI'. lia.
    + eexists. split.
      * destruct Ho as (_ & [K HK] & Ho2). hnf; splits; [| |].
        2:{ exists K. intros n Hn. rewrite (HK n Hn). reflexivity. }
        -- discriminate.
        -- intros n. destruct (Ho2 n) as [-> | ->]; auto.
      * cbn. apply Hdone. right. intros C. apply Hop. eapply reach_mono; [|exact C]. intros x y. apply HE. Qed.
End MF.
