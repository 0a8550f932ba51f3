(** maximum_flow over numbers of any kind: what the three graphs hold after every iteration. *)
From Verif Require Import Prelude PreludeFacts Base BaseFacts BaseFacts2 BaseFacts3 Spec SpecFacts Loop SearchFacts BaseAlgFacts FlowSpec FlowFacts Flow MaxFlowFacts FlowFacts2 GSp GFlow.
Open Scope nat_scope.

Section G.
Context {A O W : Type} {EA : EqDec A} (ar : arith W) (sub : W -> W -> W) (inv : W -> W).
Notation graph := (graph A O W).
Implicit Types (g flow cap ig : graph) (F : A -> A -> option W) (s e x y a b : A) (p : list A).
(** the flow of an edge after one more path *)
Definition bump (o : option W) (pf : W) : W := match o with None => pf | Some v => a_add ar v pf end.
(** the capacity left, as computed *)
Definition left_of g F x y : option W := match edge g x y with None => None | Some c => match F x y with None => Some c | Some v => Some (sub c v) end end.
Definition grep g N0 F (st : graph * graph * graph) : Prop :=
  let '(flow, cap, ig) := st in
  reachable flow /\ reachable cap /\ reachable ig /\ incl N0 (nodes ig) /\
  (forall x y, edge flow x y = F x y) /\
  (forall x y, edge cap x y = match F x y with Some _ => left_of g F x y | None => None end) /\
  (forall x y, edge ig x y = match left_of g F x y with Some r => if a_ltb ar (a_zero ar) r then Some (inv r) else None | None => None end).
Definition gaddF F a b pf : A -> A -> option W :=
  fun x y => if eq_dec x a then (if eq_dec y b then Some (bump (F a b) pf) else F x y) else F x y.
Lemma gmf_update_spec g N0 F st pf a b d : grep g N0 F st -> edge g a b = Some d ->
  exists st', gmf_update ar sub inv g pf st (a, b, d) = Ok st' /\ grep g N0 (gaddF F a b pf) st'.
Proof. destruct st as [[flow cap] ig]. intros (R1 & R2 & R3 & R4 & E1 & E2 & E3) Ed. unfold gmf_update. rewrite Ed, E1.
  fold (bump (F a b) pf). set (v := bump (F a b) pf).
  destruct (reachable_add_edge flow a b v R1) as (flow' & -> & R1' & E1' & _). cbn [bind].
  destruct (reachable_add_edge cap a b (sub d v) R2) as (cap' & -> & R2' & E2' & _). cbn [bind].
  assert (exists ig', (if a_ltb ar (a_zero ar) (sub d v) then add_edge ig a b (inv (sub d v)) false else del_edge ig a b) = Ok ig' /\ reachable ig' /\ incl N0 (nodes ig') /\
    forall x y, edge ig' x y = if eq_dec x a then (if eq_dec y b then (if a_ltb ar (a_zero ar) (sub d v) then Some (inv (sub d v)) else None) else edge ig x y) else edge ig x y) as (ig' & -> & R3' & R4' & E3').
  { destruct (a_ltb ar (a_zero ar) (sub d v)).
    - destruct (reachable_add_edge ig a b (inv (sub d v)) R3) as (ig' & -> & K1 & K2 & K3 & _). exists ig'. splits; auto. intros z Hz. apply K3. left. apply R4, Hz.
    - destruct (reachable_del_edge ig a b R3) as (ig' & -> & K1 & K2 & K3 & _). exists ig'. splits; auto. rewrite K3. exact R4. }
  cbn [bind]. eexists. split; [reflexivity|]. hnf; splits; auto.
  - intros x y. rewrite E1', E1. reflexivity.
  - intros x y. rewrite E2', E2. unfold gaddF, left_of. destruct (eq_dec x a) as [->|h]; [destruct (eq_dec y b) as [->|k]|]; try reflexivity. rewrite Ed. reflexivity.
  - intros x y. rewrite E3', E3. unfold gaddF, left_of. destruct (eq_dec x a) as [->|h]; [destruct (eq_dec y b) as [->|k]|]; try reflexivity. rewrite Ed. reflexivity. Qed.
Fixpoint gaddP F p pf : A -> A -> option W :=
  match p with
  | a :: ((b :: _) as t) => gaddP (gaddF F a b pf) t pf
  | _ => F
  end.
Lemma gmf_updates g N0 pf p : forall F st es, grep g N0 F st -> edges_along g p = Ok es -> exists st', foldM (gmf_update ar sub inv g pf) es st = Ok st' /\ grep g N0 (gaddP F p pf) st'.
Proof. induction p as [|a p IH]; intros F st es HR E; [cbn in E; inv E; exists st; auto|]. destruct p as [|b p]; [cbn in E; inv E; exists st; auto|].
  change (edges_along g (a :: b :: p)) with (match edge g a b with None => Err KeyError | Some v => rest <- edges_along g (b :: p) ;; Ok ((a, b, v) :: rest) end) in E.
  destruct (edge g a b) as [d|] eqn:Ed; [|discriminate]. destruct (edges_along g (b :: p)) as [rest|?|] eqn:Er; [|discriminate|discriminate]. cbn [bind] in E. inv E.
  destruct (gmf_update_spec g N0 F st pf a b d HR Ed) as (st1 & E1 & R1). cbn [foldM]. rewrite E1. cbn [bind].
  change (gaddP F (a :: b :: p) pf) with (gaddP (gaddF F a b pf) (b :: p) pf). apply (IH _ _ _ R1 eq_refl). Qed.
(** on a path without repetition every edge is changed once *)
Lemma gaddP_at pf p : NoDup p -> forall F x y, gaddP F p pf x y = if (steps_of p x y =? 0)%Z then F x y else Some (bump (F x y) pf).
Proof. induction p as [|a p IH]; intros Hn F x y; [reflexivity|]. destruct p as [|b p]; [reflexivity|].
  change (gaddP F (a :: b :: p) pf) with (gaddP (gaddF F a b pf) (b :: p) pf). change (steps_of (a :: b :: p) x y) with (ind1 a x * ind1 b y + steps_of (b :: p) x y)%Z.
  apply NoDup_cons_iff in Hn. destruct Hn as [Ha Hn]. rewrite IH by exact Hn. unfold gaddF, ind1. destruct (eq_dec x a) as [->|h].
  - rewrite (steps_of_notIn (b :: p) a y Ha). destruct (eq_dec a a); [|congruence]. destruct (eq_dec y b) as [->|k]; [destruct (eq_dec b b); [reflexivity|congruence]|]. destruct (eq_dec b y); [congruence|reflexivity].
  - destruct (eq_dec a x); [congruence|]. rewrite Z.mul_0_l, Z.add_0_l. reflexivity. Qed.
(** the edges of a path in the graph, with a value *)
Lemma gedges_along_steps g p es : edges_along g p = Ok es -> (forall a b d, In (a, b, d) es -> (0 < steps_of p a b)%Z /\ edge g a b = Some d) /\
  (forall a b, (0 < steps_of p a b)%Z -> exists d, In (a, b, d) es).
Proof. revert es. induction p as [|a p IH]; intros es E; [cbn in E; inv E; split; [intros ? ? ? []|cbn; lia]|]. destruct p as [|b p]; [cbn in E; inv E; split; [intros ? ? ? []|cbn; lia]|].
  change (edges_along g (a :: b :: p)) with (match edge g a b with None => Err KeyError | Some v => rest <- edges_along g (b :: p) ;; Ok ((a, b, v) :: rest) end) in E.
  destruct (edge g a b) as [d|] eqn:Ed; [|discriminate]. destruct (edges_along g (b :: p)) as [rest|?|] eqn:Er; [|discriminate|discriminate]. cbn [bind] in E. inv E.
  destruct (IH rest eq_refl) as [H1 H2]. split.
  - intros x y w. change (steps_of (a :: b :: p) x y) with (ind1 a x * ind1 b y + steps_of (b :: p) x y)%Z. pose proof (steps_of_nonneg (b :: p) x y) as HN.
    intros [H|H]; [inv H; split; [|exact Ed]; unfold ind1; destruct (eq_dec x x), (eq_dec y y); try congruence; lia|].
    destruct (H1 _ _ _ H) as [H3 H4]. split; [|exact H4]. unfold ind1. destruct (eq_dec a x), (eq_dec b y); lia.
  - intros x y. change (steps_of (a :: b :: p) x y) with (ind1 a x * ind1 b y + steps_of (b :: p) x y)%Z. unfold ind1.
    destruct (eq_dec a x) as [->|h]; [destruct (eq_dec b y) as [->|k]|]; intros H; [exists d; cbn; auto| |]; (destruct (H2 x y) as (w & Hw); [lia|]; exists w; cbn; auto). Qed.
(** min(...) is one of its arguments *)
Lemma pmin_or (a b : W) : pmin ar a b = a \/ pmin ar a b = b.
Proof. unfold pmin. destruct (a_ltb ar b a); auto. Qed.
Lemma fold_pmin_In {B} (f : B -> W) l : forall m, (fold_left (fun m z => pmin ar m (f z)) l m = m) \/ exists z, In z l /\ fold_left (fun m z => pmin ar m (f z)) l m = f z.
Proof. induction l as [|x l IH]; intros m; cbn [fold_left]; [auto|]. destruct (IH (pmin ar m (f x))) as [->|(y & Hy & ->)]; [|right; exists y; cbn; auto].
  destruct (pmin_or m (f x)) as [->| ->]; [auto|right; exists x; cbn; auto]. Qed.
(** one iteration of the loop once the search has found a simple path *)
Lemma gmf_iteration fuel g s e p u t flow cap ig F N0 : wf g -> s <> e -> grep g N0 F (flow, cap, ig) -> path (has_edge g) s p e -> NoDup p ->
  exists es pf gs', edges_path g p = Ok es /\ edges_along g p = Ok es /\ gmf_path_flow ar cap es = Ok pf /\ foldM (gmf_update ar sub inv g pf) es (flow, cap, ig) = Ok gs' /\ grep g N0 (gaddP F p pf) gs' /\
    (gmf_search ar fuel ig s e = Ok (Some p) -> a_eqb ar u (a_zero ar) = false -> gmf_step ar sub inv fuel g s e (u, t, (flow, cap, ig)) = inl (sub u pf, a_add ar t pf, gs')).
Proof. intros HW Hse HR Hp Hn.
  assert (exists q, p = s :: q /\ q <> []) as (q & Ep & Hq).
  { destruct (path_head _ _ _ _ Hp) as (q & ->). exists q. split; [reflexivity|]. intros ->. apply path_inv1 in Hp. destruct Hp. congruence. }
  assert (exists es, edges_path g p = Ok es /\ edges_along g p = Ok es) as (es & Ees1 & Ees).
  { unfold edges_path. destruct (Nat.ltb_spec (length p) 2) as [hl|hl]; [rewrite Ep in hl; destruct q; [congruence|cbn in hl; lia]|].
    pose proof (edges_along_spec g p) as HS. destruct (edges_along g p) as [es|x|]; [eauto| |destruct HS; rewrite Ep; discriminate].
    destruct HS as [_ HS]; [rewrite Ep; discriminate|]. destruct HS. eauto. }
  destruct (gedges_along_steps g p es Ees) as [HS1 HS2].
  destruct es as [|x0 es].
  { exfalso. destruct q as [|b q]; [congruence|]. destruct (HS2 s b) as (d & []). rewrite Ep. change (steps_of (s :: b :: q) s b) with (ind1 s s * ind1 b b + steps_of (b :: q) s b)%Z.
    pose proof (steps_of_nonneg (b :: q) s b). unfold ind1. destruct (eq_dec s s), (eq_dec b b); try congruence. lia. }
  destruct (gmf_path_flow ar cap (x0 :: es)) as [pf|?|] eqn:Epf; [|discriminate Epf|discriminate Epf].
  destruct (gmf_updates g N0 pf p F (flow, cap, ig) (x0 :: es) HR Ees) as (gs' & Est & Rst).
  exists (x0 :: es), pf, gs'. splits; auto. intros Hs Hu. unfold gmf_step. rewrite Hu. cbn [snd fst]. rewrite Hs. cbn [bind]. rewrite Ees1. cbn [bind]. rewrite Epf. cbn [bind]. rewrite Est. reflexivity. Qed.
(** the inverted graph at the beginning *)
Lemma gmf_init g N0 : reachable g -> (forall z, In z N0 -> exists y c, a_ltb ar (a_zero ar) c = true /\ (edge g z y = Some c \/ edge g y z = Some c)) ->
  exists ig, from_list empty_graph (map (fun ed : A * A * W => LEdge (fst (fst ed)) (snd (fst ed)) (inv (snd ed))) (filter (fun ed : A * A * W => a_ltb ar (a_zero ar) (snd ed)) (edges g))) = Ok ig /\
    grep g N0 (fun _ _ => None) (empty_graph, empty_graph, ig).
Proof. intros HR HN. pose proof (reachable_wf _ HR) as HW.
  set (l := map (fun x : A * A * W => (fst x, inv (snd x))) (filter (fun ed : A * A * W => a_ltb ar (a_zero ar) (snd ed)) (edges g))).
  assert (forall x y w, In (x, y, w) l <-> exists c, edge g x y = Some c /\ a_ltb ar (a_zero ar) c = true /\ w = inv c) as Hl.
  { intros x y w. unfold l. rewrite in_map_iff. split.
    - intros ([[a b] c] & E & Hi). cbn in E. inv E. apply filter_In in Hi. destruct Hi as [Hi Hc]. cbn in Hc. apply (In_edges g x y c HW) in Hi. eauto.
    - intros (c & Hc & Hp & ->). exists (x, y, c). split; [reflexivity|]. apply filter_In. split; [apply (In_edges g x y c HW), Hc|exact Hp]. }
  assert (NoDup (map ekey l)) as Hnd.
  { unfold l. rewrite map_map. rewrite (map_ext _ (@ekey A W)) by (intros [[a b] c]; reflexivity).
    pose proof (NoDup_edges g HW) as Hnd. revert Hnd. generalize (edges g) as es. induction es as [|x es IH]; cbn [map filter]; intros Hnd; [constructor|].
    apply NoDup_cons_iff in Hnd. destruct Hnd as [HN1 HN2]. destruct (a_ltb ar (a_zero ar) (snd x)); [|apply IH, HN2]. cbn [map]. constructor; [|apply IH, HN2].
    intros C. apply HN1. apply in_map_iff in C. destruct C as (z & Ez & Hz). apply filter_In in Hz. apply in_map_iff. exists z. tauto. }
  destruct (add_edges_spec (O := O) l empty_graph wf_empty Hnd) as (ig & Eig & Wig & _ & G1 & G2 & _ & G4).
  assert (from_list (O := O) empty_graph (map (fun x : A * A * W => LEdge (fst (fst x)) (snd (fst x)) (inv (snd x))) (filter (fun ed : A * A * W => a_ltb ar (a_zero ar) (snd ed)) (edges g))) = Ok ig) as Efl.
  { rewrite <- Eig, <- from_list_edges. unfold l. rewrite map_map. reflexivity. }
  exists ig. split; [exact Efl|]. hnf; splits; auto using reachable_empty.
  - eapply reachable_from_list; [apply reachable_empty|exact Efl].
  - intros z Hz. apply G4. right. destruct (HN z Hz) as (y & c & Hc & [E|E]); [exists (z, y, inv c)|exists (y, z, inv c)]; (split; [apply Hl; eauto|cbn; auto]).
  - intros x y. unfold left_of. destruct (edge g x y) as [c|] eqn:Ec; [destruct (a_ltb ar (a_zero ar) c) eqn:El|].
    + apply G1, Hl. exists c. auto.
    + rewrite G2; [reflexivity|]. intros C. apply in_map_iff in C. destruct C as ([[a b] w] & Ek & Hi). cbn in Ek. inv Ek. apply Hl in Hi. destruct Hi as (c' & E1 & E2 & _). congruence.
    + rewrite G2; [reflexivity|]. intros C. apply in_map_iff in C. destruct C as ([[a b] w] & Ek & Hi). cbn in Ek. inv Ek. apply Hl in Hi. destruct Hi as (c' & E1 & E2 & _). congruence. Qed.
End G.
