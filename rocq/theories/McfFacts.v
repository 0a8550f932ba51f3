(** Facts about minimum_cost_flow: the loop. *)
From Coq Require Import Sorted.
From Verif Require Import Prelude PreludeFacts Base BaseFacts BaseFacts2 BaseFacts3 Spec SpecFacts Loop SearchFacts
  BaseAlgFacts Sp SpFacts Fw FwFacts PropsFw FlowSpec Flow FlowFacts MaxFlowFacts FlowFacts2 HashFacts AssignFacts McfSpec Mcf.
Local Open Scope Z_scope.

Lemma reachable_copy {A O V} {EA : EqDec A} (g : graph A O V) : wf g -> exists g', copy g = Ok g' /\ reachable g' /\ nodes g' = nodes g /\ (forall x y, edge g' x y = edge g x y).
Proof. intros W. destruct (copy_spec g W) as (g' & E & _ & _ & E1 & E2 & _). exists g'. splits; [exact E| | |].
  - unfold copy in E. cbn zeta in E. set (g0 := fold_left _ _ _) in E.
    assert (reachable g0) as R0.
    { unfold g0. assert (reachable (@empty_graph A O V)) as R by apply reachable_empty. revert R. generalize (@empty_graph A O V) as h. generalize (g_nodes g) as l.
      induction l as [|p l IH]; intros h R; cbn [fold_left]; [exact R|]. apply IH, reachable_add_node, R. }
    rewrite <- from_list_edges in E. eapply reachable_from_list; [exact R0|exact E].
  - unfold nodes. rewrite E1. reflexivity.
  - intros x y. unfold edge. rewrite E2. reflexivity. Qed.
Lemma reachable_copy_of {A O V} {EA : EqDec A} (c : gclass) (g : graph A O V) : wf g ->
  exists g', copy_of c g = Ok g' /\ reachable g' /\ (forall x, In x (nodes g') <-> In x (nodes g)) /\ (forall x y, edge g' x y = edge g x y).
Proof. intros W. destruct c.
  - destruct (reachable_copy g W) as (g' & E & R & N & EE). exists g'. splits; auto. rewrite N. tauto.
  - destruct (copy_of_spec IsGraph3D g W) as (g' & E & _ & _ & N & EE). exists g'. splits; auto. cbn in E. unfold copy3d in E.
    destruct (to_dict g) as [d| |] eqn:Ed; try discriminate. exists [OpFromDict d]. unfold run. cbn [foldM step]. cbn [bind] in E. rewrite E. reflexivity. Qed.
Lemma dist_ext {A} (E E' : A -> A -> option Z) a b d : (forall x y, E x y = E' x y) -> dist E a b d -> dist E' a b d.
Proof. intros H. assert (forall p z, wpath E a p b z <-> wpath E' a p b z) as HW.
  { intros p z. split; apply wpath_mono; intros x y w _ _; rewrite H; auto. }
  destruct d as [z|]; cbn.
  - intros [(p & Hp) Hm]. split; [exists p; apply HW, Hp|]. intros q z' Hq. apply (Hm q z'), HW, Hq.
  - intros Hn p z Hp. apply (Hn p z), HW, Hp. Qed.
Lemma ext_sub_0 c : ext_sub c 0 = c.
Proof. destruct c; cbn; [rewrite Z.sub_0_r|]; reflexivity. Qed.
Lemma ext_sub_sub c a b : ext_sub (ext_sub c a) b = ext_sub c (a + b).
Proof. destruct c; cbn; [f_equal; lia|reflexivity]. Qed.

Lemma zip_next_steps {A} {EA : EqDec A} (p : list A) a b : In (a, b) (zip_next p) <-> 0 < steps_of p a b.
Proof. induction p as [|x p IH]; [cbn; split; [intros []|lia]|]. destruct p as [|y p]; [cbn; split; [intros []|lia]|].
  change (zip_next (x :: y :: p)) with ((x, y) :: zip_next (y :: p)). change (steps_of (x :: y :: p) a b) with (ind1 x a * ind1 y b + steps_of (y :: p) a b).
  pose proof (steps_of_nonneg (y :: p) a b) as HN. cbn [In]. rewrite IH. unfold ind1. destruct (eq_dec x a) as [->|h]; [destruct (eq_dec y b) as [->|k]|].
  - split; [lia|auto].
  - split; [intros [E|E]; [congruence|lia]|intros; right; lia].
  - split; [intros [E|E]; [congruence|lia]|intros; right; lia]. Qed.
Lemma zip_next_In {A} (p : list A) a b : In (a, b) (zip_next p) -> In a p /\ In b p.
Proof. induction p as [|x p IH]; [intros []|]. destruct p as [|y p]; [intros []|]. change (zip_next (x :: y :: p)) with ((x, y) :: zip_next (y :: p)).
  intros [E|H]; [inv E; cbn; auto|]. destruct (IH H) as [H1 H2]. split; right; assumption. Qed.

Lemma addP_spec {A} {EA : EqDec A} (p : list A) : forall (F : A -> A -> option Z) v x y,
  addP F p v x y = if steps_of p x y =? 0 then F x y else Some (fz F x y + v * steps_of p x y).
Proof. induction p as [|a p IH]; intros F v x y; [reflexivity|]. destruct p as [|b p]; [reflexivity|].
  change (addP F (a :: b :: p) v) with (addP (addF F a b v) (b :: p) v). change (steps_of (a :: b :: p) x y) with (ind1 a x * ind1 b y + steps_of (b :: p) x y).
  rewrite IH, fz_addF. pose proof (steps_of_nonneg (b :: p) x y) as HN. unfold addF, ind1. destruct (eq_dec a x) as [->|h]; [destruct (eq_dec b y) as [->|k]|].
  - destruct (eq_dec x x); [|congruence]. destruct (eq_dec y y); [|congruence]. destruct (Z.eqb_spec (steps_of (y :: p) x y) 0) as [h|h]; destruct (Z.eqb_spec (1 * 1 + steps_of (y :: p) x y) 0); try lia.
    + rewrite h. f_equal. ring.
    + f_equal. ring.
  - destruct (eq_dec x x); [|congruence]. destruct (eq_dec y b); [congruence|].
    destruct (Z.eqb_spec (steps_of (b :: p) x y) 0), (Z.eqb_spec (1 * 0 + steps_of (b :: p) x y) 0); try lia; [reflexivity|f_equal; ring].
  - destruct (eq_dec x a); [congruence|]. set (i := if eq_dec b y then 1 else 0).
    destruct (Z.eqb_spec (steps_of (b :: p) x y) 0), (Z.eqb_spec (0 * i + steps_of (b :: p) x y) 0); try lia; [reflexivity|f_equal; ring]. Qed.

Section SS.
Context {A : Type} {EA : EqDec A}.
Notation srtd := (StronglySorted (fun x y : Z * A => fst x <= fst y)).
Lemma srtd_lremove x l : srtd l -> srtd (lremove x l).
Proof. induction l as [|y l IH]; intros H; [constructor|]. apply StronglySorted_inv in H. destruct H as [H1 H2]. cbn [lremove]. destruct (eq_dec x y); [exact H1|].
  constructor; [apply IH, H1|]. rewrite Forall_forall in *. intros z Hz. apply H2. eapply lremove_In, Hz. Qed.
End SS.

Section M.
Context {A O : Type} {EA : EqDec A}.
Context (srt : list (Z * A) -> list (Z * A)) (near : list (ext * (Z * A)) -> ext * (Z * A)).
Hypothesis Hsrt : forall l, Permutation (srt l) l /\ StronglySorted (fun x y => fst x <= fst y) (srt l).
Hypothesis Hnear : forall l, l <> [] -> In (near l) l /\ forall y, In y l -> ext_le (fst (near l)) (fst y).
Notation graph := (graph A O Z).
Notation capgraph := (Base.graph A O ext).
Context (costs : graph) (capg : capgraph) (stock : A -> Z).
Hypothesis HR : reachable costs.
Hypothesis Hnn : nonneg costs.
Hypothesis Hlinks : forall x y, has_edge capg x y <-> has_edge costs x y.
Hypothesis Hcap0 : forall x y c, edge capg x y = Some c -> ext_le (Fin 0) c.
Hypothesis Hstock : forall x, stock x <> 0 -> In x (nodes costs).

Definition capE (x y : A) : ext := match edge capg x y with Some c => c | None => Fin 0 end.
Definition resid (F : A -> A -> option Z) (x y : A) : ext := ext_sub (capE x y) (fz F x y).
(** the links that are still considered *)
Definition pedge (F : A -> A -> option Z) (x y : A) : option Z :=
  match F x y with Some v => if ext_eqb (ext_sub (capE x y) v) (Fin 0) then None else edge costs x y | None => edge costs x y end.
Definition mrep (F : A -> A -> option Z) (gs : mcf_graphs (A := A) (O := O)) : Prop :=
  let '(flows, caps, paths, distances) := gs in
  reachable flows /\ reachable caps /\ reachable paths /\ (forall x, In x (nodes paths) <-> In x (nodes costs)) /\
  (forall x y, edge flows x y = F x y) /\
  (forall x y, edge caps x y = match F x y with Some v => Some (ext_sub (capE x y) v) | None => None end) /\
  (forall x y, edge paths x y = pedge F x y) /\
  distances = all_pairs_shortest_paths paths.

Lemma mcf_left_spec F gs x y : mrep F gs -> has_edge capg x y -> mcf_left capg (snd (fst (fst gs))) (x, y) = Ok (resid F x y).
Proof. destruct gs as [[[flows caps] paths] distances]. intros (_ & _ & _ & _ & _ & E2 & _) (c & Hc). unfold mcf_left, resid, fz, capE in *. cbn [fst snd]. rewrite E2, Hc.
  destruct (F x y); [reflexivity|]. rewrite ext_sub_0. reflexivity. Qed.

Lemma mcf_update_spec F gs L a b : mrep F gs -> has_edge capg a b -> pedge F a b = edge costs a b ->
  exists gs', mcf_update capg L gs (a, b) = Ok gs' /\ mrep (addF F a b L) gs'.
Proof. intros HM Hab Hp. pose proof (mcf_left_spec F gs a b HM Hab) as HL. destruct gs as [[[flows caps] paths] distances]. cbn [fst snd] in HL.
  destruct HM as (R1 & R2 & R3 & N3 & E1 & E2 & E3 & E4). unfold mcf_update. rewrite E1.
  destruct (reachable_add_edge flows a b (L + match F a b with Some v => v | None => 0 end) R1) as (flows' & -> & R1' & E1' & _). cbn [bind]. rewrite HL. cbn [bind].
  destruct (reachable_add_edge caps a b (ext_sub (resid F a b) L) R2) as (caps' & -> & R2' & E2' & _). cbn [bind].
  assert (ext_sub (resid F a b) L = ext_sub (capE a b) (fz F a b + L)) as ER by (unfold resid; apply ext_sub_sub).
  assert (forall x y, edge flows' x y = addF F a b L x y) as E1''.
  { intros x y. rewrite E1'. unfold addF. destruct (eq_dec x a) as [->|]; [destruct (eq_dec y b) as [->|]|]; [|apply E1|apply E1]. f_equal. unfold fz. destruct (F a b); lia. }
  assert (forall x y, edge caps' x y = match addF F a b L x y with Some v => Some (ext_sub (capE x y) v) | None => None end) as E2''.
  { intros x y. rewrite E2'. unfold addF. destruct (eq_dec x a) as [->|]; [destruct (eq_dec y b) as [->|]|]; [|apply E2|apply E2]. rewrite ER. reflexivity. }
  destruct (ext_eqb (ext_sub (resid F a b) L) (Fin 0)) eqn:Ez.
  - destruct (reachable_del_edge paths a b R3) as (paths' & -> & R3' & E3' & N3' & _). cbn [bind]. eexists. split; [reflexivity|]. hnf. splits; auto.
    + rewrite N3'. exact N3.
    + intros x y. rewrite E3'. unfold pedge, addF. destruct (eq_dec x a) as [->|]; [destruct (eq_dec y b) as [->|]|]; [|apply E3|apply E3]. rewrite <- ER, Ez. reflexivity.
  - eexists. split; [reflexivity|]. hnf. splits; auto.
    intros x y. rewrite E3. unfold pedge, addF. destruct (eq_dec x a) as [->|]; [destruct (eq_dec y b) as [->|]|]; try reflexivity. rewrite <- ER, Ez. fold (pedge F a b). exact Hp. Qed.
Lemma pedge_ext F F' x y : F x y = F' x y -> pedge F x y = pedge F' x y.
Proof. intros E. unfold pedge. rewrite E. reflexivity. Qed.
Lemma mcf_updates L p : forall F gs, mrep F gs -> NoDup p -> (forall a b, In (a, b) (zip_next p) -> has_edge capg a b /\ pedge F a b = edge costs a b) ->
  exists gs', foldM (mcf_update capg L) (zip_next p) gs = Ok gs' /\ mrep (addP F p L) gs'.
Proof. induction p as [|a p IH]; intros F gs HM Hnd Hz; [exists gs; auto|]. destruct p as [|b p]; [exists gs; auto|].
  change (zip_next (a :: b :: p)) with ((a, b) :: zip_next (b :: p)) in *. destruct (Hz a b) as [H1 H2]; [cbn; auto|].
  destruct (mcf_update_spec F gs L a b HM H1 H2) as (gs1 & Eg & HM1). cbn [foldM]. rewrite Eg. cbn [bind].
  change (addP F (a :: b :: p) L) with (addP (addF F a b L) (b :: p) L). apply NoDup_cons_iff in Hnd. destruct Hnd as [Ha Hnd]. apply (IH _ _ HM1 Hnd).
  intros x y Hxy. destruct (Hz x y) as [K1 K2]; [cbn; auto|]. split; [exact K1|]. rewrite <- K2. apply pedge_ext. unfold addF.
  destruct (eq_dec x a) as [->|]; [|reflexivity]. apply zip_next_In in Hxy. destruct Hxy. contradiction. Qed.

Lemma mcf_limit_spec F gs ps : mrep F gs -> ps <> [] -> (forall a b, In (a, b) ps -> has_edge capg a b) ->
  exists l, mcf_limit capg (snd (fst (fst gs))) ps = Ok l /\ (exists a b, In (a, b) ps /\ l = resid F a b) /\ forall a b, In (a, b) ps -> ext_le l (resid F a b).
Proof. intros HM Hne Hps. destruct ps as [|[a b] ps]; [congruence|]. unfold mcf_limit. rewrite (mcf_left_spec F gs a b HM) by (apply Hps; cbn; auto). cbn [bind].
  assert (forall qs c, (forall x y, In (x, y) qs -> has_edge capg x y) -> exists l, foldM (fun m y => d <- mcf_left capg (snd (fst (fst gs))) y ;; Ok (ext_min m d)) qs c = Ok l /\
    (l = c \/ exists x y, In (x, y) qs /\ l = resid F x y) /\ ext_le l c /\ forall x y, In (x, y) qs -> ext_le l (resid F x y)) as G.
  { induction qs as [|[x y] qs IH]; intros c Hq; [exists c; cbn; splits; auto; [apply ext_le_refl|intros ? ? []]|].
    cbn [foldM]. rewrite (mcf_left_spec F gs x y HM) by (apply Hq; cbn; auto). cbn [bind]. destruct (ext_min_le c (resid F x y)) as (M1 & M2 & M3).
    destruct (IH (ext_min c (resid F x y))) as (l & El & I1 & I2 & I3); [intros u v Huv; apply Hq; cbn; auto|]. exists l. splits; [exact El| | |].
    - destruct I1 as [->|(u & v & Huv & ->)]; [|right; exists u, v; cbn; auto]. destruct M3 as [->| ->]; [auto|right; exists x, y; cbn; auto].
    - eapply ext_le_trans; eauto.
    - intros u v [E|Huv]; [inv E; eapply ext_le_trans; eauto|apply I3, Huv]. }
  destruct (G ps (resid F a b)) as (l & El & I1 & I2 & I3); [intros x y Hxy; apply Hps; cbn; auto|]. exists l. splits; [exact El| |].
  - destruct I1 as [->|(u & v & Huv & ->)]; [exists a, b; cbn; auto|exists u, v; cbn; auto].
  - intros u v [E|Huv]; [inv E; exact I2|apply I3, Huv]. Qed.

Lemma mcf_sites_spec (distances : @matrix A) Dn bal : (forall E En, In (E, En) bal -> 0 < E -> exists d, eget distances En Dn = Some d) ->
  exists sites, mcf_sites distances Dn bal = Ok sites /\ forall d E En, In (d, (E, En)) sites <-> In (E, En) bal /\ 0 < E /\ eget distances En Dn = Some d.
Proof. induction bal as [|[E En] bal IH]; intros H; [exists []; split; [reflexivity|]; cbn; tauto|].
  destruct IH as (sites & Es & Hs); [intros E' En' Hi; apply H; cbn; auto|]. cbn [mcf_sites]. destruct (Z.ltb_spec 0 E) as [h|h].
  - destruct (H E En) as (d & Hd); [cbn; auto|exact h|]. rewrite Hd, Es. cbn [bind]. eexists. split; [reflexivity|]. intros d' E' En'. cbn [In]. rewrite Hs. split.
    + intros [Eq|(K1 & K2 & K3)]; [inv Eq; auto|auto].
    + intros ([Eq|K1] & K2 & K3); [inv Eq; left; congruence|auto].
  - exists sites. split; [exact Es|]. intros d' E' En'. rewrite Hs. cbn [In]. split; [tauto|]. intros ([Eq|K1] & K2 & K3); [inv Eq; lia|auto]. Qed.

(** what is left at x *)
Definition left_at (F : A -> A -> option Z) (x : A) : Z := stock x - net costs (fz F) x.
(** the flow after some augmentations *)
Definition good (F : A -> A -> option Z) : Prop :=
  (forall x y v, F x y = Some v -> has_edge costs x y) /\
  (forall x y, 0 <= fz F x y) /\ (forall x y, ext_le (Fin (fz F x y)) (capE x y)) /\
  (forall x, 0 <= net costs (fz F) x <= stock x \/ stock x <= net costs (fz F) x <= 0).
Definition bal_ok (F : A -> A -> option Z) (bal : list (Z * A)) : Prop :=
  StronglySorted (fun x y => fst x <= fst y) bal /\ NoDup bal /\ forall v x, In (v, x) bal <-> v <> 0 /\ v = left_at F x.
(** one augmentation: L units along a shortest path from the nearest supply with something left to a demand node *)
Definition augment (F : A -> A -> option Z) (En Dn : A) (d : Z) (p : list A) (L : Z) : Prop :=
  0 < left_at F En /\ left_at F Dn < 0 /\ wpath (pedge F) En p Dn d /\ NoDup p /\ dist (pedge F) En Dn (Fin d) /\
  (forall x, 0 < left_at F x -> exists dx, dist (pedge F) x Dn dx /\ ext_le (Fin d) dx) /\
  0 <= L <= left_at F En /\ L <= - left_at F Dn.
Context (J : (A -> A -> option Z) -> Prop).
Hypothesis HJ : forall F En Dn d p L, good F -> J F -> augment F En Dn d p L -> J (addP F p L).
Definition mcf_inv (st : list (Z * A) * mcf_graphs) : Prop := exists F, mrep F (snd st) /\ good F /\ J F /\ bal_ok F (fst st).
Definition mcf_post (r : res graph) : Prop :=
  match r with
  | Ok flows => exists F, reachable flows /\ (forall x y, edge flows x y = F x y) /\ good F /\ J F /\
      ((forall x, stock x < 0 -> net costs (fz F) x = stock x) \/ (forall x, 0 < stock x -> net costs (fz F) x = stock x))
  | Err e => e = BadLogic /\ exists F, good F /\ J F /\ exists t, stock t < net costs (fz F) t /\ (exists s, net costs (fz F) s < stock s) /\
      forall s, net costs (fz F) s < stock s -> 0 < stock s -> ~ reach (fun x y => pedge F x y <> None) s t
  | OutOfFuel => False
  end.
Definition live (F : A -> A -> option Z) (xy : A * A) : bool := match pedge F (fst xy) (snd xy) with Some _ => true | None => false end.
Definition some_edges (h : graph) : nat := length (filter (fun xy : A * A => match edge h (fst xy) (snd xy) with Some _ => true | None => false end) (list_prod (nodes costs) (nodes costs))).
Definition mcf_mu (st : list (Z * A) * mcf_graphs) : nat := (some_edges (snd (fst (snd st))) + length (fst st))%nat.
Lemma some_edges_live F h : (forall x y, edge h x y = pedge F x y) -> some_edges h = length (filter (live F) (list_prod (nodes costs) (nodes costs))).
Proof. intros E. unfold some_edges. f_equal. apply filter_ext. intros [x y]. unfold live. cbn. rewrite E. reflexivity. Qed.
Lemma pedge_costs F x y w : pedge F x y = Some w -> edge costs x y = Some w.
Proof. unfold pedge. destruct (F x y); [destruct (ext_eqb _ _); [discriminate|]|]; auto. Qed.

(** net flow after adding a simple path *)
Lemma net_addP F p L s e R : incl p (nodes costs) -> simple_path R s p e -> s <> e ->
  forall x, net costs (fz (addP F p L)) x = net costs (fz F) x + L * (ind1 s x - ind1 e x).
Proof. intros Hi Hp Hse. destruct (simple_balance (nodes costs) p R s e (wf_nodes costs (reachable_wf _ HR)) Hi Hp Hse) as (B1 & B2 & B3 & B4 & B5). intros x.
  assert (outflow costs (fz (addP F p L)) x = outflow costs (fz F) x + L * sumZ (nodes costs) (fun y => steps_of p x y)) as EO.
  { unfold outflow. rewrite <- sumZ_scale, <- sumZ_plus. apply sumZ_ext. intros y _. apply fz_addP. }
  assert (inflow costs (fz (addP F p L)) x = inflow costs (fz F) x + L * sumZ (nodes costs) (fun y => steps_of p y x)) as EI.
  { unfold inflow. rewrite <- sumZ_scale, <- sumZ_plus. apply sumZ_ext. intros y _. apply fz_addP. }
  unfold net. rewrite EO, EI. unfold ind1. destruct (eq_dec s x) as [<-|h]; [destruct (eq_dec e s); [congruence|]; lia|]. destruct (eq_dec e x) as [<-|k]; [lia|].
  rewrite B5 by congruence. lia. Qed.

Lemma ext_sub_le c v L : ext_le (Fin L) (ext_sub c v) -> ext_le (Fin (v + L)) c.
Proof. destruct c; cbn; [lia|auto]. Qed.

Lemma mcf_loop bal gs : mcf_inv (bal, gs) -> exists r, returns2 (fun n m => loop n (mcf_step srt near m capg) (bal, gs)) r /\ mcf_post r.
Proof. intros Hinit. pose proof (reachable_wf _ HR) as HW.
  apply (loop_returns2 (fun m => mcf_step srt near m capg) mcf_inv (fun a b => (mcf_mu a < mcf_mu b)%nat) mcf_post); [apply (wf_of lt mcf_mu), lt_wf| |exact Hinit].
  clear Hinit bal gs. intros [bal gs] (F & HM & HG & HJF & HB). cbn [fst snd] in *. destruct HB as (Bs & Bn & Bi). pose proof HM as HM0.
  destruct gs as [[[flows caps] paths] distances]. destruct HM as (R1 & R2 & R3 & N3 & E1 & E2 & E3 & ->). destruct HG as (G1 & G2 & G3 & G4).
  assert (forall x, stock x < 0 -> left_at F x <= 0) as Sneg by (intros x Hx; unfold left_at; specialize (G4 x); lia).
  assert (forall x, 0 < stock x -> 0 <= left_at F x) as Spos by (intros x Hx; unfold left_at; specialize (G4 x); lia).
  assert ((forall x, stock x < 0 -> net costs (fz F) x = stock x) \/ (forall x, 0 < stock x -> net costs (fz F) x = stock x) -> mcf_post (Ok flows)) as Hdone.
  { intros HD. exists F. splits; auto. hnf. splits; auto. }
  destruct bal as [|[D Dn] bal].
  { exists (inr (Ok flows)). split; [refine (settles_ext _ _ _ _ (settles_const _ _)); [reflexivity|discriminate]|]. apply Hdone. left. intros x Hx. destruct (Z.eq_dec (left_at F x) 0) as [h|h]; [unfold left_at in h; lia|].
    exfalso. assert (In (left_at F x, x) []) as [] by (apply Bi; auto). }
  cbn [mcf_step]. destruct (Z.ltb_spec 0 D) as [hD|hD].
  { exists (inr (Ok flows)). split; [refine (settles_ext _ _ _ _ (settles_const _ _)); [reflexivity|discriminate]|]. apply Hdone. left. intros x Hx. specialize (Sneg x Hx). destruct (Z.eq_dec (left_at F x) 0) as [h|h]; [unfold left_at in h; lia|].
    exfalso. assert (In (left_at F x, x) ((D, Dn) :: bal)) as [C|C] by (apply Bi; auto).
    - inv C. lia.
    - apply StronglySorted_inv in Bs. destruct Bs as [_ Bs]. rewrite Forall_forall in Bs. specialize (Bs _ C). cbn in Bs. lia. }
  destruct (proj1 (Bi D Dn) (or_introl eq_refl)) as [hD0 HDn].
  assert (left_at F Dn < 0) as HDneg by lia.
  assert (forall x, left_at F x <> 0 -> stock x <> 0) as Hst0 by (intros x Hx; specialize (G4 x); unfold left_at in Hx; lia).
  assert (In Dn (nodes costs)) as HDN by (apply Hstock, Hst0; lia).
  assert (nonneg paths) as Hnp by (intros x y w Hxy; rewrite E3 in Hxy; apply pedge_costs in Hxy; apply (Hnn _ _ _ Hxy)).
  pose proof (reachable_wf _ R3) as W3.
  destruct (C29_all_pairs_exact paths R3 (nonneg_no_neg_cycle paths Hnp)) as (Hap & _ & _).
  assert (forall x, In x (nodes costs) -> exists d, eget (all_pairs_shortest_paths paths) x Dn = Some d /\ dist (pedge F) x Dn d) as Hdist.
  { intros x Hx. destruct (Hap x Dn) as (d & Hd1 & Hd2); [apply contains_In; rewrite N3; auto|apply contains_In; rewrite N3; auto|]. exists d. split; [exact Hd1|]. apply (dist_ext (edge paths)); auto. }
  apply NoDup_cons_iff in Bn. destruct Bn as [Bn1 Bn2].
  assert (forall x, 0 < left_at F x -> In (left_at F x, x) bal) as Hinb.
  { intros x Hx. assert (In (left_at F x, x) ((D, Dn) :: bal)) as [C|C] by (apply Bi; split; [lia|reflexivity]); [inv C; lia|exact C]. }
  destruct (mcf_sites_spec (all_pairs_shortest_paths paths) Dn bal) as (sites & Es & Hs).
  { intros E En Hi HE. destruct (Hdist En) as (d & Hd & _); [|eauto]. destruct (proj1 (Bi E En) (or_intror Hi)) as [K1 K2]. apply Hstock, Hst0. lia. }
  rewrite Es. cbn [bind]. destruct sites as [|site0 sites0].
  { exists (inr (Ok flows)). split; [refine (settles_ext _ _ _ _ (settles_const _ _)); [reflexivity|discriminate]|]. apply Hdone. right. intros x Hx. specialize (Spos x Hx). destruct (Z.eq_dec (left_at F x) 0) as [h|h]; [unfold left_at in h; lia|].
    exfalso. assert (0 < left_at F x) as h' by lia. destruct (Hdist x) as (d & Hd & _); [apply Hstock; lia|].
    assert (In (d, (left_at F x, x)) []) as [] by (apply Hs; splits; auto). }
  set (sites := site0 :: sites0) in *. destruct (Hnear sites) as [Hn1 Hn2]; [discriminate|]. destruct (near sites) as [dist0 [E En]] eqn:En0. cbn [fst] in Hn2.
  apply Hs in Hn1. destruct Hn1 as (HiE & HE & HdE). destruct (proj1 (Bi E En) (or_intror HiE)) as [_ HEn].
  assert (In En (nodes costs)) as HEN by (apply Hstock, Hst0; lia).
  assert (dist (pedge F) En Dn dist0) as Hd0 by (destruct (Hdist En HEN) as (d & Hd1 & Hd2); congruence).
  assert (forall x, 0 < left_at F x -> exists dx, dist (pedge F) x Dn dx /\ ext_le dist0 dx) as Hnearest.
  { intros x Hx. destruct (Hdist x) as (d & Hd1 & Hd2); [apply Hstock, Hst0; lia|]. exists d. split; [exact Hd2|]. apply (Hn2 (d, (left_at F x, x))). apply Hs. splits; auto. }
  destruct (Z.ltb_spec E 0) as [hE|_]; [lia|]. cbn match.
  destruct dist0 as [d|].
  2:{ exists (inr (Err BadLogic)). split; [refine (settles_ext _ _ _ _ (settles_const _ _)); [reflexivity|discriminate]|]. cbn. split; [reflexivity|]. exists F. split; [hnf; splits; auto|]. split; [exact HJF|]. exists Dn. splits.
      - unfold left_at in HDneg. lia.
      - exists En. unfold left_at in HEn. lia.
      - intros s H1 H2 (q & Hq). destruct (Hnearest s) as (dx & Hdx & Hle); [unfold left_at; lia|]. destruct dx as [z|]; [contradiction|].
        assert (path (erel (pedge F)) s q Dn) as Hq' by (eapply path_mono; [|exact Hq]; intros x y _ _ Hxy; unfold erel; destruct (pedge F x y) as [w|] eqn:Ew; [eauto|congruence]).
        apply path_wpath in Hq'. destruct Hq' as (z & Hz). apply (Hdx q z Hz). }
  cbn [ext_eqb].
  assert (En <> Dn) as Hne by (intros ->; lia).
  destruct (shortest_path_dist paths En Dn W3 Hnp) as (d1 & p & Hr & Hd1 & Hp); [rewrite N3; auto|rewrite N3; auto|].
  assert (d1 = Fin d) as -> by (eapply dist_fun; [|exact Hd0]; apply (dist_ext (edge paths)); auto).
  assert (NoDup p) as Hnd by (destruct Hr as (_ & [K HK] & _); eapply shortest_path_simple; apply (HK K (le_n K))).
  assert (wpath (pedge F) En p Dn d) as Hp' by (eapply wpath_mono; [|exact Hp]; intros x y w _ _; rewrite E3; auto).
  assert (simple_path (erel (pedge F)) En p Dn) as Hsp by (split; [apply (wpath_path _ _ _ _ _ Hp')|exact Hnd]).
  assert (incl p (nodes costs)) as Hpi by (intros x Hx; rewrite <- N3; eapply wpath_in_nodes; [exact W3| |exact Hp|exact Hx]; rewrite N3; exact HEN).
  assert (forall a b, In (a, b) (zip_next p) -> has_edge capg a b /\ pedge F a b = edge costs a b /\ pedge F a b <> None) as Hz.
  { intros a b Hab. apply zip_next_steps in Hab. apply (steps_of_pos _ _ _ _ _ _ (proj1 Hsp)) in Hab. destruct Hab as (w & Hw). pose proof (pedge_costs _ _ _ _ Hw) as Hc.
    splits; [apply Hlinks; exists w; exact Hc|congruence|congruence]. }
  assert (zip_next p <> []) as Hzn.
  { destruct (path_head _ _ _ _ (proj1 Hsp)) as (q & ->). destruct q as [|b q]; [|discriminate]. exfalso. apply Hne. destruct Hsp as [Hsp _]. apply path_inv1 in Hsp. destruct Hsp. congruence. }
  destruct (mcf_limit_spec F (flows, caps, paths, all_pairs_shortest_paths paths) (zip_next p) HM0 Hzn) as (limit & El & (la & lb & Hlab & Hl1) & Hl2); [intros a b Hab; apply (Hz a b Hab)|].
  cbn [fst snd] in El. set (L := mcf_amount E D limit).
  assert (forall x y, ext_le (Fin 0) (resid F x y)) as Hres0 by (intros x y; unfold resid; specialize (G3 x y); destruct (capE x y); cbn in *; [lia|exact Logic.I]).
  assert (0 <= L <= E /\ L <= - D /\ ext_le (Fin L) limit /\ (L = E \/ L = - D \/ limit = Fin L)) as ((L1 & L2) & L3 & L4 & L5).
  { unfold L, mcf_amount. specialize (Hres0 la lb). rewrite <- Hl1 in Hres0. destruct limit as [c|]; cbn in Hres0 |- *.
    - splits; try lia. destruct (Z_le_gt_dec c (Z.min E (Z.abs D))) as [h|h]; [right; right; f_equal; lia|lia].
    - splits; try lia; auto. }
  destruct (mcf_updates L p F (flows, caps, paths, all_pairs_shortest_paths paths) HM0 Hnd) as (gs' & Egs & HM'); [intros a b Hab; destruct (Hz a b Hab) as (K1 & K2 & _); auto|].
  set (bal1 := lremove (E, En) bal). set (bal2 := if 0 <? E - L then srt ((E - L, En) :: bal1) else bal1). set (bal3 := if D + L <? 0 then srt ((D + L, Dn) :: bal2) else bal2).
  exists (inl (bal3, gs')). split.
  { destruct Hr as (_ & [K HK] & Hr2). hnf; splits; [discriminate| |].
    - exists K. intros n Hn. rewrite (HK n Hn). cbn [bind snd]. rewrite El. cbn [bind]. fold L. rewrite Egs. reflexivity.
    - intros n. destruct (Hr2 n) as [-> | ->]; [left; reflexivity|right]. cbn [bind snd]. rewrite El. cbn [bind]. fold L. rewrite Egs. reflexivity. }
  set (F' := addP F p L) in *.
  assert (forall x, net costs (fz F') x = net costs (fz F) x + L * (ind1 En x - ind1 Dn x)) as Hnet by (apply (net_addP F p L En Dn _ Hpi Hsp Hne)).
  assert (left_at F' En = E - L) as LE by (unfold left_at in *; rewrite Hnet; unfold ind1; destruct (eq_dec En En); [|congruence]; destruct (eq_dec Dn En); [congruence|lia]).
  assert (left_at F' Dn = D + L) as LD by (unfold left_at in *; rewrite Hnet; unfold ind1; destruct (eq_dec Dn Dn); [|congruence]; destruct (eq_dec En Dn); [congruence|lia]).
  assert (forall x, x <> En -> x <> Dn -> left_at F' x = left_at F x) as LO by (intros x H1 H2; unfold left_at; rewrite Hnet; unfold ind1; destruct (eq_dec En x); [congruence|]; destruct (eq_dec Dn x); [congruence|lia]).
  assert (forall x y, steps_of p x y = 0 \/ (steps_of p x y = 1 /\ In (x, y) (zip_next p))) as H01.
  { intros x y. pose proof (steps_of_nonneg p x y). pose proof (steps_of_le1 p x y Hnd). assert (steps_of p x y = 0 \/ steps_of p x y = 1) as [h|h] by lia; [auto|right]. split; [exact h|]. apply zip_next_steps. lia. }
  assert (forall x y, steps_of p x y = 0 -> F' x y = F x y) as FE0 by (intros x y h; unfold F'; rewrite addP_spec, h; reflexivity).
  assert (forall x y, steps_of p x y = 1 -> F' x y = Some (fz F x y + L)) as FE1 by (intros x y h; unfold F'; rewrite addP_spec, h; cbn [Z.eqb]; f_equal; lia).
  assert (good F') as HG'.
  { hnf; splits.
    - intros x y v Hv. destruct (H01 x y) as [h|[h Hxy]]; [rewrite (FE0 x y h) in Hv; eapply G1, Hv|]. apply Hlinks, (Hz x y Hxy).
    - intros x y. unfold F'. rewrite fz_addP. pose proof (steps_of_nonneg p x y). specialize (G2 x y). nia.
    - intros x y. destruct (H01 x y) as [h|[h Hxy]]; unfold F'; rewrite fz_addP, h; [rewrite Z.mul_0_r, Z.add_0_r; apply G3|]. rewrite Z.mul_1_r. apply ext_sub_le. fold (resid F x y).
      eapply ext_le_trans; [exact L4|apply Hl2, Hxy].
    - intros x. destruct (eq_dec x En) as [->|h1]; [|destruct (eq_dec x Dn) as [->|h2]].
      + specialize (G4 En). unfold left_at in LE, HEn. lia.
      + specialize (G4 Dn). unfold left_at in LD, HDn. lia.
      + specialize (LO x h1 h2). unfold left_at in LO. specialize (G4 x). lia. }
  assert (Hbal1 : forall v x, In (v, x) bal1 <-> v <> 0 /\ v = left_at F x /\ x <> En /\ x <> Dn).
  { intros v x. unfold bal1. rewrite In_lremove_NoDup by exact Bn2. split.
    - intros [H1 H2]. destruct (proj1 (Bi v x) (or_intror H1)) as [K1 K2]. splits; auto; intros ->; [apply H2; congruence|apply Bn1; congruence].
    - intros (K1 & K2 & K3 & K4). assert (In (v, x) ((D, Dn) :: bal)) as [C|C] by (apply Bi; auto); [congruence|]. split; [exact C|congruence]. }
  assert (Nbal1 : NoDup bal1) by (apply NoDup_lremove, Bn2).
  assert (Sbal1 : StronglySorted (fun x y => fst x <= fst y) bal1) by (apply srtd_lremove; apply StronglySorted_inv in Bs; apply Bs).
  assert (Hbal2 : StronglySorted (fun x y => fst x <= fst y) bal2 /\ NoDup bal2 /\ forall v x, In (v, x) bal2 <-> v <> 0 /\ v = left_at F' x /\ x <> Dn).
  { unfold bal2. destruct (Z.ltb_spec 0 (E - L)) as [h|h].
    - destruct (Hsrt ((E - L, En) :: bal1)) as [P1 P2]. splits; [exact P2| |].
      + apply (Permutation_NoDup (Permutation_sym P1)). constructor; [|exact Nbal1]. intros C. apply Hbal1 in C. tauto.
      + intros v x. transitivity (In (v, x) ((E - L, En) :: bal1)); [split; apply Permutation_in; [exact P1|symmetry; exact P1]|]. cbn [In]. rewrite Hbal1. split.
        * intros [C|(K1 & K2 & K3 & K4)]; [inv C; splits; auto; lia|splits; auto; rewrite (LO x K3 K4); exact K2].
        * intros (K1 & K2 & K3). destruct (eq_dec x En) as [->|h1]; [left; congruence|right]. splits; auto. rewrite <- (LO x h1 K3). exact K2.
    - splits; auto. intros v x. rewrite Hbal1. split.
      * intros (K1 & K2 & K3 & K4). splits; auto. rewrite (LO x K3 K4). exact K2.
      * intros (K1 & K2 & K3). destruct (eq_dec x En) as [->|h1]; [lia|]. splits; auto. rewrite <- (LO x h1 K3). exact K2. }
  destruct Hbal2 as (Sbal2 & Nbal2 & Hbal2).
  assert (HB' : bal_ok F' bal3).
  { unfold bal_ok, bal3. destruct (Z.ltb_spec (D + L) 0) as [h|h].
    - destruct (Hsrt ((D + L, Dn) :: bal2)) as [P1 P2]. splits; [exact P2| |].
      + apply (Permutation_NoDup (Permutation_sym P1)). constructor; [|exact Nbal2]. intros C. apply Hbal2 in C. tauto.
      + intros v x. transitivity (In (v, x) ((D + L, Dn) :: bal2)); [split; apply Permutation_in; [exact P1|symmetry; exact P1]|]. cbn [In]. rewrite Hbal2. split.
        * intros [C|(K1 & K2 & K3)]; [inv C; split; auto; lia|auto].
        * intros (K1 & K2). destruct (eq_dec x Dn) as [->|h1]; [left; congruence|right; auto].
    - splits; auto. intros v x. rewrite Hbal2. split; [tauto|]. intros (K1 & K2). destruct (eq_dec x Dn) as [->|h1]; [lia|auto]. }
  split.
  { exists F'. splits; auto. apply (HJ F En Dn d p L); [hnf; splits; auto|exact HJF|]. hnf. splits; auto; try lia. }
  (* the measure *)
  unfold mcf_mu. cbn [fst snd]. destruct gs' as [[[flows' caps'] paths'] distances']. cbn [fst snd]. destruct HM' as (_ & _ & _ & _ & _ & _ & E3' & _).
  rewrite (some_edges_live F paths E3), (some_edges_live F' paths' E3').
  assert (forall xy, live F' xy = true -> live F xy = true) as Hlive.
  { intros [x y]. unfold live. cbn [fst snd]. destruct (H01 x y) as [h|[h Hxy]]; [rewrite (pedge_ext F' F x y (FE0 x y h)); auto|]. destruct (Hz x y Hxy) as (_ & _ & K). destruct (pedge F x y); [auto|congruence]. }
  pose proof (filter_le (live F) (live F') (list_prod (nodes costs) (nodes costs)) (fun xy _ => Hlive xy)) as Hle.
  assert (length bal1 = length bal - 1)%nat as Lb1.
  { assert (length bal = Datatypes.S (length bal1)) as K by (apply (Permutation_length (lremove_perm (E, En) bal HiE))). lia. }
  assert (1 <= length bal)%nat as Lb0 by (destruct bal; [destruct HiE|cbn; lia]).
  assert (forall x l, length (srt (x :: l)) = Datatypes.S (length l)) as Lsrt by (intros x l; rewrite (Permutation_length (proj1 (Hsrt (x :: l)))); reflexivity).
  assert (length bal2 <= length bal)%nat as Lb2 by (unfold bal2; destruct (0 <? E - L); [rewrite Lsrt|]; lia).
  assert (length bal3 <= Datatypes.S (length bal2))%nat as Lb3 by (unfold bal3; destruct (D + L <? 0); [rewrite Lsrt|]; lia).
  cbn [length]. destruct L5 as [L5|[L5|L5]].
  - assert (length bal2 = length bal1) as Lb4 by (unfold bal2; destruct (Z.ltb_spec 0 (E - L)); [lia|reflexivity]). lia.
  - assert (length bal3 = length bal2) as Lb4 by (unfold bal3; destruct (Z.ltb_spec (D + L) 0); [lia|reflexivity]). lia.
  - assert (length (filter (live F') (list_prod (nodes costs) (nodes costs))) < length (filter (live F) (list_prod (nodes costs) (nodes costs))))%nat; [|lia].
    apply (filter_lt _ _ _ (la, lb)); [intros xy _; apply Hlive|apply in_prod; apply Hpi, (zip_next_In p la lb Hlab)| |].
    + unfold live. cbn [fst snd]. destruct (Hz la lb Hlab) as (_ & _ & K). destruct (pedge F la lb); [reflexivity|congruence].
    + unfold live. cbn [fst snd]. destruct (H01 la lb) as [h|[h _]]; [apply zip_next_steps in Hlab; lia|]. unfold pedge. rewrite (FE1 la lb h).
      assert (ext_sub (capE la lb) (fz F la lb + L) = Fin 0) as ->; [|reflexivity]. rewrite L5 in Hl1. unfold resid in Hl1. rewrite <- ext_sub_sub, <- Hl1. cbn. f_equal. lia. Qed.
End M.
