(** Facts about hash_methods.py: flow_graph_hash *)
From Verif Require Import Prelude PreludeFacts Base BaseFacts BaseFacts2 BaseFacts3 Spec SpecFacts Loop SearchFacts BaseAlgFacts Dfs DfsFacts
  FlowSpec Flow FlowFacts MaxFlowFacts Hash MiscSpec HashFacts.

Section F.
Context {A O V D : Type} {EA : EqDec A} (hashf : A -> list D -> D).
Notation graph := (graph A O V).
Notation hgraph := (Base.graph A (A * option D) Z).
Implicit Types (g : graph) (hg : hgraph) (x y s : A).

Lemma recv_spec x l : forall Q hg vis, reachable hg -> In x (nodes hg) -> NoDup l -> (forall y, In y l -> ~ In y vis -> ~ In y (nodes hg) /\ ~ In y Q) ->
  exists hg' vis' new, foldM (fgh_receive x) l (Q, hg, vis) = Ok (Q ++ new, hg', vis') /\ reachable hg' /\ NoDup new /\
    (forall y, In y new <-> In y l /\ ~ In y vis) /\ (forall y, In y vis' <-> In y vis \/ In y l) /\
    (forall y, In y (nodes hg') <-> In y (nodes hg) \/ In y new) /\
    (forall y, ~ In y new -> node hg' y = node hg y) /\ (forall y, In y new -> node hg' y = Some (y, None)).
Proof. induction l as [|r l IH]; intros Q hg vis R Hx ND HP; cbn [foldM].
  - exists hg, vis, []. rewrite app_nil_r. splits; auto using NoDup_nil; cbn; try tauto; intros; tauto.
  - apply NoDup_cons_iff in ND. destruct ND as [ND1 ND2]. unfold fgh_receive at 1. destruct (mem_spec r vis) as [Hr|Hr].
    + cbn [bind]. destruct (IH Q hg vis R Hx ND2) as (hg' & vis' & new & E & R' & N' & H1 & H2 & H3 & H4 & H5); [intros y Hy; apply HP; right; exact Hy|].
      exists hg', vis', new. splits; auto.
      * intros y. rewrite H1. cbn. split; [tauto|]. intros [[<-|Hy] Hv]; tauto.
      * intros y. rewrite H2. cbn. split; [tauto|]. intros [?|[<-|?]]; auto.
    + destruct (HP r (or_introl eq_refl) Hr) as [Hn Hq]. apply contains_notIn in Hn as Ec. rewrite Ec. apply mem_notIn in Hq as Eq. rewrite Eq.
      destruct (add_edge_full (add_node hg r (Some (r, None))) x r 1%Z (reachable_add_node hg r _ R)) as (g1 & -> & R1 & N1 & _ & O1). cbn [bind].
      assert (forall y, In y (nodes g1) <-> y = r \/ In y (nodes hg)) as N1'. { intros y. rewrite N1, nodes_add_node, In_sadd. split; [|tauto]. intros [->|?]; tauto. }
      assert (forall y, node g1 y = if eq_dec y r then Some (r, None) else node hg y) as O1' by (intros y; rewrite O1, node_add_node; reflexivity).
      destruct (IH (Q ++ [r]) g1 (sadd r vis) R1) as (hg' & vis' & new & E & R' & N' & H1 & H2 & H3 & H4 & H5); [apply N1'; auto|exact ND2| |].
      { intros y Hy Hv. rewrite In_sadd in Hv. destruct (HP y (or_intror Hy)) as [P1 P2]; [tauto|]. rewrite N1', in_app_iff. cbn. split; intros C; intuition congruence. }
      assert (~ In r new) as Hrn by (rewrite H1, In_sadd; tauto).
      exists hg', vis', (r :: new). rewrite <- app_assoc in E. cbn in E. splits; auto.
      * constructor; assumption.
      * intros y. cbn. rewrite H1, In_sadd. split; [intros [<-|[P1 P2]]; tauto|]. intros [[<-|Hy] Hv]; [tauto|]. right. split; [exact Hy|]. intros [->|?]; tauto.
      * intros y. rewrite H2, In_sadd. cbn. intuition.
      * intros y. rewrite H3, N1'. cbn. intuition.
      * intros y Hy. cbn in Hy. rewrite H4 by tauto. rewrite O1'. destruct (eq_dec y r) as [->|]; [tauto|reflexivity].
      * intros y [<-|Hy]; [|apply H5, Hy]. rewrite H4 by exact Hrn. rewrite O1'. destruct (eq_dec r r); [reflexivity|congruence]. Qed.

Lemma supply_spec g hg x (P : list A) : wf g -> acyclic (has_edge g) -> (forall y, In y P -> exists h, node hg y = Some (y, Some h)) -> (forall y, ~ In y P -> forall o h, node hg y <> Some (o, Some h)) ->
  forall l acc, incl l (nodes_to g x) ->
  (returns (fun m => foldM (fgh_supply m g hg x) l acc) (Err TypeError) /\ exists s, In s l /\ ~ In s P) \/
  (exists hs, returns (fun m => foldM (fgh_supply m g hg x) l acc) (Ok (acc ++ hs)) /\ Forall2 (fun s h => node hg s = Some (s, Some h)) l hs).
Proof. intros W AC HP HN. induction l as [|s l IH]; intros acc HI; cbn [foldM].
  - right. exists []. rewrite app_nil_r. split; [apply returns_const; discriminate|constructor].
  - assert (has_edge g s x) as Hsx by (apply (In_to g s x W), HI; left; reflexivity).
    pose proof (has_edge_nodes g s x W Hsx) as [Ns Nx]. destruct (dfs_spec g x s W Nx Ns) as (r & Hr & Hd).
    destruct r as [p|]; [exfalso; destruct Hd as [Hd _]; apply (AC s); exists x; split; [exact Hsx|exists p; exact Hd]|].
    assert (incl l (nodes_to g x)) as HI' by (intros y Hy; apply HI; right; exact Hy).
    destruct (In_dec' s P) as [Hs|Hs].
    + destruct (HP s Hs) as [h Eh]. assert (forall R (k : nat -> list D -> res R) r0, returns (fun m => k m (acc ++ [h])) r0 -> returns (fun m => q <- fgh_supply m g hg x acc s ;; k m q) r0) as Hk.
      { intros R k r0 Hk. refine (returns_bind _ k (acc ++ [h]) _ _ Hk). unfold fgh_supply. refine (returns_bind _ (fun n r => _) None _ Hr _). cbn. rewrite Eh. apply returns_const. discriminate. }
      destruct (IH (acc ++ [h]) HI') as [[IH1 (s1 & IH2 & IH3)]|(hs & IH1 & IH2)].
      * left. split; [apply (Hk _ (fun m q => foldM (fgh_supply m g hg x) l q)), IH1|exists s1; cbn; auto].
      * right. exists (h :: hs). split; [|constructor; assumption]. rewrite <- app_assoc in IH1. apply (Hk _ (fun m q => foldM (fgh_supply m g hg x) l q)), IH1.
    + left. split; [|exists s; cbn; auto]. apply (returns_bind_err _ (fun m q => foldM (fgh_supply m g hg x) l q)). unfold fgh_supply.
      refine (returns_bind _ (fun n r => _) None _ Hr _). cbn. specialize (HN s Hs). destruct (node hg s) as [[o [h|]]|]; [destruct (HN o h eq_refl)| |]; apply returns_const; discriminate. Qed.

Record FInv g (P : list A) (st : list A * hgraph * list A) : Prop := {
  fi_r : reachable (snd (fst st));
  fi_nd : NoDup (P ++ fst (fst st));
  fi_in : forall y, In y (P ++ fst (fst st)) -> In y (nodes g);
  fi_src : forall y, In y (nodes g) -> nodes_to g y = [] -> In y (P ++ fst (fst st));
  fi_vis : forall y, In y (snd st) <-> exists s, In s P /\ has_edge g s y;
  fi_visq : forall y, In y (snd st) -> In y (P ++ fst (fst st));
  fi_pq : forall y, In y (P ++ fst (fst st)) -> nodes_to g y = [] \/ In y (snd st);
  fi_nodes : forall y, In y (nodes (snd (fst st))) <-> In y P \/ In y (snd st);
  fi_val : forall y, In y P -> exists hs, Forall2 (fun s h => node (snd (fst st)) s = Some (s, Some h)) (nodes_to g y) hs /\ node (snd (fst st)) y = Some (y, Some (hashf y hs));
  fi_none : forall y, ~ In y P -> forall o h, node (snd (fst st)) y <> Some (o, Some h) }.

Definition fgh_good g (r : res hgraph) : Prop := exists hg, r = Ok hg /\ (forall y, In y (nodes hg) <-> In y (nodes g)) /\
  forall y, In y (nodes g) -> exists hs, Forall2 (fun s h => node hg s = Some (s, Some h)) (nodes_to g y) hs /\ node hg y = Some (y, Some (hashf y hs)).

Lemma In_supply g s y : wf g -> (In s (nodes_to g y) <-> has_edge g s y).
Proof. intros W. apply In_to, W. Qed.

Lemma fgh_step_inv g P st : wf g -> clean g -> acyclic (has_edge g) -> FInv g P st ->
  exists o, settles (fun m => fgh_step hashf m g st) o /\
    match o with
    | inl st' => exists x, In x (nodes g) /\ ~ In x P /\ FInv g (P ++ [x]) st'
    | inr r => (r = Err TypeError /\ exists y s s', s <> s' /\ has_edge g s y /\ has_edge g s' y) \/ (fgh_good g r)
    end.
Proof. intros W C AC [I1 I2 I3 I4 I5 I6 I7 I8 I9 I10]. destruct st as [[Q hg] vis]. cbn [fst snd] in *. unfold fgh_step. destruct Q as [|x Q].
  - (* finished *)
    rewrite app_nil_r in *. assert (forall y, In y (nodes g) -> In y P) as Hall.
    { intros y Hy. destruct (In_dec' y P) as [h|h]; [exact h|exfalso].
      set (U := filter (fun z => negb (mem z P)) (nodes g)). assert (forall z, In z U <-> In z (nodes g) /\ ~ In z P) as HU.
      { intros z. unfold U. rewrite filter_In, negb_true_iff, mem_notIn. reflexivity. }
      destruct (pred_cycle (has_edge g) U y) as (c & _ & Hc); [apply HU; auto| |exact (AC c Hc)].
      intros z Hz. apply HU in Hz. destruct Hz as [Hz1 Hz2]. destruct (nodes_to g z) as [|s r] eqn:Es; [destruct (Hz2 (I4 z Hz1 Es))|].
      assert (has_edge g s z) as Hsz by (apply (In_to g s z W); rewrite Es; left; reflexivity).
      exists s. split; [|exact Hsz]. apply HU. split; [apply (has_edge_nodes g s z W Hsz)|]. intros Hs. apply Hz2, I6, I5. eauto. }
    set (f := fun (hg0 : hgraph) (sink : A) => _). assert (forall l, incl l (nodes g) -> foldM f l hg = Ok hg) as Hf.
    { induction l as [|z l IH]; intros HI; [reflexivity|]. cbn [foldM]. unfold f at 1. destruct (I9 z) as (hs & _ & ->); [apply Hall, HI; left; reflexivity|]. cbn [bind]. apply IH. intros u Hu. apply HI. right. exact Hu. }
    rewrite Hf.
    + eexists. split; [apply settles_const; discriminate|]. right. exists hg. splits; [reflexivity| |].
      * intros y. rewrite I8. split; [|auto]. intros [?|Hv]; [apply I3; assumption|]. apply I3, I6, Hv.
      * intros y Hy. apply I9, Hall, Hy.
    + intros z Hz. unfold nodes_out_degree in Hz. apply in_map_iff in Hz. destruct Hz as ([z' d] & <- & Hz). apply filter_In in Hz. destruct Hz as [Hz _].
      destruct C as [_ C]. rewrite <- C. apply in_map_iff. exists (z', d). auto.
  - assert (In x (nodes g)) as Nx by (apply I3, in_app_iff; cbn; auto).
    assert (~ In x P) as HxP. { intros h. apply NoDup_app_iff in I2. destruct I2 as (_ & _ & I2). apply (I2 x h). left; reflexivity. }
    destruct (supply_spec g hg x P W AC (fun y Hy => let '(ex_intro _ hs (conj _ E)) := I9 y Hy in ex_intro _ _ E) I10 (nodes_to g x) [] (fun y h => h)) as [[HS (s & Hs1 & Hs2)]|(hs & HS & HF)].
    + exists (inr (Err TypeError)). split.
      * destruct HS as (_ & [N HN] & HD). hnf; splits; [discriminate|exists N; intros n Hn; rewrite HN by exact Hn; reflexivity|]. intros n. destruct (HD n) as [-> | ->]; auto.
      * left. split; [reflexivity|]. destruct (I7 x) as [E|E]; [apply in_app_iff; cbn; auto|rewrite E in Hs1; destruct Hs1|].
        apply I5 in E. destruct E as (s' & Hs' & E). exists x, s, s'. splits; [congruence|apply (In_to g s x W), Hs1|exact E].
    + set (hg1 := add_node hg x (Some (x, Some (hashf x hs)))). cbn [app] in HS.
      assert (forall y, node hg1 y = if eq_dec y x then Some (x, Some (hashf x hs)) else node hg y) as O1 by (intros; apply node_add_node).
      assert (forall y, In y (nodes hg1) <-> y = x \/ In y (nodes hg)) as N1 by (intros; unfold hg1; rewrite nodes_add_node, In_sadd; reflexivity).
      destruct (recv_spec x (nodes_from g x) Q hg1 vis) as (hg' & vis' & new & E & R' & NDn & H1 & H2 & H3 & H4 & H5).
      * apply reachable_add_node, I1.
      * apply N1. auto.
      * apply NoDup_nodes_from, W.
      * intros y Hy Hv. apply (In_from g x y W) in Hy.
        assert (~ In y (P ++ x :: Q)) as Hpq. { intros h. destruct (I7 y h) as [E|E]; [|tauto]. assert (In x (nodes_to g y)) as Hxy by (apply (In_to g x y W), Hy). rewrite E in Hxy. destruct Hxy. }
        rewrite in_app_iff in Hpq. cbn in Hpq. rewrite N1, I8. intuition congruence.
      * exists (inl (Q ++ new, hg', vis')). split.
        { destruct HS as (_ & [N HN] & HD). hnf; splits; [discriminate|exists N; intros n Hn; rewrite HN by exact Hn; cbn [bind]; fold hg1; rewrite E; reflexivity|].
          intros n. destruct (HD n) as [-> | ->]; [left; reflexivity|right; cbn [bind]; fold hg1; rewrite E; reflexivity]. }
        assert (forall y, In y new -> ~ In y (P ++ x :: Q)) as Hnew.
        { intros y Hy h. apply H1 in Hy. destruct Hy as [Hy Hv]. apply (In_from g x y W) in Hy. destruct (I7 y h) as [E'|E']; [|tauto]. assert (In x (nodes_to g y)) as Hxy by (apply (In_to g x y W), Hy). rewrite E' in Hxy. destruct Hxy. }
        assert ((P ++ [x]) ++ Q ++ new = (P ++ x :: Q) ++ new) as EQ by (rewrite <- !app_assoc; reflexivity).
        assert (forall y, In y (P ++ [x]) -> node hg' y = if eq_dec y x then Some (x, Some (hashf x hs)) else node hg y) as Hold.
        { intros y Hy. rewrite H4; [apply O1|]. intros h. apply (Hnew y h). apply in_app_iff in Hy. apply in_app_iff. cbn in *. tauto. }
        assert (Hsup : forall l hs0, Forall2 (fun s h => node hg s = Some (s, Some h)) l hs0 -> Forall2 (fun s h => node hg' s = Some (s, Some h)) l hs0).
        { intros l hs0 HF0. induction HF0 as [|s h l hs0 Hsh HF0 IH]; constructor; [|exact IH]. destruct (In_dec' s P) as [hp|hp]; [|destruct (I10 s hp _ _ Hsh)].
          rewrite Hold by (apply in_app_iff; auto). destruct (eq_dec s x) as [->|]; [tauto|exact Hsh]. }
        exists x. splits; auto. constructor; cbn [fst snd]; try rewrite EQ.
        -- exact R'.
        -- apply NoDup_app_iff. splits; auto. intros y Hy Hy'. apply (Hnew y Hy' Hy).
        -- intros y Hy. apply in_app_iff in Hy. destruct Hy as [Hy|Hy]; [auto|]. apply H1 in Hy. destruct Hy as [Hy _]. apply (In_from g x y W) in Hy. apply (has_edge_nodes g x y W Hy).
        -- intros y Hy Ey. apply in_app_iff. auto.
        -- intros y. rewrite H2, I5, (In_from g x y W). split.
           ++ intros [(s & Hs & E')|E']; [exists s; rewrite in_app_iff; auto|exists x; rewrite in_app_iff; cbn; auto].
           ++ intros (s & Hs & E'). apply in_app_iff in Hs. destruct Hs as [Hs|[<-|[]]]; eauto.
        -- intros y Hy. apply in_app_iff. apply H2 in Hy. destruct (In_dec' y vis) as [hv|hv]; [auto|]. right. apply H1. destruct Hy as [?|Hy]; [tauto|auto].
        -- intros y Hy. rewrite H2. apply in_app_iff in Hy. destruct Hy as [Hy|Hy]; [destruct (I7 y Hy); auto|]. apply H1 in Hy. tauto.
        -- intros y. rewrite H3, N1, I8, H2, in_app_iff. cbn. rewrite H1. destruct (In_dec' y vis); intuition.
        -- intros y Hy. rewrite Hold by exact Hy. apply in_app_iff in Hy. destruct (eq_dec y x) as [->|Hyx].
           ++ exists hs. auto.
           ++ destruct Hy as [Hy|[->|[]]]; [|congruence]. destruct (I9 y Hy) as (hs' & F1 & F2). exists hs'. auto.
        -- intros y Hy o h. destruct (In_dec' y new) as [hn|hn]; [rewrite (H5 y hn); congruence|]. rewrite H4, O1 by exact hn. rewrite in_app_iff in Hy. cbn in Hy.
           destruct (eq_dec y x) as [->|]; [tauto|]. apply I10. tauto. Qed.

Definition fgh_mu g (st : list A * hgraph * list A) : nat :=
  length (filter (fun y => match node (snd (fst st)) y with Some (_, Some _) => false | _ => true end) (nodes g)).
Lemma fgh_mu_eq g P st : FInv g P st -> fgh_mu g st = unseen (nodes g) P.
Proof. intros HI. unfold fgh_mu, unseen. f_equal. apply filter_ext. intros y. destruct (mem_spec y P) as [Hy|Hy].
  - destruct (fi_val _ _ _ HI y Hy) as (hs & _ & ->). reflexivity.
  - pose proof (fi_none _ _ _ HI y Hy) as HN. destruct (node (snd (fst st)) y) as [[o [h|]]|]; [destruct (HN o h eq_refl)| |]; reflexivity. Qed.

Lemma flow_graph_hash_spec g : wf g -> clean g -> acyclic (has_edge g) ->
  exists r, returns (fun n => flow_graph_hash hashf n g) r /\
    ((r = Err TypeError /\ exists y s s', s <> s' /\ has_edge g s y /\ has_edge g s' y) \/ fgh_good g r).
Proof. intros W C AC. unfold flow_graph_hash.
  assert (forall y, In y (nodes_in_degree g 0) <-> In y (nodes g) /\ nodes_to g y = []) as Hsrc.
  { intros y. unfold nodes_in_degree. rewrite in_map_iff. destruct C as [C1 C2].
    assert (NoDup (dkeys (g_indeg g))) as NDi by (rewrite C1; apply W). split.
    - intros ([z d] & <- & Hz). apply filter_In in Hz. destruct Hz as [Hz Hd]. cbn in *. apply Z.eqb_eq in Hd. subst d. split.
      + rewrite <- C1. apply in_map_iff. exists (z, 0%Z). auto.
      + unfold nodes_to. rewrite (wf_deg_zero_in g z W); [reflexivity|]. unfold deg. rewrite (In_dget z 0%Z _ NDi Hz). reflexivity.
    - intros [Hy Ey]. rewrite <- C1 in Hy. destruct (dget_key _ _ Hy) as [d Ed]. exists (y, d). split; [reflexivity|]. apply filter_In. split; [apply dget_In, Ed|]. cbn. apply Z.eqb_eq.
      assert (deg (g_indeg g) y = 0%Z) as E0; [|unfold deg in E0; rewrite Ed in E0; exact E0].
      rewrite C1 in Hy. pose proof (in_degree_node g y W Hy) as HI. destruct (in_degree g y) as [z g'] eqn:EI. unfold in_degree in EI. rewrite Ed in EI. injection EI as <- <-.
      unfold deg. rewrite Ed. pose proof (in_degree_fst g y W) as HF. unfold in_degree in HF. rewrite Ed in HF. cbn in HF. rewrite HF. unfold edges_to. rewrite map_length.
      unfold nodes_to, dkeys in Ey. apply map_eq_nil in Ey. rewrite Ey. reflexivity. }
  assert (NoDup (nodes_in_degree g 0)) as NDs.
  { unfold nodes_in_degree. destruct C as [C1 _]. assert (NoDup (dkeys (g_indeg g))) as NDi by (rewrite C1; apply W). clear - NDi. induction (g_indeg g) as [|[k v] l IH]; [constructor|]. cbn in *. apply NoDup_cons_iff in NDi. destruct NDi as [N1 N2].
    destruct (v =? 0)%Z; [|apply IH, N2]. cbn. constructor; [|apply IH, N2]. intros h. apply N1. apply in_map_iff in h. destruct h as (p & <- & h). apply filter_In in h. apply in_map_iff. exists p. tauto. }
  assert (FInv g [] (nodes_in_degree g 0, empty_graph, [])) as H0.
  { constructor; cbn [fst snd app].
    - apply reachable_empty.
    - exact NDs.
    - intros y Hy. apply Hsrc, Hy.
    - intros y Hy Ey. apply Hsrc. auto.
    - intros y. cbn. split; [tauto|]. intros (s & [] & _).
    - intros y [].
    - intros y Hy. left. apply Hsrc, Hy.
    - intros y. cbn. tauto.
    - intros y [].
    - intros y _ o h. cbn. discriminate. }
  destruct (loop_returns2 (fun m => fgh_step hashf m g) (fun st => exists P, FInv g P st) (fun a b => fgh_mu g a < fgh_mu g b)
    (fun r => (r = Err TypeError /\ exists y s s', s <> s' /\ has_edge g s y /\ has_edge g s' y) \/ fgh_good g r)) with (s := (nodes_in_degree g 0, empty_graph (A := A) (O := A * option D) (V := Z), @nil A)) as (r & Hr & HP).
  - apply well_founded_ltof.
  - intros st [P HI]. destruct (fgh_step_inv g P st W C AC HI) as (o & Ho & HC). exists o. split; [exact Ho|]. destruct o as [st'|r]; [|exact HC].
    destruct HC as (x & Nx & Hx & HI'). split; [eauto|]. rewrite (fgh_mu_eq g P st HI), (fgh_mu_eq g _ st' HI').
    apply (unseen_lt (nodes g) P (P ++ [x]) x); auto; [intros z _ Hz|]; apply in_app_iff; cbn; auto.
  - exists []. exact H0.
  - exists r. split; [|exact HP]. apply (returns2_diag (fun n m => loop n (fgh_step hashf m g) (nodes_in_degree g 0, empty_graph, [])) r Hr). Qed.
End F.
