(** Facts about cycle.py *)
From Verif Require Import Prelude PreludeFacts Base BaseFacts BaseFacts2 BaseFacts3 Spec SpecFacts Loop SearchFacts BaseAlgFacts Sp SpFacts FlowSpec Flow FlowFacts MaxFlowFacts MiscSpec Cycle.

Section F.
Context {A O : Type} {EA : EqDec A}.
Notation graph := (graph A O Z).
Implicit Types (g : graph) (x y a b : A).

Lemma del_nodes_spec l : forall g, wf g -> exists g', del_nodes g l = Ok g' /\ wf g' /\
  (forall x, In x (nodes g') <-> In x (nodes g) /\ ~ In x l) /\
  (forall x y, edge g' x y = if mem x l || mem y l then None else edge g x y).
Proof. induction l as [|n l IH]; intros g W; unfold del_nodes; cbn [foldM].
  - exists g. splits; auto. intros x. cbn. tauto.
  - destruct (del_node_spec g n W) as (g1 & E1 & W1 & _ & N1 & H1). rewrite E1. cbn [bind].
    destruct (IH g1 W1) as (g' & E' & W' & N' & H'). exists g'. splits; auto.
    + intros x. rewrite N'. unfold nodes. rewrite N1, In_dkeys_ddel by apply W. cbn. intuition.
    + intros x y. rewrite H', H1. cbn [mem]. destruct (eq_dec x n), (eq_dec y n), (mem x l), (mem y l); cbn; reflexivity. Qed.

Lemma nonneg_del g g' l : nonneg g -> (forall x y, edge g' x y = if mem x l || mem y l then None else edge g x y) -> nonneg g'.
Proof. intros H E a b w Hw. rewrite E in Hw. destruct (_ || _); [discriminate|eauto]. Qed.

Lemma wpath_del g g' l a p b d : (forall x y, edge g' x y = if mem x l || mem y l then None else edge g x y) -> ~ In a l ->
  (wpath (edge g') a p b d <-> wpath (edge g) a p b d /\ clear_of l p).
Proof. intros E Ha. split.
  - intros H. induction H as [a|a c p b w d Hac Hp IH].
    + split; [constructor|]. intros x [<-|[]]. exact Ha.
    + rewrite E in Hac. destruct (mem_spec a l), (mem_spec c l) as [|Hc]; cbn in Hac; try discriminate.
      destruct (IH Hc) as [I1 I2]. split; [econstructor; eauto|]. intros x [<-|Hx]; [exact Ha|apply I2, Hx].
  - intros [H C]. induction H as [a|a c p b w d Hac Hp IH]; [constructor|]. econstructor; [|apply IH].
    + rewrite E. apply mem_notIn in Ha as ->. assert (~ In c l) as Hc by (apply C; right; destruct (wpath_head _ _ _ _ _ Hp) as [t ->]; left; reflexivity). apply mem_notIn in Hc as ->. exact Hac.
    + apply C. right. destruct (wpath_head _ _ _ _ _ Hp) as [t ->]. left; reflexivity.
    + intros x Hx. apply C. right. exact Hx. Qed.

Lemma route_in_rest g g' l a b : wf g' -> nonneg g' -> (forall x y, edge g' x y = if mem x l || mem y l then None else edge g x y) ->
  ~ In a l -> In a (nodes g') -> In b (nodes g') ->
  exists d p, returns (fun n => shortest_path n g' a b []) (Ok (d, p)) /\ shortest_route g a b l d p.
Proof. intros W Hn E Ha Na Nb. destruct (shortest_path_spec g' a b [] W Hn Na Nb) as ([d p] & Hr & Hp). exists d, p. split; [exact Hr|].
  unfold sp_post in Hp. unfold shortest_route. destruct d as [z|].
  - destruct Hp as (H1 & _ & H2). apply (wpath_del g g' l a p b z E Ha) in H1. destruct H1 as [H1 H1']. splits; auto.
    intros p' z' Hw Hc. apply (H2 p' z'); [apply (wpath_del g g' l a p' b z' E Ha); auto|]. intros x _ [].
  - destruct Hp as [-> H]. split; [reflexivity|]. intros p' z' Hw Hc. apply (H p' z'); [apply (wpath_del g g' l a p' b z' E Ha); auto|]. intros x _ []. Qed.

Lemma clear_nil (p : list A) : clear_of [] p.
Proof. intros x _ []. Qed.

Lemma removelast_incl (p : list A) : incl (removelast p) p.
Proof. induction p as [|x [|y p] IH]; intros z Hz; [destruct Hz|destruct Hz|]. destruct Hz as [<-|Hz]; [left; reflexivity|right; apply IH, Hz]. Qed.
Lemma NoDup_removelast_last (p : list A) d : NoDup p -> p <> [] -> ~ In (last p d) (removelast p).
Proof. intros N Hne H. rewrite (app_removelast_last d Hne) in N. apply NoDup_app_iff in N. destruct N as (_ & _ & N). apply (N _ H). left; reflexivity. Qed.

(** the outward journey: a simple shortest path *)
Lemma outward g s m : wf g -> nonneg g -> In s (nodes g) -> In m (nodes g) ->
  exists d p, returns (fun n => shortest_path n g s m []) (Ok (d, p)) /\ shortest_route g s m [] d p /\ NoDup p /\
    ~ In m (removelast p) /\ ~ In s (removelast (tl p)) /\ ~ In m (removelast (tl p)).
Proof. intros W Hn Hs Hm. destruct (route_in_rest g g [] s m W Hn (fun x y => eq_refl) (fun h : False => h) Hs Hm) as (d & p & Hr & Hp).
  exists d, p. split; [exact Hr|]. split; [exact Hp|].
  assert (NoDup p) as ND. { destruct Hr as (_ & [N HN] & _). apply (shortest_path_simple N g s m [] d p). apply HN. lia. }
  split; [exact ND|]. destruct d as [z|]; [|destruct Hp as [-> _]; cbn; tauto]. destruct Hp as (Hw & _ & _).
  assert (last p s = m) as EL by (apply (path_last (erel (edge g)) s p m s), (wpath_path _ _ _ _ _ Hw)).
  destruct (wpath_head _ _ _ _ _ Hw) as [t ->]. cbn [tl]. assert (~ In m (removelast (s :: t))) as H1.
  { rewrite <- EL at 1. apply NoDup_removelast_last; [exact ND|discriminate]. }
  apply NoDup_cons_iff in ND. destruct ND as [ND1 ND2]. splits; auto.
  - intros H. apply ND1, removelast_incl, H.
  - intros H. apply H1. destruct t; [destruct H|]. right. exact H. Qed.

Lemma cycle_of_none c g s m : wf g -> nonneg g -> In s (nodes g) -> In m (nodes g) ->
  exists d p d2 p2, returns (fun n => cycle_of c n g s m None) (Ok (p ++ tl p2)) /\ shortest_route g s m [] d p /\ NoDup p /\
    shortest_route g m s (removelast (tl p)) d2 p2.
Proof. intros W Hn Hs Hm. destruct (outward g s m W Hn Hs Hm) as (d & p & Hr & Hp & ND & N1 & N2 & N3).
  destruct (copy_of_spec c g W) as (gc & Ec & Wc & _ & Nc & EE).
  destruct (del_nodes_spec (removelast (tl p)) gc Wc) as (g2 & E2 & W2 & H2 & D2).
  assert (forall x y, edge g2 x y = if mem x (removelast (tl p)) || mem y (removelast (tl p)) then None else edge g x y) as D3 by (intros; rewrite D2, EE; reflexivity).
  assert (forall x, In x (nodes g) -> ~ In x (removelast (tl p)) -> In x (nodes g2)) as H3 by (intros x Hx Hx'; apply H2; split; [rewrite Nc; exact Hx|exact Hx']).
  destruct (route_in_rest g g2 (removelast (tl p)) m s W2 (nonneg_del g g2 _ Hn D3) D3 N3 (H3 _ Hm N3) (H3 _ Hs N2)) as (d2 & p2 & Hr2 & Hp2).
  exists d, p, d2, p2. splits; auto. unfold cycle_of.
  assert (contains g s = true) as -> by (apply contains_In, Hs). assert (contains g m = true) as -> by (apply contains_In, Hm). cbn [negb].
  refine (returns_bind _ (fun n r => _) (d, p) _ Hr _). cbn [snd]. rewrite Ec. cbn [bind]. rewrite E2. cbn [bind].
  refine (returns_bind_ok _ (fun r2 => p ++ tl (snd r2)) (d2, p2) Hr2). Qed.

Lemma cycle_of_some c g s m e : wf g -> nonneg g -> In s (nodes g) -> In m (nodes g) -> In e (nodes g) ->
  exists d p, shortest_route g s m [] d p /\ NoDup p /\
    ((In e (removelast p) /\ returns (fun n => cycle_of c n g s m (Some e)) (Err ValueError)) \/
     (~ In e (removelast p) /\ exists d2 p2, returns (fun n => cycle_of c n g s m (Some e)) (Ok (p ++ tl p2)) /\ shortest_route g m e (removelast p) d2 p2)).
Proof. intros W Hn Hs Hm He. destruct (outward g s m W Hn Hs Hm) as (d & p & Hr & Hp & ND & N1 & N2 & N3).
  destruct (copy_of_spec c g W) as (gc & Ec & Wc & _ & Nc & EE).
  destruct (del_nodes_spec (removelast p) gc Wc) as (g2 & E2 & W2 & H2 & D2).
  assert (forall x y, edge g2 x y = if mem x (removelast p) || mem y (removelast p) then None else edge g x y) as D3 by (intros; rewrite D2, EE; reflexivity).
  assert (forall x, In x (nodes g) -> ~ In x (removelast p) -> In x (nodes g2)) as H3 by (intros x Hx Hx'; apply H2; split; [rewrite Nc; exact Hx|exact Hx']).
  exists d, p. splits; auto. unfold cycle_of.
  assert (contains g s = true) as -> by (apply contains_In, Hs). assert (contains g m = true) as -> by (apply contains_In, Hm).
  assert (contains g e = true) as -> by (apply contains_In, He). cbn [negb].
  destruct (In_dec' e (removelast p)) as [Hin|Hin]; [left|right]; (split; [exact Hin|]).
  - refine (returns_bind _ (fun n r => _) (d, p) _ Hr _). cbn [snd]. rewrite Ec. cbn [bind]. rewrite E2. cbn [bind].
    assert (forall n, shortest_path n g2 m e [] = Err ValueError) as E.
    { intros n. unfold shortest_path. assert (contains g2 e = false) as -> by (apply contains_notIn; rewrite H2; tauto). destruct (contains g2 m); reflexivity. }
    apply (returns_ext (fun _ => Err ValueError)); [intros n; rewrite E; reflexivity|]. apply returns_const. discriminate.
  - destruct (route_in_rest g g2 (removelast p) m e W2 (nonneg_del g g2 _ Hn D3) D3 N1 (H3 _ Hm N1) (H3 _ He Hin)) as (d2 & p2 & Hr2 & Hp2).
    exists d2, p2. split; [|exact Hp2]. refine (returns_bind _ (fun n r => _) (d, p) _ Hr _). cbn [snd]. rewrite Ec. cbn [bind]. rewrite E2. cbn [bind].
    refine (returns_bind_ok _ (fun r2 => p ++ tl (snd r2)) (d2, p2) Hr2). Qed.

Lemma cycle_walk g s m e S d p d2 p2 : shortest_route g s m [] (Fin d) p -> shortest_route g m e S (Fin d2) p2 -> wpath (edge g) s (p ++ tl p2) e (d + d2).
Proof. intros (H1 & _) (H2 & _). destruct (wpath_head _ _ _ _ _ H2) as [t ->]. cbn [tl]. eapply wpath_app; eauto. Qed.
End F.
Notation cycle_none := (cycle_of_none IsGraph).
Notation cycle_some := (cycle_of_some IsGraph).
