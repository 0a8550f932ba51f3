(** Facts about partite.py *)
From Verif Require Import Prelude PreludeFacts Base BaseFacts BaseFacts2 BaseFacts3 Spec SpecFacts Loop SearchFacts BaseAlgFacts MiscSpec Partite.

Section F.
Context {A O V : Type} {EA : EqDec A}.
Notation graph := (graph A O V).
Implicit Types (g : graph) (x y : A).

Definition adj g x y : Prop := has_edge g x y \/ has_edge g y x.
Lemma In_neighbours g x y : wf g -> (In y (nodes_from g x ++ nodes_to g x) <-> adj g x y).
Proof. intros W. rewrite in_app_iff, (In_from g x y W), (In_to g y x W). reflexivity. Qed.

(** the two dictionaries agree *)
Definition cn_ok (n : nat) (cn : dict nat (list A)) (nc : dict A nat) : Prop :=
  dkeys cn = seq 0 n /\ (forall x c, dget x nc = Some c -> c < n) /\
  forall c s, dget c cn = Some s -> NoDup s /\ forall x, In x s <-> dget x nc = Some c.
Lemma pt_put_ok n cn nc c x : cn_ok n cn nc -> c < n -> dget x nc = None ->
  exists cn', pt_put cn c x = Ok cn' /\ cn_ok n cn' (dset x c nc).
Proof. intros (H1 & H2 & H3) Hc Hx. unfold pt_put. assert (In c (dkeys cn)) as Hk by (rewrite H1; apply in_seq; lia).
  destruct (dget_key _ _ Hk) as [s Es]. rewrite Es. eexists. split; [reflexivity|]. hnf; splits.
  - rewrite dkeys_dset_in; auto.
  - intros y c' E. rewrite dget_dset in E. destruct (eq_dec y x); [congruence|eauto].
  - intros c0 s0 H. rewrite dget_dset in H. destruct (H3 _ _ Es) as [N1 N2]. destruct (eq_dec c0 c) as [->|Hne].
    + injection H as <-. split; [apply NoDup_sadd, N1|]. intros y. rewrite dget_dset, In_sadd. destruct (eq_dec y x) as [->|Hxy]; [tauto|]. rewrite N2. tauto.
    + destruct (H3 _ _ H) as [N3 N4]. split; [exact N3|]. intros y. rewrite dget_dset, N4. destruct (eq_dec y x) as [->|Hxy]; [|tauto]. rewrite Hx. split; congruence. Qed.

(** what the scan of the neighbours does *)
Lemma pt_scan_spec n colour next visited (f : A -> nat) (bip : Prop) : forall l q cn nc, cn_ok n cn nc -> next < n ->
  (bip -> (forall x, In x l -> f x = next /\ f x <> colour) /\ forall x c, dget x nc = Some c -> f x = c) ->
  (exists r, pt_scan colour next visited l q cn nc = Ok r /\
    match r with
    | None => ~ bip /\ exists x, In x l
    | Some (q', cn', nc') => cn_ok n cn' nc' /\ (forall x c, dget x nc = Some c -> dget x nc' = Some c) /\
        (forall x, In x l -> exists c, dget x nc' = Some c) /\
        (forall x c, dget x nc' = Some c -> dget x nc = Some c \/ In x l) /\
        (bip -> forall x c, dget x nc' = Some c -> f x = c) /\
        (exists new, q' = new ++ q /\ forall x, In x new -> In x l /\ ~ In x visited) /\
        (forall x, In x l -> dget x nc <> None -> dget x nc <> Some colour /\ (In x visited \/ In x q')) /\
        (forall x l1 l2 l3, l = l1 ++ x :: l2 ++ x :: l3 -> dget x nc' <> Some colour /\ (In x visited \/ In x q'))
    end).
Proof. induction l as [|y t IH]; intros q cn nc Hcn Hn Hf; cbn [pt_scan].
  - eexists. split; [reflexivity|]. split; [exact Hcn|]. split; [auto|]. split; [intros x []|]. split; [auto|].
    split; [intros Hb; apply Hf, Hb|]. split; [exists []; split; [reflexivity|intros x []]|]. split; [intros x []|].
    intros x l1 l2 l3 E. destruct l1; discriminate.
  - destruct (dget y nc) as [c|] eqn:Ey.
    + destruct (Nat.eqb_spec c colour) as [->|Hc].
      * eexists. split; [reflexivity|]. split; [|exists y; left; reflexivity]. intros Hb. destruct (Hf Hb) as [F1 F2]. destruct (F1 y (or_introl eq_refl)) as [F3 F4]. apply F4, F2, Ey.
      * destruct (IH (if mem y visited then q else y :: q) cn nc Hcn Hn) as (r & Er & Hr).
        { intros Hb. destruct (Hf Hb) as [F1 F2]. split; [|exact F2]. intros x Hx. apply F1. right; exact Hx. }
        exists r. split; [exact Er|]. destruct r as [[[q' cn'] nc']|]; [|destruct Hr as (R1 & x & R2); split; [exact R1|exists x; right; exact R2]].
        destruct Hr as (R1 & R2 & R3 & R4 & R5 & (new & R6 & R7) & R8 & R9).
        assert (In y visited \/ In y q') as Hq.
        { destruct (mem_spec y visited) as [Hy|Hy]; [left; exact Hy|right]. rewrite R6. apply in_app_iff. right. left. reflexivity. }
        split; [exact R1|]. split; [exact R2|]. split; [|split; [|split; [exact R5|split; [|split]]]].
        -- intros x [<-|Hx]; [exists c; auto|auto].
        -- intros x c' E. destruct (R4 x c' E) as [E'|E']; [left; exact E'|right; right; exact E'].
        -- destruct (mem_spec y visited) as [Hy|Hy].
           ++ exists new. split; [exact R6|]. intros x Hx. destruct (R7 x Hx). split; [right; assumption|assumption].
           ++ exists (new ++ [y]). split; [rewrite <- app_assoc; exact R6|]. intros x Hx. apply in_app_iff in Hx. destruct Hx as [Hx|[<-|[]]].
              ** destruct (R7 x Hx). split; [right; assumption|assumption].
              ** split; [left; reflexivity|exact Hy].
        -- intros x [<-|Hx] Hx0; [split; [congruence|exact Hq]|apply (R8 x Hx Hx0)].
        -- intros x l1 l2 l3 E. destruct l1 as [|z l1]; cbn in E; injection E as -> E; [|apply (R9 x l1 l2 l3 E)].
           rewrite (R2 _ _ Ey). split; [congruence|exact Hq].
    + destruct (pt_put_ok n cn nc next y Hcn Hn Ey) as (cn1 & Ecn1 & Hcn1). rewrite Ecn1. cbn [bind].
      destruct (IH q cn1 (dset y next nc) Hcn1 Hn) as (r & Er & Hr).
      { intros Hb. destruct (Hf Hb) as [F1 F2]. split; [intros x Hx; apply F1; right; exact Hx|].
        intros x c E. rewrite dget_dset in E. destruct (eq_dec x y) as [->|]; [injection E as <-; apply F1; left; reflexivity|apply F2, E]. }
      exists r. split; [exact Er|]. destruct r as [[[q' cn'] nc']|]; [|destruct Hr as (R1 & x & R2); split; [exact R1|exists x; right; exact R2]].
      destruct Hr as (R1 & R2 & R3 & R4 & R5 & (new & R6 & R7) & R8 & R9). 
      assert (forall x c, dget x nc = Some c -> dget x nc' = Some c) as Hmono.
      { intros x c E. apply R2. rewrite dget_dset. destruct (eq_dec x y) as [->|]; [congruence|exact E]. }
      split; [exact R1|]. split; [exact Hmono|]. split; [|split; [|split; [exact R5|split; [|split]]]].
      * intros x [<-|Hx]; [exists next; apply R2; rewrite dget_dset; destruct (eq_dec y y); congruence|auto].
      * intros x c' E. destruct (R4 x c' E) as [E'|E']; [|right; right; exact E']. rewrite dget_dset in E'. destruct (eq_dec x y) as [->|]; [right; left; reflexivity|left; exact E'].
      * exists new. split; [exact R6|]. intros x Hx. destruct (R7 x Hx). split; [right; assumption|assumption].
      * intros x [<-|Hx] Hx0; [congruence|]. destruct (eq_dec x y) as [->|Hxy]; [congruence|].
        destruct (R8 x Hx) as [R10 R11]; [rewrite dget_dset; destruct (eq_dec x y); [congruence|exact Hx0]|]. split; [|exact R11]. rewrite dget_dset in R10. destruct (eq_dec x y); [congruence|exact R10].
      * intros x l1 l2 l3 E. destruct l1 as [|z l1]; cbn in E; injection E as -> E; [|apply (R9 x l1 l2 l3 E)].
        assert (dget x (dset x next nc) = Some next) as E1 by (rewrite dget_dset; destruct (eq_dec x x); congruence).
        destruct (R8 x) as [R10 R11]; [rewrite E; apply in_app_iff; right; left; reflexivity|congruence|]. split; [|exact R11]. rewrite (R2 _ _ E1). congruence. Qed.

(** the loop invariant; [symm] and [bip] switch the parts that need a symmetric (bipartite) graph *)
Record pt_inv g n (start : A) (symm bip : Prop) (f : A -> nat) (st : pt_state) : Prop := {
  pi_cn : let '(q, vis, col, cn, nc) := st in cn_ok n cn nc;
  pi_nodes : let '(q, vis, col, cn, nc) := st in forall x c, dget x nc = Some c -> In x (nodes g);
  pi_q : let '(q, vis, col, cn, nc) := st in forall x, In x q -> exists c, dget x nc = Some c;
  pi_vis : let '(q, vis, col, cn, nc) := st in forall x, In x vis -> exists c, dget x nc = Some c;
  pi_start : let '(q, vis, col, cn, nc) := st in In start vis \/ In start q;
  pi_adj : let '(q, vis, col, cn, nc) := st in symm -> forall x y, In x vis -> adj g x y -> dget y nc <> dget x nc /\ (In y vis \/ In y q);
  pi_col : let '(q, vis, col, cn, nc) := st in bip -> forall x c, dget x nc = Some c -> f x = c }.

Definition pt_mu g (st : @pt_state A) : nat * nat :=
  let '(q, vis, _, _, _) := st in
  (2 * unseen (nodes g) vis - (match q with x :: _ => if mem x vis then 0 else 1 | [] => 0 end), length q).

Lemma adj_dup g x y : wf g -> has_edge g x y -> has_edge g y x -> exists l1 l2 l3, nodes_from g x ++ nodes_to g x = l1 ++ y :: l2 ++ y :: l3.
Proof. intros W H1 H2. apply (In_from g x y W) in H1. apply (In_to g y x W) in H2. apply in_split in H1, H2. destruct H1 as (a & b & ->), H2 as (c & d & ->).
  exists a, (b ++ c), d. rewrite <- !app_assoc. reflexivity. Qed.

Lemma pt_step_inv g n start (symm bip : Prop) f st : wf g -> 1 <= n -> (symm -> forall x y, has_edge g x y -> has_edge g y x) ->
  (bip -> (n = 2 \/ n = 1) /\ colouring g n f) -> pt_inv g n start symm bip f st ->
  match pt_step g n st with
  | inl st' => pt_inv g n start symm bip f st' /\ lt2 (pt_mu g st') (pt_mu g st)
  | inr r => r <> OutOfFuel /\ (r = Ok None /\ ~ bip \/ fst (fst (fst (fst st))) = [] /\ r = Ok (Some (snd (fst st))))
  end.
Proof. intros W Hn Hs Hb [H1 H2 H3 H4 H5 H6 H7]. destruct st as [[[[q vis] col] cn] nc]. cbn [fst snd] in *. unfold pt_step. destruct q as [|n1 q].
  { split; [discriminate|]. right. auto. }
  destruct (H3 n1 (or_introl eq_refl)) as [c1 Ec1]. rewrite Ec1. 
  assert (c1 < n) as Hc1 by (destruct H1 as (_ & H1 & _); eauto).
  assert ((c1 + 1) mod n < n) as Hnext by (apply Nat.mod_upper_bound; lia).
  destruct (pt_scan_spec n c1 ((c1 + 1) mod n) (sadd n1 vis) f bip (nodes_from g n1 ++ nodes_to g n1) q cn nc H1 Hnext) as (r & Er & Hr).
  { intros B. specialize (H7 B). split; [|exact H7]. destruct (Hb B) as (Hn2 & C1 & C2). intros x Hx. apply (In_neighbours g n1 x W) in Hx.
    assert (f n1 = c1) as F1 by (apply H7, Ec1).
    assert (f x <> c1) as F2 by (destruct Hx as [Hx|Hx]; apply C2 in Hx; congruence).
    assert (f x < n) as F3. { apply C1, contains_In. destruct Hx as [Hx|Hx]; apply (has_edge_nodes g _ _ W) in Hx; tauto. }
    split; [|exact F2]. destruct Hn2 as [-> | ->]; [|lia]. destruct c1 as [|[|c1]]; [cbn; lia|cbn; lia|lia]. }
  rewrite Er. destruct r as [[[q' cn'] nc']|].
  2:{ split; [discriminate|]. left. split; [reflexivity|]. tauto. }
  destruct Hr as (R1 & R2 & R3 & R4 & R5 & (new & R6 & R7) & R8 & R9).
  assert (Hn1 : In n1 (nodes g)) by (eapply H2; eauto).
  assert (Hcol : forall x, In x new -> exists c, dget x nc' = Some c) by (intros x Hx; apply R3, R7, Hx).
  split; [constructor|].
  - exact R1.
  - intros x c E. destruct (R4 x c E) as [E'|E']; [eauto|]. apply (In_neighbours g n1 x W) in E'. destruct E' as [E'|E']; apply (has_edge_nodes g _ _ W) in E'; tauto.
  - intros x Hx. rewrite R6 in Hx. apply in_app_iff in Hx. destruct Hx as [Hx|Hx]; [auto|]. destruct (H3 x (or_intror Hx)) as [c E]. exists c. auto.
  - intros x Hx. apply In_sadd in Hx. destruct Hx as [->|Hx]; [exists c1; auto|]. destruct (H4 x Hx) as [c E]. exists c. auto.
  - rewrite In_sadd, R6, in_app_iff. destruct H5 as [H5|[H5|H5]]; auto.
  - intros B x y Hx Hxy. rewrite In_sadd. rewrite In_sadd in Hx. destruct Hx as [->|Hx].
    + assert (has_edge g n1 y /\ has_edge g y n1) as [E1 E2] by (destruct Hxy as [Hxy|Hxy]; split; auto).
      destruct (adj_dup g n1 y W E1 E2) as (l1 & l2 & l3 & El). destruct (R9 y l1 l2 l3 El) as [Q1 Q2]. rewrite (R2 _ _ Ec1). split; [exact Q1|]. rewrite In_sadd in Q2. exact Q2.
    + destruct (H6 B x y Hx Hxy) as [Q1 Q2]. destruct (H4 x Hx) as [cx Ecx]. rewrite (R2 _ _ Ecx). split.
      * assert (exists cy, dget y nc = Some cy) as [cy Ecy] by (destruct Q2 as [Q2|Q2]; auto). rewrite (R2 _ _ Ecy). congruence.
      * rewrite R6, in_app_iff. destruct Q2 as [Q2|[Q2|Q2]]; auto.
  - exact R5.
  - unfold pt_mu, lt2. cbn [fst snd]. destruct (mem_spec n1 vis) as [Hv|Hv].
    + assert (sadd n1 vis = vis) as E by (unfold sadd; apply mem_In in Hv; rewrite Hv; reflexivity). rewrite E in *.
      destruct new as [|y new].
      * cbn [app] in R6. subst q'. cbn [length]. destruct q as [|z q]; [right; cbn; lia|]. destruct (mem_spec z vis); [right; cbn; lia|].
        destruct (unseen (nodes g) vis) eqn:Eu; [right; cbn; lia|left; lia].
      * left. rewrite R6. cbn [app]. destruct (R7 y (or_introl eq_refl)) as [Y1 Y2]. apply mem_notIn in Y2 as Y3. rewrite Y3.
        assert (0 < unseen (nodes g) vis). { destruct (Hcol y (or_introl eq_refl)) as [c E']. assert (In y (nodes g)) as Hy.
          { apply (In_neighbours g n1 y W) in Y1. destruct Y1 as [Y1|Y1]; apply (has_edge_nodes g _ _ W) in Y1; tauto. }
          pose proof (unseen_sadd_lt (nodes g) vis y Hy Y2). lia. } lia.
    + left. pose proof (unseen_sadd_lt (nodes g) vis n1 Hn1 Hv). lia. Qed.

(** the first iteration colours the start with 0 *)
Definition pt_init (n : nat) (start : A) : @pt_state A :=
  ([start], [], 0, map (fun i => (i, if i =? 0 then [start] else [])) (seq 0 n), [(start, 0)]).
Lemma dget_map_seq {X} (h : nat -> X) n k s : dget k (map (fun i => (i, h i)) (seq s n)) = if (s <=? k) && (k <? s + n) then Some (h k) else None.
Proof. revert s. induction n as [|n IH]; intros s; cbn [seq map dget].
  - destruct (Nat.leb_spec s k), (Nat.ltb_spec k (s + 0)); cbn; reflexivity || lia.
  - destruct (eq_dec k s) as [->|Hne].
    + destruct (Nat.leb_spec s s), (Nat.ltb_spec s (s + S n)); cbn; reflexivity || lia.
    + rewrite IH. destruct (Nat.leb_spec s k), (Nat.leb_spec (S s) k), (Nat.ltb_spec k (S s + n)), (Nat.ltb_spec k (s + S n)); cbn; reflexivity || lia. Qed.
Lemma dkeys_map_seq {X} (h : nat -> X) n s : dkeys (map (fun i => (i, h i)) (seq s n)) = seq s n.
Proof. unfold dkeys. rewrite map_map. cbn. apply map_id. Qed.
Lemma pt_first g n start : 1 <= n -> pt_step g n ([start], [], 0, map (fun i => (i, [])) (seq 0 n), []) = pt_step g n (pt_init n start).
Proof. intros Hn. unfold pt_step, pt_init. cbn [dget]. destruct (eq_dec start start) as [_|]; [|congruence]. unfold pt_put.
  rewrite (dget_map_seq (fun _ => [])). cbn [Nat.leb andb]. assert (0 <? 0 + n = true) as -> by (apply Nat.ltb_lt; lia). cbn [bind sadd mem].
  assert (dset 0 ([] ++ [start]) (map (fun i => (i, [])) (seq 0 n)) = map (fun i => (i, if i =? 0 then [start] else [])) (seq 0 n)) as E.
  { destruct n as [|n]; [lia|]. cbn [seq map dset]. destruct (eq_dec 0 0) as [_|]; [|congruence]. cbn [Nat.eqb app]. f_equal. apply map_ext_in. intros i Hi. apply in_seq in Hi.
    destruct (Nat.eqb_spec i 0); [lia|reflexivity]. }
  unfold sadd. cbn [mem]. rewrite E. reflexivity. Qed.

Lemma loop_first {S R} (step : S -> S + res R) s s' n : step s = step s' -> loop n step s = loop n step s'.
Proof. intros E. destruct n; cbn; [reflexivity|]. rewrite E. reflexivity. Qed.

Lemma is_partite_spec pick g n : wf g -> nodes g <> [] -> In (pick (nodes g)) (nodes g) -> 1 <= n ->
  exists r, returns (fun k => is_partite pick k g n) (Ok r) /\
    (r = None -> n <= 2 -> forall f, ~ colouring g n f) /\
    (forall cn, r = Some cn -> (forall x y, has_edge g x y -> has_edge g y x) -> (forall x y, contains g x = true -> contains g y = true -> reach (has_edge g) x y) -> is_partition g n cn).
Proof. intros W Hne Hp Hn. set (start := pick (nodes g)) in *.
  set (symm := forall x y, has_edge g x y -> has_edge g y x).
  assert (Hinit : forall (bip : Prop) f, (bip -> f start = 0) -> pt_inv g n start symm bip f (pt_init n start)).
  { intros bip f Hf. constructor; cbn.
    - hnf. splits.
      + apply (dkeys_map_seq (fun i => if i =? 0 then [start] else [])).
      + intros x c E. cbn in E. destruct (eq_dec x start); [injection E as <-; lia|discriminate].
      + intros c s H. rewrite (dget_map_seq (fun i => if i =? 0 then [start] else [])) in H. destruct (_ && _); [|discriminate]. injection H as <-.
        split; [destruct (c =? 0); repeat constructor; intros []|]. intros x. cbn [dget].
        destruct (Nat.eqb_spec c 0) as [->|Hc], (eq_dec x start) as [->|Hx]; cbn; split; try tauto; try congruence; try (intros [|[]]; congruence).
    - intros x c E. cbn in E. destruct (eq_dec x start) as [->|]; [exact Hp|discriminate].
    - intros x [<-|[]]. destruct (eq_dec start start); [eauto|congruence].
    - intros x [].
    - auto.
    - intros _ x y [].
    - intros B x c E. cbn in E. destruct (eq_dec x start) as [->|]; [injection E as <-; auto|discriminate]. }
  assert (Hstep : forall (bip : Prop) f st, (bip -> (n = 2 \/ n = 1) /\ colouring g n f) -> pt_inv g n start symm bip f st ->
     match pt_step g n st with inl st' => pt_inv g n start symm bip f st' /\ lt2 (pt_mu g st') (pt_mu g st)
       | inr r => r <> OutOfFuel /\ (r = Ok None /\ ~ bip \/ fst (fst (fst (fst st))) = [] /\ r = Ok (Some (snd (fst st)))) end).
  { intros bip f st Hb. apply pt_step_inv; auto. }
  assert (Hrun : forall (bip : Prop) f, (bip -> f start = 0) -> (bip -> (n = 2 \/ n = 1) /\ colouring g n f) ->
    exists r, returns (fun k => loop k (pt_step g n) (pt_init n start)) r /\
      (r = Ok None /\ ~ bip \/ exists st, pt_inv g n start symm bip f st /\ fst (fst (fst (fst st))) = [] /\ r = Ok (Some (snd (fst st))))).
  { intros bip f Hf Hb. apply (loop_returns (pt_step g n) (pt_inv g n start symm bip f) (fun a b => lt2 (pt_mu g a) (pt_mu g b))).
    - apply wf_of, lt2_wf.
    - intros st Hst. specialize (Hstep bip f st Hb Hst). destruct (pt_step g n st) as [st'|r]; [exact Hstep|]. destruct Hstep as [Q1 [Q2|[Q2 Q3]]]; split; eauto 6.
    - apply Hinit, Hf. }
  assert (Ho : forall k, loop k (pt_step g n) (pt_init n start) = is_partite pick k g n).
  { intros k. unfold is_partite. fold start. destruct (nodes g); [congruence|]. symmetry. apply loop_first, pt_first, Hn. }
  destruct (Hrun False (fun _ => 0)) as (r & Hr & HP); [tauto|tauto|].
  assert (exists r', r = Ok r') as [r' ->] by (destruct HP as [[-> _]|(st & _ & _ & ->)]; eauto).
  exists r'. split; [apply (returns_ext _ _ _ Ho Hr)|]. split.
  - intros -> Hn2 f Hf.
    (* swap colours so that the start has colour 0 *)
    set (f' := fun x => if f start =? 0 then f x else 1 - f x).
    assert (f start < n) as Fs by (apply Hf, contains_In, Hp).
    destruct (Hrun True f') as (r2 & Hr2 & HP2).
    + intros _. unfold f'. destruct (Nat.eqb_spec (f start) 0); lia.
    + intros _. split; [lia|]. destruct Hf as [F1 F2]. split.
      * intros x Hx. apply F1 in Hx. unfold f'. destruct (Nat.eqb_spec (f start) 0); lia.
      * intros x y Hxy. pose proof (F2 x y Hxy) as F3. apply (has_edge_nodes g x y W) in Hxy. destruct Hxy as [E1 E2]. apply contains_In in E1, E2. apply F1 in E1, E2.
        unfold f'. destruct (Nat.eqb_spec (f start) 0); lia.
    + pose proof (returns_fun _ _ _ Hr Hr2) as <-. destruct HP2 as [[_ HP2]|(st & _ & _ & E)]; [tauto|discriminate].
  - intros cn -> Hsym Hcon. destruct HP as [[E _]|(st & Hst & Eq & E)]; [discriminate|]. injection E as ->. destruct st as [[[[q vis] col] cn] nc]. cbn [fst snd] in *. subst q.
    destruct Hst as [(H1 & H1' & H1'') H2 _ H4 H5 H6 _]. specialize (H6 Hsym). destruct H5 as [H5|[]].
    assert (Hall : forall x, In x (nodes g) -> In x vis).
    { intros x Hx. apply (reach_closed (has_edge g) start (fun y => In y vis)); [exact H5| |apply Hcon; apply contains_In; assumption].
      intros a b Ha Hab. destruct (H6 a b Ha (or_introl Hab)) as [_ [?|[]]]. assumption. }
    split; [exact H1|]. exists (fun x => match dget x nc with Some c => c | None => 0 end). split; [split|].
    + intros x Hx. apply contains_In, Hall, H4 in Hx. destruct Hx as [c E]. rewrite E. eauto.
    + intros x y Hxy. pose proof (has_edge_nodes g x y W Hxy) as [Hx Hy]. destruct (H6 x y (Hall _ Hx) (or_introl Hxy)) as [Q _].
      destruct (H4 _ (Hall _ Hx)) as [cx Ex], (H4 _ (Hall _ Hy)) as [cy Ey]. rewrite Ex, Ey in *. congruence.
    + intros c s E. destruct (H1'' c s E) as [N1 N2]. split; [exact N1|]. intros x. rewrite N2. split.
      * intros Ex. rewrite Ex. split; [apply contains_In; eauto|reflexivity].
      * intros [Hx Hc]. apply contains_In, Hall, H4 in Hx. destruct Hx as [c' E']. rewrite E' in *. congruence. Qed.
End F.
