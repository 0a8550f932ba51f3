(** Property theorems C99 (distance_map with float edge values). *)
From Coq Require Import SpecFloat.
From Verif Require Import Prelude PreludeFacts Base BaseFacts BaseFacts2 BaseFacts3 Spec SpecFacts Loop SearchFacts BaseAlgFacts SpFacts Fw FwFacts GSp GSpec GSpFacts Float64 FloatSpec FwFloat NearFloat PropsFloat PropsFloat2 GDm GDmFacts.

Section P.
Context {A O : Type} {EA : EqDec A}.
(** what the answer M of a search from the nodes src must satisfy: links E, sums ar *)
Definition map_of_walks {W} (ar : arith W) (E : A -> A -> option W) (src : list A) (M : dict A W) : Prop :=
  forall x v, dget x M = Some v -> exists s p, In s src /\ lpath ar E s p x v.
Definition least_if_uniform {W} (ar : arith W) (good : W -> Prop) (E : A -> A -> option W) (src : list A) (M : dict A W) : Prop :=
  forall w, good w -> (forall a b d, E a b = Some d -> d = w) ->
  forall x v s p d, dget x M = Some v -> In s src -> lpath ar E s p x d -> a_ltb ar d v = false.

Section G.
Context {W : Type} (ar : arith W) (good : W -> Prop) (rk : W -> nat).
Implicit Types (g : graph A O W).
(** forward: exactly the nodes that are reachable from some start; every value is the sum, from left to right, of the edge
    values of a walk from a start; if all edge values are the same number, no walk has a smaller sum.  With [ends] the search
    may stop early: then the starts and the reachable ends have values. *)
Theorem C99_forward_rounded g ord starts ends : lawful ar good -> lawful2 ar good rk -> reachable g -> good_edges good g -> (forall l, Permutation (ord l) l) ->
  (forall x, In x starts -> contains g x = true) -> (forall t x, ends = Some t -> In x t -> contains g x = true) ->
  exists M, returns (fun n => gdistance_map ar ord n g (Some starts) ends false) (Ok M) /\
    map_of_walks ar (edge g) starts M /\
    (forall s x, In s starts -> reach (has_edge g) s x -> match ends with None => True | Some t => In x t \/ In x starts end -> exists v, dget x M = Some v) /\
    least_if_uniform ar good (edge g) starts M.
Proof. intros L L2 R G Ho Hs He. pose proof (reachable_wf _ R) as Wf. unfold gdistance_map.
  assert (existsb (fun n => negb (contains g n)) starts = false) as Hb.
  { apply Bool.not_true_iff_false. intros C. apply existsb_exists in C. destruct C as (x & Hx & C). rewrite (Hs x Hx) in C. discriminate. }
  assert (existsb (fun n => negb (contains g n)) (match ends with Some l => l | None => [] end) = false) as Hb'.
  { apply Bool.not_true_iff_false. intros C. apply existsb_exists in C. destruct C as (x & Hx & C). destruct ends as [t|]; [|destruct Hx]. rewrite (He t x eq_refl Hx) in C. discriminate. }
  assert (forall x, In x (ord (set_of starts)) <-> In x starts) as Hq.
  { intros x. split; intros H; [apply (Permutation_in _ (Ho _)) in H; apply In_set_of; exact H|]. apply (Permutation_in _ (Permutation_sym (Ho _))), In_set_of, H. }
  destruct (gdm_loop_spec ar good rk L L2 false (fun n => map (fun e => (snd (fst e), snd e)) (edges_from g n)) (edge g) (nodes g) starts ends) with (q0 := ord (set_of starts)) (M0 := map (fun n : A => (n, a_zero ar)) (ord (set_of starts))) as (M & HM & P1 & P2 & P3).
  - intros n _ y d. rewrite in_map_iff. split.
    + intros ([[a b] v] & Eq & Hin). cbn in Eq. inv Eq. apply In_edges_from in Hin; [|exact Wf]. destruct Hin as (b' & v' & Eq & H'). inv Eq. exact H'.
    + intros H. exists (n, y, d). split; [reflexivity|]. apply In_edges_from; eauto.
  - intros x y d H. apply (edge_nodes g x y d Wf H).
  - exact G.
  - apply gdmi_init; [exact L|intros x Hx; apply contains_In, Hs, Hx|exact Hq].
  - exists M. splits.
    + destruct ends as [t|]; cbv beta iota; rewrite Hb, Hb'; exact HM.
    + exact P1.
    + intros s x Hs' Hx Ht. apply dget_key. eapply P2; eauto.
    + intros w Gw Hw x v s p d Hv Hs' Hp. apply (P3 w (conj Gw Hw) x v s p d Hv Hs' Hp). Qed.
(** reverse: the same along the links taken backwards *)
Theorem C99_reverse_rounded g ord starts ends : lawful ar good -> lawful2 ar good rk -> reachable g -> good_edges good g -> (forall l, Permutation (ord l) l) ->
  (forall x, In x ends -> contains g x = true) -> (forall t x, starts = Some t -> In x t -> contains g x = true) ->
  exists M, returns (fun n => gdistance_map ar ord n g starts (Some ends) true) (Ok M) /\
    map_of_walks ar (gflip (edge g)) ends M /\
    (forall e x, In e ends -> reach (has_edge g) x e -> match starts with None => True | Some t => In x t \/ In x ends end -> exists v, dget x M = Some v) /\
    least_if_uniform ar good (gflip (edge g)) ends M.
Proof. intros L L2 R G Ho Hs He. pose proof (reachable_wf _ R) as Wf. unfold gdistance_map.
  assert (existsb (fun n => negb (contains g n)) ends = false) as Hb.
  { apply Bool.not_true_iff_false. intros C. apply existsb_exists in C. destruct C as (x & Hx & C). rewrite (Hs x Hx) in C. discriminate. }
  assert (existsb (fun n => negb (contains g n)) (match starts with Some l => l | None => [] end) = false) as Hb'.
  { apply Bool.not_true_iff_false. intros C. apply existsb_exists in C. destruct C as (x & Hx & C). destruct starts as [t|]; [|destruct Hx]. rewrite (He t x eq_refl Hx) in C. discriminate. }
  assert (forall x, In x (ord (set_of ends)) <-> In x ends) as Hq.
  { intros x. split; intros H; [apply (Permutation_in _ (Ho _)) in H; apply In_set_of; exact H|]. apply (Permutation_in _ (Permutation_sym (Ho _))), In_set_of, H. }
  destruct (gdm_loop_spec ar good rk L L2 true (fun n => map (fun e => (fst (fst e), snd e)) (edges_to g n)) (gflip (edge g)) (nodes g) ends starts) with (q0 := ord (set_of ends)) (M0 := map (fun n : A => (n, a_zero ar)) (ord (set_of ends))) as (M & HM & P1 & P2 & P3).
  - intros n _ y d. rewrite in_map_iff. split.
    + intros ([[a b] v] & Eq & Hin). cbn in Eq. inv Eq. apply In_edges_to in Hin; [|exact Wf]. destruct Hin as (b' & v' & Eq & H'). inv Eq. exact H'.
    + intros H. exists (y, n, d). split; [reflexivity|]. apply In_edges_to; eauto.
  - intros x y d H. apply (edge_nodes g y x d Wf H).
  - intros x y d H. apply (G _ _ _ H).
  - apply gdmi_init; [exact L|intros x Hx; apply contains_In, Hs, Hx|exact Hq].
  - exists M. splits.
    + destruct starts as [t|]; cbv beta iota; rewrite Hb, Hb'; exact HM.
    + exact P1.
    + intros e x He' Hx Ht. apply dget_key. eapply P2; [exact He'| |exact Ht]. apply reach_rev in Hx. exact Hx.
    + intros w Gw Hw x v s p d Hv Hs' Hp. apply (P3 w (conj Gw Hw) x v s p d Hv Hs' Hp). Qed.
(** unknown nodes and senseless combinations of arguments *)
Theorem C99_bad_arguments_partial g ord n starts ends rv :
  (starts = None /\ ends = None) \/ (starts = None /\ rv = false) \/ (ends = None /\ rv = true) \/
  (exists l x, (starts = Some l \/ ends = Some l) /\ In x l /\ contains g x = false) ->
  gdistance_map ar ord n g starts ends rv = Err ValueError.
Proof. intros H. unfold gdistance_map.
  assert (forall l x, In x l -> contains g x = false -> existsb (fun n => negb (contains g n)) l = true) as HX.
  { intros l x Hx Hc. apply existsb_exists. exists x. rewrite Hc. auto. }
  destruct H as [[-> ->]|[[-> ->]|[[-> ->]|(l & x & Hl & Hx & Hc)]]].
  - reflexivity.
  - destruct ends; reflexivity.
  - destruct starts; reflexivity.
  - specialize (HX l x Hx Hc). destruct Hl as [-> | ->].
    + destruct ends as [e|], rv; try reflexivity; rewrite HX; reflexivity.
    + destruct starts as [e|], rv; try reflexivity; rewrite HX; try (destruct (existsb _ e); reflexivity). reflexivity. Qed.
End G.

(** ** floats *)
Implicit Types (g : graph A O spec_float).
(** forward on floats: the value of x is the float sum of a walk from a start s; it is not less than the distance that
    shortest_path gives for (s, x), equals what distance_from_path gives for that walk, and is the exact length of the walk up to one
    rounding per edge *)
Theorem C99_forward_floats_partial g ord starts ends : reachable g -> good_edges f64_good g -> (forall l, Permutation (ord l) l) ->
  (forall x, In x starts -> contains g x = true) -> (forall t x, ends = Some t -> In x t -> contains g x = true) ->
  exists M, returns (fun n => gdistance_map f64 ord n g (Some starts) ends false) (Ok M) /\
    (forall x v, dget x M = Some v -> exists s p, In s starts /\ lpath f64 (edge g) s p x v /\
       returns (fun n => gdistance_from_path f64 n g p) (Ok v) /\
       (exists d q, returns (fun n => gshortest_path f64 n g s x []) (Ok (d, q)) /\ SFltb v d = false) /\
       exists X, exact_length g s p x X /\ near_ext (Z.of_nat (length p - 1)) X (ival 53 1024 v)) /\
    (forall s x, In s starts -> reach (has_edge g) s x -> match ends with None => True | Some t => In x t \/ In x starts end -> exists v, dget x M = Some v) /\
    least_if_uniform f64 f64_good (edge g) starts M.
Proof. intros R G Ho Hs He. destruct (C99_forward_rounded f64 f64_good frk g ord starts ends f64_lawful f64_lawful2 R G Ho Hs He) as (M & HR & H1 & H2 & H3).
  exists M. splits; auto. intros x v Hv. destruct (H1 x v Hv) as (s & p & Hs' & Hp). exists s, p. splits; auto.
  - eapply C86_distance_from_path; eauto.
  - assert (In x (nodes g)) as Hx by (eapply (lpath_nodes f64 g s p x v); eauto using reachable_wf; apply contains_In, Hs, Hs').
    destruct (C86_shortest_path_floats g s x [] R G (Hs s Hs') (proj2 (contains_In g x) Hx)) as (d & q & Hr & [(_ & _ & _ & Hm)|(_ & _ & Hm)]); exists d, q; split; auto.
    + apply (Hm p v Hp). intros ? _ [].
    + exfalso. apply (Hm p v Hp). intros ? _ [].
  - destruct (near g s p x v G Hp) as (X & HX & HN). exists X. split; [exact HX|]. unfold near_ext. destruct X as [z|]; [|exact HN]. destruct HN as [_ HN]. exact HN. Qed.
(** reverse on floats: the sum is added up from the end *)
Theorem C99_reverse_floats_partial g ord starts ends : reachable g -> good_edges f64_good g -> (forall l, Permutation (ord l) l) ->
  (forall x, In x ends -> contains g x = true) -> (forall t x, starts = Some t -> In x t -> contains g x = true) ->
  exists M, returns (fun n => gdistance_map f64 ord n g starts (Some ends) true) (Ok M) /\
    map_of_walks f64 (gflip (edge g)) ends M /\
    (forall e x, In e ends -> reach (has_edge g) x e -> match starts with None => True | Some t => In x t \/ In x ends end -> exists v, dget x M = Some v) /\
    least_if_uniform f64 f64_good (gflip (edge g)) ends M.
Proof. intros R G Ho Hs He. exact (C99_reverse_rounded f64 f64_good frk g ord starts ends f64_lawful f64_lawful2 R G Ho Hs He). Qed.
End P.

(** the values are not shortest distances: a node is expanded once, before its distance is final.  1 -> 2 of 0.6, 1 -> 3 and 3 -> 2 of
    0.1, 2 -> 4 of 0.2: the value of 4 is 0.8, although 1 -> 3 -> 2 -> 4 sums to 0.4 *)
Definition ops_fm : list (op nat unit spec_float) := [OpAddEdge 1 2 f06 false; OpAddEdge 1 3 f01 false; OpAddEdge 3 2 f01 false; OpAddEdge 2 4 f02 false].
Definition g_fm : graph nat unit spec_float := ok_or empty_graph (run ops_fm).
Lemma fm_ok : reachable g_fm /\ good_edges f64_good g_fm.
Proof. assert (reachable g_fm) as R by (exists ops_fm; vm_compute; reflexivity). split; [exact R|]. apply good_check; [apply reachable_wf, R|vm_compute; reflexivity]. Qed.
Theorem C99_shortest_refuted : reachable g_fm /\ good_edges f64_good g_fm /\
  (forall n, exists M, gdistance_map f64 (fun l => l) (6 + n) g_fm (Some [1]) None false = Ok M /\ dget 4 M = Some (a_add f64 f06 f02)) /\
  gshortest_path f64 50 g_fm 1 4 [] = Ok (a_add f64 f02 f02, [1; 3; 2; 4]) /\ SFltb (a_add f64 f02 f02) (a_add f64 f06 f02) = true.
Proof. destruct fm_ok as [R G]. splits; auto; try (vm_compute; reflexivity). intros n. eexists. split; vm_compute; reflexivity. Qed.
(** the hypotheses of the theorems hold for it; and a graph with one edge value: 1 -0.1-> 2 -0.1-> 3 -0.1-> 4 and 1 -0.1-> 3: 3 has the value 0.1,
    and 4 the value 0.2 *)
Definition ops_uni : list (op nat unit spec_float) := [OpAddEdge 1 2 f01 false; OpAddEdge 2 3 f01 false; OpAddEdge 3 4 f01 false; OpAddEdge 1 3 f01 false].
Definition g_uni : graph nat unit spec_float := ok_or empty_graph (run ops_uni).
Example ex_uniform : reachable g_uni /\ good_edges f64_good g_uni /\ f64_good f01 /\ (forall a b d, edge g_uni a b = Some d -> d = f01) /\
  gdistance_map f64 (fun l => l) 20 g_uni (Some [1]) None false = Ok [(1, S754_zero false); (2, f01); (3, f01); (4, f02)] /\
  gdistance_map f64 (fun l => l) 20 g_uni None (Some [4]) true = Ok [(4, S754_zero false); (3, f01); (2, f02); (1, f02)].
Proof. assert (reachable g_uni) as R by (exists ops_uni; vm_compute; reflexivity). pose proof (reachable_wf _ R) as Wf. splits; auto; try (vm_compute; reflexivity).
  - apply good_check; [exact Wf|vm_compute; reflexivity].
  - split; vm_compute; reflexivity.
  - intros a b d H. assert (In (a, b, d) (edges g_uni)) as Hin by (apply In_edges; auto). vm_compute in Hin. change f01 with (S754_finite false 7205759403792794 (-56)). repeat destruct Hin as [Hin|Hin]; try contradiction; inversion Hin; reflexivity. Qed.
