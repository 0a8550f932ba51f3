(** Facts about tours: lengths, brute force *)
From Verif Require Import Prelude PreludeFacts Base BaseFacts BaseFacts2 BaseFacts3 Spec SpecFacts Loop SearchFacts BaseAlgFacts Sp SpFacts Perms TspSpec Tsp.
Local Open Scope Z_scope.

Section Facts.
Context {A O : Type} {EA : EqDec A}.
Notation graph := (graph A O Z).
Implicit Types (g : graph) (t : list A).

(** ** sums along edges *)
Fixpoint psum g (ps : list (A * A)) : option Z :=
  match ps with [] => Some 0 | p :: r => match edge g (fst p) (snd p), psum g r with Some a, Some b => Some (a + b) | _, _ => None end end.
Lemma esum_psum g ps : esum g ps = match psum g ps with Some z => Ok z | None => Err TypeError end.
Proof. unfold esum. assert (forall acc, foldM (fun acc p => match edge g (fst p) (snd p) with Some d => Ok (acc + d) | None => Err TypeError end) ps acc = match psum g ps with Some z => Ok (acc + z) | None => Err TypeError end) as H.
  { induction ps as [|p ps IH]; intros acc; cbn [foldM psum]; [f_equal; lia|]. destruct (edge g (fst p) (snd p)) as [d|]; [|reflexivity]. cbn [bind]. rewrite IH. destruct (psum g ps); [f_equal; lia|reflexivity]. }
  rewrite H. destruct (psum g ps); reflexivity. Qed.
Lemma psum_app g p q : psum g (p ++ q) = match psum g p, psum g q with Some a, Some b => Some (a + b) | _, _ => None end.
Proof. induction p as [|x p IH]; cbn [psum app]; [destruct (psum g q); [f_equal; lia|reflexivity]|]. rewrite IH. destruct (edge g (fst x) (snd x)), (psum g p), (psum g q); try reflexivity. f_equal. lia. Qed.
Lemma walk_psum g t : forall x y, walk_length g x (t ++ [y]) = psum g (combine (x :: t) (t ++ [y])).
Proof. induction t as [|z t IH]; intros x y; cbn [walk_length app]; [cbn; destruct (edge g x y); reflexivity|]. rewrite IH. cbn [combine psum fst snd]. reflexivity. Qed.
Lemma combine_close t : forall (x y : A), combine (x :: t) (t ++ [y]) = combine (x :: t) t ++ [(last (x :: t) x, y)].
Proof. induction t as [|z t IH]; intros x y; [reflexivity|]. cbn [app]. change (combine (x :: z :: t) (z :: t ++ [y])) with ((x, z) :: combine (z :: t) (t ++ [y])); rewrite IH. cbn [combine app]. f_equal. f_equal. f_equal. f_equal. symmetry. apply (last_indep t z x z). Qed.
Lemma distance_spec g t : distance g t = match tour_length g t with Some z => Ok z | None => Err TypeError end.
Proof. unfold distance. rewrite esum_psum. destruct t as [|h r]; [reflexivity|]. unfold tour_length, zipwalk. rewrite walk_psum, combine_close, psum_app. cbn [psum fst snd]. destruct (edge g (last (h :: r) h) h) as [d|]; [|destruct (psum g (combine (h :: r) r)); reflexivity].
  destruct (psum g (combine (h :: r) r)); [f_equal; lia|reflexivity]. Qed.

(** ** travel lengths *)
Lemma legs_app g p : forall x q d, legs g x (p ++ q) d <-> exists d1 d2, legs g x p d1 /\ legs g (last p x) q d2 /\ d = ext_add d1 d2.
Proof. induction p as [|y p IH]; intros x q d; cbn [app].
  - split; [intros H; exists (Fin 0), d; splits; [apply legs_nil|exact H|destruct d; reflexivity]|]. intros (d1 & d2 & H1 & H2 & ->). inversion H1; subst. cbn [last] in H2. destruct d2; exact H2.
  - assert (last (y :: p) x = last p y) as El. { destruct p as [|z p]; [reflexivity|]. apply (last_indep p z). } rewrite El. split.
    + intros H. inversion H as [|a b l d1 d2 L1 L2]; subst. apply IH in L2. destruct L2 as (e1 & e2 & H1 & H2 & ->). exists (ext_add d1 e1), e2. splits; [apply legs_cons; assumption|exact H2|symmetry; apply ext_add_assoc].
    + intros (e1 & e2 & H1 & H2 & ->). inversion H1 as [|a b l d1 d2 L1 L2]; subst. rewrite ext_add_assoc. apply legs_cons; [exact L1|]. apply IH. eauto. Qed.
Lemma ext_add_comm (x y : ext) : ext_add x y = ext_add y x.
Proof. destruct x, y; cbn; try reflexivity. f_equal. lia. Qed.
(** the starting point of a closed tour does not matter *)
Lemma travel_rotate g p q d : travel_length g (p ++ q) d -> travel_length g (q ++ p) d.
Proof. destruct p as [|h p]; [rewrite app_nil_r; auto|]. destruct q as [|k q]; [rewrite app_nil_r; auto|]. unfold travel_length. cbn [app]. rewrite <- !app_assoc. cbn [app]. intros H.
  change (p ++ k :: q ++ [h]) with (p ++ (k :: nil) ++ (q ++ [h])) in H. rewrite app_assoc in H. apply legs_app in H. destruct H as (d1 & d2 & H1 & H2 & ->). rewrite last_last in H2.
  change (q ++ h :: p ++ [k]) with (q ++ (h :: nil) ++ (p ++ [k])). rewrite app_assoc, ext_add_comm. apply legs_app. exists d2, d1. rewrite last_last. auto. Qed.

(** ** brute force *)
Lemma picks_head (l : list A) : Forall (fun p => In (fst p) l) (picks l).
Proof. apply Forall_forall. intros [y r] H. apply picks_perm in H. cbn. apply (Permutation_in _ H). left. reflexivity. Qed.
Lemma perms_split (h : A) rest : ~ In h rest -> exists others, permutations (h :: rest) = map (cons h) (permutations rest) ++ others /\ forall r, In r others -> exists x r', r = x :: r' /\ x <> h.
Proof. intros Hn. unfold permutations. cbn [length perms_n picks flat_map fst snd]. eexists. split; [reflexivity|]. intros r Hr. apply in_flat_map in Hr. destruct Hr as ([x l] & H1 & H2). cbn [fst snd] in H2. apply in_map_iff in H2. destruct H2 as (r' & <- & _). exists x, r'. split; [reflexivity|].
  apply in_map_iff in H1. destruct H1 as ([y l'] & E & H1). cbn in E. injection E as <- <-. pose proof (picks_head rest) as HF. rewrite Forall_forall in HF. specialize (HF _ H1). cbn in HF. congruence. Qed.
Lemma bf_loop_spec g h others : wf g -> nonneg g -> In h (nodes g) -> (forall r, In r others -> exists x r', r = x :: r' /\ x <> h) -> forall ps st, (forall p, In p ps -> forall x, In x p -> In x (nodes g)) ->
  exists st', returns (fun n => bf_loop n g h (map (cons h) ps ++ others) st) (Ok st') /\ fst st' <= fst st /\
    (forall p z, In p ps -> travel_length g (h :: p) (Fin z) -> fst st' <= z) /\
    (st' = st \/ exists p, In p ps /\ snd st' = Some (h :: p) /\ travel_length g (h :: p) (Fin (fst st')) /\ fst st' < fst st).
Proof. intros W N Hh Ho. induction ps as [|p ps IH]; intros st Hp; cbn [map app].
  - exists st. splits; auto; try lia; [|intros p z []]. destruct others as [|r others]; [apply returns_const; discriminate|]. destruct (Ho r (or_introl eq_refl)) as (x & r' & -> & Hx). cbn [bf_loop]. destruct (eq_dec x h); [contradiction|]. apply returns_const. discriminate.
  - destruct (distance_from_path_spec g h (p ++ [h]) W N Hh) as (d & Hl & Hr). { intros x Hx. apply in_app_iff in Hx. destruct Hx as [Hx|[<-|[]]]; [apply (Hp p (or_introl eq_refl)), Hx|exact Hh]. }
    set (st1 := if ext_ltb d (Fin (fst st)) then match d with Fin z => (z, Some (h :: p)) | Inf => st end else st).
    destruct (IH st1) as (st' & R1 & R2 & R3 & R4). { intros q Hq. apply Hp. right. exact Hq. }
    assert (fst st1 <= fst st /\ (forall z, d = Fin z -> fst st1 <= z) /\ (st1 = st \/ exists z, d = Fin z /\ st1 = (z, Some (h :: p)) /\ z < fst st)) as (S1 & S2 & S3).
    { unfold st1. destruct d as [z|]; cbn [ext_ltb]; [|splits; auto; [lia|discriminate]]. destruct (Z.ltb_spec z (fst st)); cbn [fst]; splits; auto; try lia; try (intros ? E; injection E as <-; lia). right. exists z. auto. }
    exists st'. splits.
    + cbn [bf_loop]. destruct (eq_dec h h); [|congruence]. refine (returns_bind _ (fun n d => bf_loop n g h (map (cons h) ps ++ others) (if ext_ltb d (Fin (fst st)) then match d with Fin z => (z, Some (h :: p)) | Inf => st end else st)) d _ Hr R1).
    + lia.
    + intros q z [<-|Hq] Hz; [|apply (R3 q z Hq Hz)]. rewrite (legs_fun _ _ _ _ _ Hl Hz) in S2. specialize (S2 z eq_refl). lia.
    + destruct R4 as [->|(q & Q1 & Q2 & Q3 & Q4)]; [|right; exists q; splits; auto; [right; exact Q1|lia]]. destruct S3 as [->|(z & -> & -> & S3)]; [auto|]. right. exists p. cbn [fst snd]. splits; auto. left. reflexivity. Qed.
(** the tours that start at the first node are enough *)
Lemma tour_from_head g h rest t d : nodes g = h :: rest -> hamiltonian g t -> travel_length g t d -> exists p, Permutation p rest /\ travel_length g (h :: p) d.
Proof. intros E Ht Hd. unfold hamiltonian in Ht. rewrite E in Ht. assert (In h t) as Hi by (apply (Permutation_in _ (Permutation_sym Ht)); left; reflexivity). apply in_split in Hi. destruct Hi as (l1 & l2 & ->). exists (l2 ++ l1). split.
  - apply (Permutation_cons_inv (a := h)). rewrite <- Ht. rewrite <- Permutation_middle. constructor. apply Permutation_app_comm.
  - apply (travel_rotate g l1 (h :: l2) d Hd). Qed.
Lemma brute_force_spec g : wf g -> nonneg g -> nodes g <> [] -> exists r, returns (fun n => brute_force n g) r /\
  ((exists d t, r = Ok (d, t) /\ hamiltonian g t /\ travel_length g t (Fin d) /\ d < maxsize /\ forall t' e, hamiltonian g t' -> travel_length g t' e -> ext_le (Fin d) e) \/
   (r = Err UnboundLocalError /\ forall t' z, hamiltonian g t' -> travel_length g t' (Fin z) -> maxsize <= z)).
Proof. intros W N Hne. unfold brute_force. destruct (nodes g) as [|h rest] eqn:E; [congruence|]. pose proof (wf_nodes _ W) as ND. rewrite E in ND. apply NoDup_cons_iff in ND. destruct ND as [Hh ND].
  destruct (perms_split h rest Hh) as (others & Ep & Ho).
  destruct (bf_loop_spec g h others W N) with (ps := permutations rest) (st := (maxsize, @None (list A))) as (st & R1 & R2 & R3 & R4); auto.
  { rewrite E. left. reflexivity. } { intros p Hp x Hx. rewrite E. right. apply In_permutations in Hp. apply (Permutation_in _ Hp), Hx. }
  rewrite <- Ep in R1. destruct R4 as [->|(p & P1 & P2 & P3 & P4)].
  - exists (Err UnboundLocalError). split.
    + refine (returns_bind _ (fun n st => match snd st with None => Err UnboundLocalError | Some p => Ok (fst st, p) end) (maxsize, None) _ R1 _). apply returns_const. discriminate.
    + right. split; [reflexivity|]. intros t z Ht Hz. destruct (tour_from_head g h rest t (Fin z) E Ht Hz) as (q & Q1 & Q2). apply (R3 q z); [apply In_permutations, Q1|exact Q2].
  - exists (Ok (fst st, h :: p)). split.
    + refine (returns_bind _ (fun n st => match snd st with None => Err UnboundLocalError | Some p => Ok (fst st, p) end) st _ R1 _). rewrite P2. apply returns_const. discriminate.
    + left. exists (fst st), (h :: p). apply In_permutations in P1. splits; auto.
      * unfold hamiltonian. rewrite E. constructor. exact P1.
      * intros t e Ht He. destruct (tour_from_head g h rest t e E Ht He) as (q & Q1 & Q2). destruct e as [z|]; [|exact Logic.I]. apply (R3 q z); [apply In_permutations, Q1|exact Q2]. Qed.
End Facts.
