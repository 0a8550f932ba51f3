(** Floyd-Warshall and its users: proofs. *)
From Coq Require Import Sorted.
From Verif Require Import Prelude PreludeFacts Base BaseFacts BaseFacts2 BaseFacts3 Spec SpecFacts Loop SearchFacts BaseAlgFacts SpFacts Fw.
Local Open Scope Z_scope.

Lemma ext_le_refl x : ext_le x x.
Proof. destruct x; cbn; auto; lia. Qed.
Lemma ext_le_trans x y z : ext_le x y -> ext_le y z -> ext_le x z.
Proof. destruct x, y, z; cbn; try tauto; lia. Qed.
Lemma ext_le_total x y : ext_le x y \/ ext_le y x.
Proof. destruct x, y; cbn; auto; lia. Qed.
Lemma ext_le_antisym x y : ext_le x y -> ext_le y x -> x = y.
Proof. destruct x, y; cbn; try tauto; intros; f_equal; lia. Qed.
Lemma ext_min_le x y : ext_le (ext_min x y) x /\ ext_le (ext_min x y) y /\ (ext_min x y = x \/ ext_min x y = y).
Proof. unfold ext_min. destruct x as [x|], y as [y|]; cbn; try (splits; auto; cbn; auto; lia).
  destruct (Z.ltb_spec y x); splits; auto; cbn; lia. Qed.
Lemma ext_max_ge x y : ext_le x (ext_max x y) /\ ext_le y (ext_max x y) /\ (ext_max x y = x \/ ext_max x y = y).
Proof. unfold ext_max. destruct x as [x|], y as [y|]; cbn; try (splits; auto; cbn; auto; lia).
  destruct (Z.ltb_spec x y); splits; auto; cbn; lia. Qed.
Lemma ext_eqb_eq x y : ext_eqb x y = true <-> x = y.
Proof. destruct x, y; cbn; split; try discriminate; try reflexivity; intros H; [apply Z.eqb_eq in H; congruence|inv H; apply Z.eqb_refl]. Qed.

Lemma Forall2_map_r {X Y} (R : X -> Y -> Prop) (h : X -> Y) l : (forall x, In x l -> R x (h x)) -> Forall2 R l (map h l).
Proof. induction l as [|x l IH]; intros H; cbn; constructor; [apply H; cbn; auto|apply IH; intros; apply H; cbn; auto]. Qed.
Lemma Forall2_fun {X Y} (R : X -> Y -> Prop) l ys zs : (forall x y z, R x y -> R x z -> y = z) -> Forall2 R l ys -> Forall2 R l zs -> ys = zs.
Proof. intros Hf H. revert zs. induction H; intros zs Hz; inv Hz; [reflexivity|]. f_equal; [eapply Hf; eauto|auto]. Qed.


Section F.
Context {A O : Type} {EA : EqDec A}.
Notation graph := (graph A O Z).
Implicit Types (g : graph) (a b x y v : A) (p : list A).

(** matrices given by a function on a vertex list *)
Definition mat (vs : list A) (f : A -> A -> ext) : matrix A := map (fun v1 => (v1, map (fun v3 => (v3, f v1 v3)) vs)) vs.
Lemma dget_map {X} (f : A -> X) l a : In a l -> dget a (map (fun v => (v, f v)) l) = Some (f a).
Proof. induction l as [|h l IH]; intros H; [destruct H|]. cbn. destruct (eq_dec a h) as [->|Hn]; [reflexivity|].
  destruct H as [->|H]; [congruence|auto]. Qed.
Lemma dkeys_map {X} (f : A -> X) l : dkeys (map (fun v => (v, f v)) l) = l.
Proof. unfold dkeys. rewrite map_map. cbn. apply map_id. Qed.
Lemma mget_mat vs f a b : In a vs -> In b vs -> mget (mat vs f) a b = f a b.
Proof. intros Ha Hb. unfold mget, eget, mat. rewrite (dget_map (fun v1 => map (fun v3 => (v3, f v1 v3)) vs) vs a Ha). rewrite (dget_map (f a) vs b Hb). reflexivity. Qed.
Lemma inner_mat vs f a : In a vs -> inner (mat vs f) a = map (fun v3 => (v3, f a v3)) vs.
Proof. intros Ha. unfold inner, mat. rewrite (dget_map (fun v1 => map (fun v3 => (v3, f v1 v3)) vs) vs a Ha). reflexivity. Qed.
Lemma dkeys_mat vs f : dkeys (mat vs f) = vs.
Proof. apply dkeys_map. Qed.
Lemma mat_ext vs f f' : (forall a b, In a vs -> In b vs -> f a b = f' a b) -> mat vs f = mat vs f'.
Proof. intros H. unfold mat. apply map_ext_in. intros a Ha. f_equal. apply map_ext_in. intros b Hb. f_equal. auto. Qed.

(** walks whose inner nodes are in K *)
Inductive via (E : A -> A -> option Z) (K : list A) : A -> A -> Z -> Prop :=
| via_refl a : via E K a a 0
| via_edge a b w : E a b = Some w -> via E K a b w
| via_cons a c b w d : E a c = Some w -> In c K -> via E K c b d -> via E K a b (w + d).
Lemma via_wpath E K a b d : via E K a b d -> exists p, wpath E a p b d.
Proof. intros H. induction H as [a|a b w He|a c b w d He _ _ [p Hp]].
  - exists [a]. constructor.
  - exists [a; b]. rewrite <- (Z.add_0_r w). econstructor; [exact He|constructor].
  - exists (a :: p). econstructor; eauto. Qed.
Lemma wpath_via E K a p b d : (forall x y w, E x y = Some w -> In y K) -> wpath E a p b d -> via E K a b d.
Proof. intros HK H. induction H as [a|a b p c w d He _ IH]; [constructor|]. eapply via_cons; eauto. Qed.
Lemma via_split E K v a b d : no_neg_cycle E -> via E (v :: K) a b d ->
  (exists d0, d0 <= d /\ via E K a b d0) \/ exists d1 d2, via E K a v d1 /\ via E K v b d2 /\ d1 + d2 <= d.
Proof. intros Hc H. induction H as [a|a b w He|a c b w d He HK _ IH].
  - left. exists 0. split; [lia|constructor].
  - left. exists w. split; [lia|constructor; exact He].
  - destruct IH as [(d0 & Hle & H0)|(d1 & d2 & H1 & H2 & Hle)]; destruct HK as [->|HK].
    + right. exists w, d0. splits; [constructor; exact He|exact H0|lia].
    + left. exists (w + d0). split; [lia|]. eapply via_cons; eauto.
    + right. exists w, d2. splits; [constructor; exact He|exact H2|]. destruct (via_wpath _ _ _ _ _ H1) as (p & Hp). specialize (Hc _ _ _ Hp). lia.
    + right. exists (w + d1), d2. splits; [eapply via_cons; eauto|exact H2|lia]. Qed.

Definition fw_inv (E : A -> A -> option Z) (vs K : list A) (f : A -> A -> ext) : Prop := forall a b, In a vs -> In b vs ->
  (forall z, f a b = Fin z -> exists p, wpath E a p b z) /\ (forall d, via E K a b d -> ext_le (f a b) (Fin d)).
Lemma fw_step E vs K f v : no_neg_cycle E -> In v vs -> fw_inv E vs K f ->
  fw_inv E vs (v :: K) (fun a b => ext_min (f a b) (ext_add (f a v) (f v b))).
Proof. intros Hc Hv HI a b Ha Hb. destruct (ext_min_le (f a b) (ext_add (f a v) (f v b))) as (L1 & L2 & L3). split.
  - intros z Ez. destruct L3 as [L3|L3]; rewrite L3 in Ez.
    + apply (HI a b Ha Hb), Ez.
    + destruct (f a v) as [z1|] eqn:E1; [|discriminate]. destruct (f v b) as [z2|] eqn:E2; [|discriminate]. cbn in Ez. inv Ez.
      destruct (HI a v Ha Hv) as [W1 _]. destruct (HI v b Hv Hb) as [W2 _]. destruct (W1 _ E1) as (p1 & P1). destruct (W2 _ E2) as (p2 & P2).
      destruct (wpath_head _ _ _ _ _ P2) as (t & ->). exists (p1 ++ t). eapply wpath_app; eauto.
  - intros d Hd. destruct (via_split E K v a b d Hc Hd) as [(d0 & Hle & H0)|(d1 & d2 & H1 & H2 & Hle)].
    + eapply ext_le_trans; [exact L1|]. eapply ext_le_trans; [apply (HI a b Ha Hb), H0|]. cbn. lia.
    + eapply ext_le_trans; [exact L2|]. pose proof (proj2 (HI a v Ha Hv) _ H1). pose proof (proj2 (HI v b Hv Hb) _ H2).
      destruct (f a v), (f v b); cbn in *; try tauto. lia. Qed.

Lemma fw_loop E vs : no_neg_cycle E -> forall l K f, incl l vs -> fw_inv E vs K f ->
  exists f', fold_left (fw_round vs) l (mat vs f) = mat vs f' /\ fw_inv E vs (rev l ++ K) f'.
Proof. intros Hc. induction l as [|v l IH]; intros K f Hl HI; cbn [fold_left].
  - exists f. auto.
  - assert (In v vs) as Hv by (apply Hl; cbn; auto).
    assert (fw_round vs (mat vs f) v = mat vs (fun a b => ext_min (f a b) (ext_add (f a v) (f v b)))) as ->.
    { unfold fw_round. apply map_ext_in. intros a Ha. f_equal. apply map_ext_in. intros b Hb. rewrite !mget_mat by assumption. reflexivity. }
    destruct (IH (v :: K) _ (fun x Hx => Hl x (or_intror Hx)) (fw_step E vs K f v Hc Hv HI)) as (f' & E' & HI').
    exists f'. split; [exact E'|]. cbn [rev]. rewrite <- app_assoc. exact HI'. Qed.

Lemma adjacency_mat g : adjacency_matrix g = mat (nodes g) (fun a b => if eq_dec a b then Fin 0 else match edge g a b with Some w => Fin w | None => Inf end).
Proof. reflexivity. Qed.

Lemma fw_spec g : wf g -> no_neg_cycle (edge g) ->
  exists f, all_pairs_shortest_paths g = mat (nodes g) f /\ forall a b, In a (nodes g) -> In b (nodes g) -> dist (edge g) a b (f a b).
Proof. intros W Hc. unfold all_pairs_shortest_paths. rewrite adjacency_mat, dkeys_mat.
  destruct (fw_loop (edge g) (nodes g) Hc (nodes g) [] (fun a b => if eq_dec a b then Fin 0 else match edge g a b with Some w => Fin w | None => Inf end)) as (f & E & HI).
  - intros x Hx. exact Hx.
  - intros a b Ha Hb. destruct (eq_dec a b) as [->|Hab].
    + split; [intros z Ez; inv Ez; exists [b]; constructor|]. intros d Hd. destruct (via_wpath _ _ _ _ _ Hd) as (p & Hp). cbn. eapply Hc; eauto.
    + split.
      * intros z. destruct (edge g a b) as [w|] eqn:Ew; [|discriminate]. intros Ez. inv Ez. exists [a; b]. rewrite <- (Z.add_0_r z). econstructor; [exact Ew|constructor].
      * intros d Hd. inversion Hd as [|? ? ? He|? ? ? ? ? ? []]; subst; [congruence|]. rewrite He. apply ext_le_refl.
  - exists f. split; [exact E|]. intros a b Ha Hb. destruct (HI a b Ha Hb) as [H1 H2]. rewrite app_nil_r in H2.
    assert (forall p d, wpath (edge g) a p b d -> ext_le (f a b) (Fin d)) as H3.
    { intros p d Hp. apply H2. eapply wpath_via; [|exact Hp]. intros x y w He. rewrite <- in_rev. apply (edge_nodes g x y w W He). }
    destruct (f a b) as [z|] eqn:Ef.
    + split; [apply H1; reflexivity|]. intros p z' Hp. apply (H3 _ _ Hp).
    + intros p z Hp. apply (H3 _ _ Hp). Qed.

(** ** minsum and minmax *)
Lemma map_rows_ok (F : list ext -> res ext) (row : A -> dict A ext) (h : A -> ext) l :
  (forall v, In v l -> F (dvals (row v)) = Ok (h v)) -> map_rows F (map (fun v => (v, row v)) l) = Ok (map (fun v => (v, h v)) l).
Proof. induction l as [|v l IH]; intros H; cbn; [reflexivity|]. rewrite H by (cbn; auto). cbn. rewrite IH by (intros; apply H; cbn; auto). reflexivity. Qed.
Lemma fold_min_spec t : forall x : ext, In (fold_left ext_min t x) (x :: t) /\ forall y : ext, In y (x :: t) -> ext_le (fold_left ext_min t x) y.
Proof. induction t as [|u t IH]; intros x; cbn [fold_left].
  - split; [cbn; auto|]. intros y [<-|[]]. apply ext_le_refl.
  - destruct (IH (ext_min x u)) as [H1 H2]. destruct (ext_min_le x u) as (L1 & L2 & L3). split.
    + destruct H1 as [H1|H1]; [|cbn; auto]. rewrite <- H1. destruct L3 as [-> | ->]; cbn; auto.
    + intros y [<-|[<-|Hy]]; [| |apply H2; cbn; auto]; (eapply ext_le_trans; [apply H2; left; reflexivity|assumption]). Qed.
Lemma fold_max_spec t : forall x : ext, In (fold_left ext_max t x) (x :: t) /\ forall y : ext, In y (x :: t) -> ext_le y (fold_left ext_max t x).
Proof. induction t as [|u t IH]; intros x; cbn [fold_left].
  - split; [cbn; auto|]. intros y [<-|[]]. apply ext_le_refl.
  - destruct (IH (ext_max x u)) as [H1 H2]. destruct (ext_max_ge x u) as (L1 & L2 & L3). split.
    + destruct H1 as [H1|H1]; [|cbn; auto]. rewrite <- H1. destruct L3 as [-> | ->]; cbn; auto.
    + intros y [<-|[<-|Hy]]; [| |apply H2; cbn; auto]; (eapply ext_le_trans; [|apply H2; left; reflexivity]; assumption). Qed.
Lemma ext_add_0_l (x : ext) : ext_add (Fin 0) x = x.
Proof. destruct x; reflexivity. Qed.
Lemma ext_sum_fold l : ext_sum l = fold_right ext_add (Fin 0) l.
Proof. unfold ext_sum. assert (forall x : ext, fold_left ext_add l x = ext_add x (fold_right ext_add (Fin 0) l)) as H; [|rewrite H; apply ext_add_0_l].
  induction l as [|y l IH]; intros x; cbn; [destruct x; cbn; [rewrite Z.add_0_r|]; reflexivity|]. rewrite IH. apply ext_add_assoc. Qed.

Lemma centre_spec g (F : list ext -> res ext) (f : A -> A -> ext) (h : A -> ext) : wf g -> nodes g <> [] ->
  all_pairs_shortest_paths g = mat (nodes g) f -> (forall v, In v (nodes g) -> F (map (f v) (nodes g)) = Ok (h v)) ->
  exists r, centre F g = Ok r /\ NoDup r /\ forall x, In x r <-> In x (nodes g) /\ forall y, In y (nodes g) -> ext_le (h x) (h y).
Proof. intros W Hne E HF. unfold centre. rewrite E. unfold mat.
  rewrite (map_rows_ok F (fun v1 => map (fun v3 => (v3, f v1 v3)) (nodes g)) h).
  2:{ intros v Hv. unfold dvals. rewrite map_map. cbn. apply HF, Hv. }
  cbn [bind]. destruct (nodes g) as [|v0 vs] eqn:En; [congruence|]. cbn [map dvals snd py_min bind].
  match goal with |- context [fold_left ext_min ?t ?x] => destruct (fold_min_spec t x) as [H1 H2]; set (m := fold_left ext_min t x) in * end.
  eexists. split; [reflexivity|].
  change ((v0, h v0) :: map (fun v => (v, h v)) vs) with (map (fun v => (v, h v)) (v0 :: vs)).
  assert (map fst (filter (fun q => ext_eqb (snd q) m) (map (fun v => (v, h v)) (v0 :: vs))) = filter (fun v => ext_eqb (h v) m) (v0 :: vs)) as ->.
  { clear. induction (v0 :: vs) as [|v l IH]; cbn; [reflexivity|]. destruct (ext_eqb (h v) m); cbn; congruence. }
  split; [apply NoDup_filter'; rewrite <- En; apply W|]. intros x. rewrite filter_In, ext_eqb_eq.
  assert (h v0 :: dvals (map (fun v => (v, h v)) vs) = map h (v0 :: vs)) as Ev by (cbn; unfold dvals; rewrite map_map; reflexivity).
  fold (dvals (map (fun v => (v, h v)) vs)) in *. rewrite Ev in H1, H2. split.
  - intros [Hx Hm]. split; [exact Hx|]. intros y Hy. rewrite Hm. apply H2, in_map, Hy.
  - intros [Hx Hm]. split; [exact Hx|]. apply in_map_iff in H1. destruct H1 as (y & Ey & Hy). apply ext_le_antisym; [rewrite <- Ey; apply Hm, Hy|apply H2, in_map, Hx]. Qed.

Lemma total_dist_fun g x t t' : total_dist g x t -> total_dist g x t' -> t = t'.
Proof. intros (ds & F1 & ->) (ds' & F2 & ->). f_equal. eapply Forall2_fun; [|exact F1|exact F2]. intros; eapply dist_fun; eauto. Qed.
Lemma max_dist_fun g x t t' : max_dist g x t -> max_dist g x t' -> t = t'.
Proof. intros (ds & F1 & I1 & M1) (ds' & F2 & I2 & M2). assert (ds' = ds) as -> by (eapply Forall2_fun; [|exact F2|exact F1]; intros; eapply dist_fun; eauto).
  apply ext_le_antisym; auto. Qed.

Lemma minsum_spec g : wf g -> no_neg_cycle (edge g) -> nodes g <> [] ->
  exists r, minsum g = Ok r /\ NoDup r /\
    forall x, In x r <-> In x (nodes g) /\ exists t, total_dist g x t /\ forall y t', In y (nodes g) -> total_dist g y t' -> ext_le t t'.
Proof. intros W Hc Hne. destruct (fw_spec g W Hc) as (f & Ef & Hd).
  assert (forall x, In x (nodes g) -> total_dist g x (ext_sum (map (f x) (nodes g)))) as Ht.
  { intros x Hx. exists (map (f x) (nodes g)). split; [|apply ext_sum_fold]. apply Forall2_map_r. intros y Hy. apply Hd; auto. }
  destruct (centre_spec g (fun l => Ok (ext_sum l)) f (fun v => ext_sum (map (f v) (nodes g))) W Hne Ef) as (r & Er & Hn & Hr); [auto|].
  exists r. split; [exact Er|]. split; [exact Hn|]. intros x. rewrite Hr. split.
  - intros [Hx Hm]. split; [exact Hx|]. exists (ext_sum (map (f x) (nodes g))). split; [auto|]. intros y t' Hy Hty.
    rewrite (total_dist_fun g y _ _ Hty (Ht y Hy)). apply (Hm y Hy).
  - intros [Hx (t & Htx & Hm)]. split; [exact Hx|]. intros y Hy. rewrite <- (total_dist_fun g x _ _ Htx (Ht x Hx)). apply (Hm y _ Hy (Ht y Hy)). Qed.
Lemma minmax_spec g : wf g -> no_neg_cycle (edge g) -> nodes g <> [] ->
  exists r, minmax g = Ok r /\ NoDup r /\
    forall x, In x r <-> In x (nodes g) /\ exists t, max_dist g x t /\ forall y t', In y (nodes g) -> max_dist g y t' -> ext_le t t'.
Proof. intros W Hc Hne. destruct (fw_spec g W Hc) as (f & Ef & Hd).
  pose (h := fun x => match py_max (map (f x) (nodes g)) with Ok m => m | _ => Inf end).
  assert (forall x, In x (nodes g) -> py_max (map (f x) (nodes g)) = Ok (h x)) as HF.
  { intros x Hx. unfold h. destruct (nodes g); [congruence|reflexivity]. }
  assert (forall x, In x (nodes g) -> max_dist g x (h x)) as Ht.
  { intros x Hx. exists (map (f x) (nodes g)). specialize (HF x Hx). split; [apply Forall2_map_r; intros y Hy; apply Hd; auto|].
    unfold h. destruct (nodes g) as [|v0 vs]; [congruence|]. cbn [map py_max]. apply fold_max_spec. }
  destruct (centre_spec g py_max f h W Hne Ef HF) as (r & Er & Hn & Hr).
  exists r. split; [exact Er|]. split; [exact Hn|]. intros x. rewrite Hr. split.
  - intros [Hx Hm]. split; [exact Hx|]. exists (h x). split; [auto|]. intros y t' Hy Hty. rewrite (max_dist_fun g y _ _ Hty (Ht y Hy)). apply (Hm y Hy).
  - intros [Hx (t & Htx & Hm)]. split; [exact Hx|]. intros y Hy. rewrite <- (max_dist_fun g x _ _ Htx (Ht x Hx)). apply (Hm y _ Hy (Ht y Hy)). Qed.
End F.
