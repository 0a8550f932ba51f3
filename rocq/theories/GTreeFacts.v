(** shortest_tree_all_pairs on floats: facts.  The dictionary keyed by floats is the dictionary keyed by their exact values. *)
From Coq Require Import SpecFloat.
From Verif Require Import Prelude PreludeFacts Base BaseFacts BaseFacts2 BaseFacts3 Spec SpecFacts Loop SearchFacts BaseAlgFacts SpFacts Fw FwFacts TreeFacts GSp GSpec GSpFacts Float64 FloatSpec FwFloat PropsFloat2 GFw GFwSpec CentreFloat GTree.
Local Open Scope Z_scope.

Section T.
Context {A O : Type} {EA : EqDec A}.
Implicit Types (g : graph A O spec_float) (x y v : A) (d : list (spec_float * list A)).
Definition hI d : dict ext (list A) := map (fun p => (iv (fst p), snd p)) d.
Definition kgood d : Prop := forall k, In k (map fst d) -> f64_good k.
Lemma eqb_iv k k' : f64_good k -> f64_good k' -> a_eqb f64 k k' = if eq_dec (iv k) (iv k') then true else false.
Proof. intros G1 G2. change (a_eqb f64 k k') with (SFeqb k k'). rewrite feqb_iv by assumption. destruct (eq_dec (iv k) (iv k')) as [E|E]; [apply ext_eqb_eq, E|].
  destruct (ext_eqb (iv k) (iv k')) eqn:C; [apply ext_eqb_eq in C; congruence|reflexivity]. Qed.
Lemma kget_h k d : f64_good k -> kgood d -> kget f64 k d = dget (iv k) (hI d).
Proof. intros Gk. induction d as [|[k' s] d IH]; intros Gd; [reflexivity|]. cbn [kget hI map fst snd dget]. rewrite eqb_iv; [|exact Gk|apply Gd; left; reflexivity].
  destruct (eq_dec (iv k) (iv k')); [reflexivity|]. apply IH. intros x Hx. apply Gd. right. exact Hx. Qed.
Lemma kset_h k s d : f64_good k -> kgood d -> hI (kset f64 k s d) = dset (iv k) s (hI d) /\ kgood (kset f64 k s d).
Proof. intros Gk. induction d as [|[k' s'] d IH]; intros Gd; cbn [kset].
  - split; [reflexivity|]. intros x [<-|[]]. exact Gk.
  - assert (f64_good k') as Gk' by (apply Gd; left; reflexivity). rewrite eqb_iv by assumption. cbn [hI map fst snd dset]. destruct (eq_dec (iv k) (iv k')).
    + split; [reflexivity|]. intros x Hx. apply Gd. exact Hx.
    + destruct IH as [IH1 IH2]; [intros x Hx; apply Gd; right; exact Hx|]. split; [exact (f_equal (cons (iv k', s')) IH1)|]. intros x [<-|Hx]; [exact Gk'|apply IH2, Hx]. Qed.
Lemma kdel_h k d : f64_good k -> kgood d -> hI (kdel f64 k d) = ddel (iv k) (hI d) /\ kgood (kdel f64 k d).
Proof. intros Gk. induction d as [|[k' s'] d IH]; intros Gd; cbn [kdel].
  - split; [reflexivity|]. intros x [].
  - assert (f64_good k') as Gk' by (apply Gd; left; reflexivity). rewrite eqb_iv by assumption. cbn [hI map fst snd ddel]. destruct (eq_dec (iv k) (iv k')).
    + split; [reflexivity|]. intros x Hx. apply Gd. right. exact Hx.
    + destruct IH as [IH1 IH2]; [intros x Hx; apply Gd; right; exact Hx|]. split; [exact (f_equal (cons (iv k', s')) IH1)|]. intros x [<-|Hx]; [exact Gk'|apply IH2, Hx]. Qed.
Lemma ginvert_h (f : A -> spec_float) l : (forall v, In v l -> f64_good (f v)) ->
  hI (ginvert f64 (map (fun v => (v, f v)) l)) = invert (map (fun v => (v, iv (f v))) l) /\ kgood (ginvert f64 (map (fun v => (v, f v)) l)).
Proof. intros G. unfold ginvert, invert.
  assert (forall d, kgood d -> let r := fold_left (fun inv p => kset f64 (snd p) (sadd (fst p) (match kget f64 (snd p) inv with Some s => s | None => [] end)) inv) (map (fun v => (v, f v)) l) d in
    hI r = fold_left (fun inv p => dset (snd p) (sadd (fst p) (match dget (snd p) inv with Some s => s | None => [] end)) inv) (map (fun v => (v, iv (f v))) l) (hI d) /\ kgood r) as H.
  { induction l as [|v l IH]; intros d Gd; cbn [map fold_left fst snd]; [auto|]. assert (f64_good (f v)) as Gv by (apply G; cbn; auto).
    rewrite <- kget_h by assumption. destruct (kset_h (f v) (sadd v (match kget f64 (f v) d with Some s => s | None => [] end)) d Gv Gd) as [K1 K2]. rewrite <- K1.
    apply IH; [intros; apply G; cbn; auto|exact K2]. }
  apply (H []). intros x []. Qed.
Lemma gmin_keys d : kgood d -> d <> [] -> exists v : spec_float, gpy_min f64 (map fst d) = Ok v /\ f64_good v /\ py_min (dkeys (hI d)) = Ok (iv v).
Proof. intros Gd Hne. destruct d as [|[k s] d]; [congruence|]. cbn [map fst gpy_min]. destruct (gmin_spec (map fst d) k) as [H1 H2]; [intros y Hy; apply Gd, Hy|].
  eexists. split; [reflexivity|]. split; [apply Gd, H1|]. unfold hI, dkeys. cbn [map fst py_min]. rewrite H2. repeat f_equal. rewrite !map_map. reflexivity. Qed.
Lemma gtree_loop_h ord n : forall all d p, kgood d -> loop n (gtree_step f64 ord) (all, d, p) = loop n (tree_step ord) (all, hI d, p).
Proof. induction n as [|n IH]; intros all d p Gd; [reflexivity|]. cbn [loop]. unfold gtree_step at 1, tree_step at 1.
  assert (is_nil (hI d) = is_nil d) as -> by (destruct d; reflexivity). destruct (is_nil all || is_nil d) eqn:Eb; [reflexivity|]. apply orb_false_iff in Eb. destruct Eb as [_ Ed].
  destruct (gmin_keys d Gd) as (v & Ev & Gv & Ev'); [destruct d; [discriminate|discriminate]|]. rewrite Ev, Ev'. rewrite kget_h by assumption.
  destruct (foldM _ _ (all, p)) as [[all' p']|e|]; [|reflexivity|reflexivity]. destruct (kdel_h v d Gv Gd) as [K1 K2]. rewrite <- K1. apply IH, K2. Qed.

Lemma gtree_start_spec (vs : list A) (f : A -> A -> spec_float) (sumf : list spec_float -> spec_float) l : (forall v, In v l -> f64_good (sumf (map (f v) vs))) ->
  forall best, match fold_left (fun best p => if a_ltb f64 (sumf (dvals (snd p))) (a_inf f64) then Some (fst p) else best)
    (map (fun v1 => (v1, map (fun v3 => (v3, f v1 v3)) vs)) l) best with
  | Some s => (best = Some s /\ forall v, In v l -> iv (sumf (map (f v) vs)) = Inf) \/
              exists l1 l2, l = l1 ++ s :: l2 /\ iv (sumf (map (f s) vs)) <> Inf /\ forall v, In v l2 -> iv (sumf (map (f v) vs)) = Inf
  | None => best = None /\ forall v, In v l -> iv (sumf (map (f v) vs)) = Inf
  end.
Proof. induction l as [|v l IH]; intros Gl best; cbn [map fold_left].
  - destruct best; [left|]; split; auto; intros v [].
  - cbn [fst snd]. assert (dvals (map (fun v3 => (v3, f v v3)) vs) = map (f v) vs) as -> by (unfold dvals; rewrite map_map; reflexivity).
    assert (f64_good (sumf (map (f v) vs))) as Gs by (apply Gl; cbn; auto). specialize (IH (fun u h => Gl u (or_intror h))).
    change (a_ltb f64 (sumf (map (f v) vs)) (a_inf f64)) with (SFltb (sumf (map (f v) vs)) (S754_infinity false)).
    rewrite (ltb_spec 53 1024 ltac:(lia) (sumf (map (f v) vs)) (S754_infinity false) Gs ltac:(split; reflexivity)).
    change (iv (S754_infinity false)) with Inf. destruct (iv (sumf (map (f v) vs))) as [z|] eqn:E; cbn [ext_ltb].
    + specialize (IH (Some v)). destruct (fold_left _ _ (Some v)) as [s|] eqn:EF.
      * right. destruct IH as [[Eq H]|(l1 & l2 & -> & H1 & H2)].
        -- inv Eq. exists [], l. splits; auto. congruence.
        -- exists (v :: l1), l2. splits; auto.
      * destruct IH; discriminate.
    + specialize (IH best). destruct (fold_left _ _ best) as [s|] eqn:EF.
      * destruct IH as [[-> H]|(l1 & l2 & -> & H1 & H2)].
        -- left. split; auto. intros u [<-|Hu]; auto.
        -- right. exists (v :: l1), l2. splits; auto.
      * destruct IH as [-> H]. split; auto. intros u [<-|Hu]; auto. Qed.

Lemma gtree_spec g sumf ord (f : A -> A -> spec_float) : wf g -> (forall n l, Permutation (ord n l) l) ->
  gall_pairs_shortest_paths f64 g = gmat (nodes g) f -> (forall a b, In a (nodes g) -> In b (nodes g) -> f64_good (f a b)) -> (forall a, In a (nodes g) -> f64_good (sumf (map (f a) (nodes g)))) ->
  (forall x, In x (nodes g) -> iv (sumf (map (f x) (nodes g))) = Inf) /\ (forall n, gshortest_tree f64 sumf ord n g = Err KeyError) \/
  exists l1 s l2 p, nodes g = l1 ++ s :: l2 /\ iv (sumf (map (f s) (nodes g))) <> Inf /\ (forall x, In x l2 -> iv (sumf (map (f x) (nodes g))) = Inf) /\
    returns (fun n => gshortest_tree f64 sumf ord n g) (Ok p) /\ Permutation p (nodes g) /\ ordered (fun x => iv (f s x)) p.
Proof. intros Wf Ho Ef Gf Gs. unfold gshortest_tree. rewrite Ef. unfold gtree_start. unfold gmat at 1.
  pose proof (gtree_start_spec (nodes g) f sumf (nodes g) Gs None) as Hst. fold (gmat (nodes g) f) in Hst.
  fold (gmat (nodes g) f). destruct (fold_left _ (gmat (nodes g) f) None) as [s|] eqn:EF.
  - right. destruct Hst as [[C _]|(l1 & l2 & En & Hs & Hl2)]; [discriminate|].
    assert (In s (nodes g)) as Hin by (rewrite En; apply in_app_iff; cbn; auto).
    assert (NoDup (nodes g)) as Hnd by apply (wf_nodes g Wf).
    destruct (invert_spec (fun x => iv (f s x)) (nodes g) Hnd) as (I1 & I2 & I3).
    destruct (tree_loop (nodes g) (fun x => iv (f s x)) ord Ho Hnd (nodes g, invert (map (fun v => (v, iv (f s v))) (nodes g)), [])) as (p & Hr & Hp & Hop).
    { constructor; cbn [fst snd]; auto.
      - intros x. rewrite I2. split; [|tauto]. intros Hx. split; [exact Hx|]. exists x. auto.
      - constructor.
      - intros x. rewrite I2. split; [intros []|]. intros [Hx C]. apply C. exists x. auto.
      - intros x d [].
      - exact Logic.I. }
    exists l1, s, l2, p. splits; auto.
    refine (returns_ext _ _ _ _ Hr). intros n.
    assert (dkeys (gmat (nodes g) f) = nodes g) as -> by (unfold gmat; apply (dkeys_map (fun v1 => map (fun v3 => (v3, f v1 v3)) (nodes g)))).
    assert (inner (gmat (nodes g) f) s = map (fun v => (v, f s v)) (nodes g)) as ->.
    { unfold inner, gmat. rewrite (dget_map (fun v1 => map (fun v3 => (v3, f v1 v3)) (nodes g)) (nodes g) s Hin). reflexivity. }
    destruct (ginvert_h (f s) (nodes g) (fun v h => Gf s v Hin h)) as [K1 K2]. rewrite gtree_loop_h by exact K2. rewrite K1. reflexivity.
  - left. destruct Hst as [_ Hst]. split; [exact Hst|reflexivity]. Qed.
End T.
