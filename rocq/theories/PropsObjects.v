(** Property theorems C88 (== and != between objects of any classes). *)
From Verif Require Import Prelude PreludeFacts Base Spec BaseFacts BaseFacts2 BaseFacts3 Objects.

Section P.
Context {A O V C : Type} {EA : EqDec A} {EO : EqDec O} {EV : EqDec V} {EC : EqDec C} (sub : C -> C -> bool).
Notation graph := (graph A O V).
Notation obj := (obj A O V C).
(** issubclass is a partial order *)
Definition class_order : Prop := (forall c, sub c c = true) /\ (forall c d, sub c d = true -> sub d c = true -> c = d) /\
  (forall c d e, sub c d = true -> sub d e = true -> sub c e = true).
Definition good (x : obj) : Prop := match x with GraphObj _ g => reachable g | Plain _ => True end.
(** the same kind of object with the same contents *)
Definition same (x y : obj) : Prop :=
  match x, y with
  | GraphObj c g, GraphObj d h => c = d /\ (forall n, contains g n = contains h n) /\ (forall n, node g n = node h n) /\ (forall a b, edge g a b = edge h a b)
  | Plain i, Plain j => i = j
  | _, _ => False
  end.
Lemma py_eq_graphs c d (g h : graph) : class_order -> py_eq sub (GraphObj c g) (GraphObj d h) = eqb c d && graph_eqb g h.
Proof. intros (R & AS & T). unfold py_eq, rich. cbn [type_of sub_type eq_method]. destruct (eq_dec c d) as [->|Hn].
  - rewrite (eqb_refl (Some d)), (eqb_refl d), R. reflexivity.
  - rewrite (proj2 (eqb_false (Some c) (Some d))) by congruence. rewrite (proj2 (eqb_false c d)) by exact Hn. cbn [negb andb]. destruct (sub d c) eqn:E1; [|reflexivity].
    destruct (sub c d) eqn:E2; [|reflexivity]. exfalso. apply Hn, AS; assumption. Qed.
(** == holds exactly between objects of the same class with the same contents, so a Graph never equals a Graph3D *)
Theorem C88_equal_exact x y : class_order -> good x -> good y -> (py_eq sub x y = true <-> same x y).
Proof. intros HC Gx Gy. destruct x as [c g|i], y as [d h|j]; cbn [good same] in *.
  - rewrite py_eq_graphs by exact HC. rewrite andb_true_iff, equality_observational by assumption. rewrite eqb_true. reflexivity.
  - split; [|intros []]. cbn. discriminate.
  - split; [|intros []]. cbn. discriminate.
  - unfold py_eq, rich. cbn [type_of sub_type eq_method]. rewrite eqb_refl. cbn [negb andb]. rewrite (Nat.eqb_sym j i). destruct (Nat.eqb_spec i j); split; congruence. Qed.
(** == is an equivalence relation on all objects *)
Theorem C88_equivalence x y z : class_order -> good x -> good y -> good z ->
  py_eq sub x x = true /\ py_eq sub x y = py_eq sub y x /\ (py_eq sub x y = true -> py_eq sub y z = true -> py_eq sub x z = true).
Proof. intros HC Gx Gy Gz.
  assert (forall u v : obj, same u v -> same v u) as HS. { intros [c g|i] [d h|j]; cbn; try tauto; [intros (-> & H1 & H2 & H3); splits; auto|congruence]. }
  splits.
  - apply C88_equal_exact; auto. destruct x; cbn; auto.
  - apply Bool.eq_iff_eq_true. rewrite !C88_equal_exact by assumption. split; apply HS.
  - rewrite !C88_equal_exact by assumption. destruct x as [c g|i], y as [d h|j], z as [e k|l]; cbn; try tauto; [|congruence].
    intros (-> & H1 & H2 & H3) (-> & K1 & K2 & K3). splits; auto; congruence. Qed.
(** != is always the opposite of == *)
Theorem C88_not_equal x y : py_ne sub x y = negb (py_eq sub x y).
Proof. unfold py_ne, py_eq, rich, ne_method. set (f := match x, y with Plain i, Plain j => Nat.eqb i j | _, _ => false end). clearbody f.
  destruct (negb (eqb (type_of x) (type_of y)) && sub_type sub (type_of y) (type_of x)), (eq_method sub y x), (eq_method sub x y); reflexivity. Qed.
End P.
(** the classes of the package: 0 BasicGraph, 1 Graph, 2 Graph3D, each a subclass of the one before *)
Definition sub_pkg (c d : nat) : bool := d <=? c.
(** == asks the subclass, so it is False both ways; the method called directly on the Graph says True *)
Example ex_classes : class_order sub_pkg /\
  let g := ok_or empty_graph (run (A := nat) (O := unit) (V := Z) [OpAddEdge 1 2 3%Z false]) in
  reachable g /\ py_eq sub_pkg (GraphObj 1 g) (GraphObj 2 g) = false /\ py_eq sub_pkg (GraphObj 2 g) (GraphObj 1 g) = false /\ py_eq sub_pkg (GraphObj 2 g) (GraphObj 2 g) = true /\
  py_ne sub_pkg (GraphObj 1 g) (GraphObj 2 g) = true /\ eq_method sub_pkg (GraphObj 1 g) (GraphObj 2 g) = Some true /\ eq_method sub_pkg (GraphObj 2 g) (GraphObj 1 g) = Some false /\
  py_eq sub_pkg (Plain 5) (GraphObj 1 g) = false.
Proof. split.
  - unfold class_order, sub_pkg. splits; [intros c; apply Nat.leb_refl|intros c d H1 H2; apply Nat.leb_le in H1, H2; lia|intros c d e H1 H2; apply Nat.leb_le in H1, H2; apply Nat.leb_le; lia].
  - cbv zeta. splits; [|vm_compute; reflexivity..]. exists [OpAddEdge 1 2 3%Z false]. vm_compute. reflexivity. Qed.
