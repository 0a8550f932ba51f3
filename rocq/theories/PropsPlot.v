(** C82 (plot_2d) and C83 (plot_3d). *)
From Coq Require Import QArith Qcanon.
From Verif Require Import Prelude PreludeFacts Base BaseFacts BaseFacts2 BaseFacts3 Spec MaxFlowFacts HashFacts McfFacts BaseAlgFacts Graph3d Plot.
Open Scope nat_scope.

(** ** plot_2d *)
(** a node is a point (x, y) *)
Definition xy (n : pynode) (x y : Qc) : Prop := n = Tuple [Num x; Num y].
Lemma check_xy_spec n : (exists x y, xy n x y) /\ check_xy n = None \/ ~ (exists x y, xy n x y) /\ check_xy n = Some ValueError.
Proof. unfold xy. destruct n as [l|i]; [|right; split; [intros (? & ? & ?); discriminate|reflexivity]].
  destruct l as [|[x|] [|[y|] [|c l]]]; try (right; split; [intros (? & ? & ?); discriminate|reflexivity]). left. split; [eauto|reflexivity]. Qed.
Lemma check_all_none ns : check_all ns = None <-> forall n, In n ns -> exists x y, xy n x y.
Proof. induction ns as [|n ns IH]; cbn; [split; [intros _ n []|auto]|]. destruct (check_xy_spec n) as [[H E]|[H E]]; rewrite E.
  - rewrite IH. split; [intros H' m [<-|Hm]; auto|auto].
  - split; [discriminate|intros H'; exfalso; auto]. Qed.
Lemma check_all_err ns e : check_all ns = Some e -> e = ValueError.
Proof. induction ns as [|n ns IH]; cbn; [discriminate|]. destruct (check_xy_spec n) as [[H E]|[H E]]; rewrite E; [exact IH|congruence]. Qed.

(** the straight lines a call draws: one between consecutive points *)
Fixpoint strokes (xs ys : list comp) : list (comp * comp * (comp * comp)) :=
  match xs, ys with x1 :: ((x2 :: _) as xt), y1 :: ((y2 :: _) as yt) => (x1, y1, (x2, y2)) :: strokes xt yt | _, _ => [] end.
Definition drawn (c : cmd2) : list (comp * comp * (comp * comp)) := match c with Polyline xs ys | Segment xs ys => strokes xs ys | Axis _ => [] end.
Definition lines_drawn (cs : list cmd2) := flat_map drawn cs.

Section P2.
Context {O V : Type}.
Notation graph := (Base.graph pynode O V).
Implicit Types (g : graph).
(** It raises ValueError exactly if some node is not a pair of numbers. *)
Theorem C82_accepts g nodes_ edges_ :
  ((forall n, contains g n = true -> exists x y, xy n x y) -> exists cs, plot_2d g nodes_ edges_ = Ok cs) /\
  (~ (forall n, contains g n = true -> exists x y, xy n x y) -> plot_2d g nodes_ edges_ = Err ValueError).
Proof. unfold plot_2d. split; intros H.
  - replace (check_all (nodes g)) with (@None exn); [eauto|]. symmetry. apply check_all_none. intros n Hn. apply H. apply contains_In. exact Hn.
  - destruct (check_all (nodes g)) as [e|] eqn:E; [rewrite (check_all_err _ _ E); reflexivity|]. exfalso. apply H. intros n Hn. apply (proj1 (check_all_none _) E). apply contains_In. exact Hn. Qed.
(** Without the nodes, the lines drawn are the edges: one line per edge, from its start to its end. *)
Theorem C82_edges_drawn_partial g cs : reachable g -> plot_2d g false true = Ok cs ->
  (forall x1 y1 x2 y2, In (Num x1, Num y1, (Num x2, Num y2)) (lines_drawn cs) <-> has_edge g (Tuple [Num x1; Num y1]) (Tuple [Num x2; Num y2])) /\
  (forall l, In l (lines_drawn cs) -> exists x1 y1 x2 y2, l = (Num x1, Num y1, (Num x2, Num y2))) /\
  length (lines_drawn cs) = length (edges g).
Proof. intros R. unfold plot_2d. destruct (check_all (nodes g)) eqn:E; [discriminate|]. intros [= <-]. cbn [app].
  assert (HL : lines_drawn (map (fun e => let '(s, t, _) := e in Segment [at_ s 0; at_ t 0] [at_ s 1; at_ t 1]) (edges g) ++ [Axis 0; Axis 1]) =
    map (fun e => let '(s, t, _) := e in (at_ s 0, at_ s 1, (at_ t 0, at_ t 1))) (edges g)).
  { unfold lines_drawn. rewrite flat_map_app. cbn. rewrite app_nil_r. induction (edges g) as [|[[s t] v] l IH]; cbn; [reflexivity|]. rewrite IH. reflexivity. }
  rewrite HL. assert (HN := proj1 (check_all_none _) E).
  assert (HE : forall s t v, In (s, t, v) (edges g) -> exists x1 y1 x2 y2, s = Tuple [Num x1; Num y1] /\ t = Tuple [Num x2; Num y2] /\ has_edge g s t).
  { intros s t v Hin. assert (Hh : has_edge g s t) by (exists v; apply In_edges; [apply reachable_wf; exact R|exact Hin]).
    destruct (has_edge_nodes _ s t (reachable_wf _ R) Hh) as [Hs Ht]. destruct (HN s Hs) as (x1 & y1 & ->). destruct (HN t Ht) as (x2 & y2 & ->). exists x1, y1, x2, y2. auto. }
  splits.
  - intros x1 y1 x2 y2. rewrite in_map_iff. split.
    + intros ([[s t] v] & Heq & Hin). destruct (HE s t v Hin) as (a1 & b1 & a2 & b2 & -> & -> & Hh). cbn in Heq. injection Heq as <- <- <- <-. exact Hh.
    + intros [v Hv]. eexists (_, _, v). split; [|apply In_edges; [apply reachable_wf; exact R|exact Hv]]. reflexivity.
  - intros l Hl. apply in_map_iff in Hl. destruct Hl as ([[s t] v] & <- & Hin). destruct (HE s t v Hin) as (a1 & b1 & a2 & b2 & -> & -> & _). cbn. eauto.
  - apply map_length. Qed.
(** With the nodes but without the edges it draws a line through all nodes in the order they were added: *)
Theorem C82_nodes_drawn_partial g cs : plot_2d g true false = Ok cs ->
  lines_drawn cs = strokes (map (fun n => at_ n 0) (nodes g)) (map (fun n => at_ n 1) (nodes g)).
Proof. unfold plot_2d. destruct (check_all (nodes g)) eqn:E; [discriminate|]. intros [= <-]. cbn. apply app_nil_r. Qed.
End P2.
(** so that the plot of a graph without any edge shows a line: "every line drawn is an edge" fails with nodes=True *)
Definition q (z : Z) : Qc := Q2Qc (inject_Z z).
Definition g_two : Base.graph pynode unit Z := ok_or empty_graph (run [OpAddNode (Tuple [Num (q 0); Num (q 0)]) None; OpAddNode (Tuple [Num (q 1); Num (q 2)]) None]).
Theorem C82_nodes_not_lines_refuted : reachable g_two /\ edges g_two = [] /\
  exists cs, plot_2d g_two true true = Ok cs /\ lines_drawn cs = [(Num (q 0), Num (q 0), (Num (q 1), Num (q 2)))].
Proof. splits; [eexists [OpAddNode (Tuple [Num (q 0); Num (q 0)]) None; OpAddNode (Tuple [Num (q 1); Num (q 2)]) None]; reflexivity|reflexivity|]. eexists. split; reflexivity. Qed.
Definition g_seg : Base.graph pynode unit Z := ok_or empty_graph (run [OpAddEdge (Tuple [Num (q 0); Num (q 0)]) (Tuple [Num (q 1); Num (q 2)]) 5%Z false]).
Example ex_plot2 : exists cs, plot_2d g_seg false true = Ok cs /\ lines_drawn cs = [(Num (q 0), Num (q 0), (Num (q 1), Num (q 2)))].
Proof. eexists. split; reflexivity. Qed.

(** ** plot_3d *)
(** the letters of the three axes of the chart, and: rotation r shows coordinate i of the nodes on axis a *)
Definition letter_of (a : nat) : letter := match a with 0 => X | 1 => Y | _ => Z_ end.
Definition shows (r : list letter) (a i : nat) : Prop := nth_error r i = Some (letter_of a).
Definition is_rotation (r : list letter) : Prop := Permutation r [X; Y; Z_].
Definition rotations : list (list letter) := [[X; Y; Z_]; [X; Z_; Y]; [Y; X; Z_]; [Y; Z_; X]; [Z_; X; Y]; [Z_; Y; X]].
Lemma rotation_cases r : In r rotations <-> is_rotation r.
Proof. split.
  - unfold is_rotation. intros H. cbn in H. destruct H as [<-|[<-|[<-|[<-|[<-|[<-|[]]]]]]].
    + apply Permutation_refl. + apply perm_skip, perm_swap. + apply perm_swap.
    + apply Permutation_sym. change (Permutation ([X] ++ [Y; Z_]) ([Y; Z_] ++ [X])). apply Permutation_app_comm.
    + change (Permutation ([Z_] ++ [X; Y]) ([X; Y] ++ [Z_])). apply Permutation_app_comm.
    + apply (Permutation_sym (Permutation_rev [X; Y; Z_])).
  - intros H. assert (L := Permutation_length H). destruct r as [|a [|b [|c [|d r]]]]; cbn in L; try lia.
    assert (HX : In X [a; b; c]) by (apply (Permutation_in X (Permutation_sym H)); cbn; auto).
    assert (HY : In Y [a; b; c]) by (apply (Permutation_in Y (Permutation_sym H)); cbn; auto).
    assert (HZ : In Z_ [a; b; c]) by (apply (Permutation_in Z_ (Permutation_sym H)); cbn; auto).
    destruct a, b, c; cbn in HX, HY, HZ; cbn; auto 10; exfalso; intuition discriminate. Qed.
Lemma check_rotation_spec r : is_rotation r /\ check_rotation r = None \/ ~ is_rotation r /\ check_rotation r = Some ValueError.
Proof. destruct (check_rotation r) as [e|] eqn:E.
  - right. split; [intros H; apply rotation_cases in H; cbn in H; destruct H as [<-|[<-|[<-|[<-|[<-|[<-|[]]]]]]]; discriminate|].
    unfold check_rotation in E. destruct (negb (length r =? 3)); [congruence|]. destruct (forallb _ _); congruence.
  - left. split; [|reflexivity]. apply rotation_cases. unfold check_rotation in E. destruct r as [|a [|b [|c [|d r]]]]; cbn in E; try discriminate.
    destruct a, b, c; cbn in E; cbn; auto 10; discriminate. Qed.
Lemma minl_spec l v : minl l = Ok v -> In v l /\ forall u, In u l -> (v <= u)%Z.
Proof. destruct l as [|w l]; [discriminate|]. cbn. intros [= <-]. revert w. induction l as [|x l IH]; intros w; cbn [fold_left].
  - split; [left; reflexivity|intros u [<-|[]]; lia].
  - destruct (IH (Z.min w x)) as [H1 H2]. split.
    + destruct H1 as [H1|H1]; [|right; right; exact H1]. rewrite <- H1. destruct (Z.min_spec w x) as [[_ E]|[_ E]]; rewrite E; cbn; auto.
    + assert (H0 : (fold_left Z.min l (Z.min w x) <= Z.min w x)%Z) by (apply H2; left; reflexivity). intros u [<-|[<-|Hu]]; [lia|lia|]. apply H2. right. exact Hu. Qed.
Lemma maxl_spec l v : maxl l = Ok v -> In v l /\ forall u, In u l -> (u <= v)%Z.
Proof. destruct l as [|w l]; [discriminate|]. cbn. intros [= <-]. revert w. induction l as [|x l IH]; intros w; cbn [fold_left].
  - split; [left; reflexivity|intros u [<-|[]]; lia].
  - destruct (IH (Z.max w x)) as [H1 H2]. split.
    + destruct H1 as [H1|H1]; [|right; right; exact H1]. rewrite <- H1. destruct (Z.max_spec w x) as [[_ E]|[_ E]]; rewrite E; cbn; auto.
    + assert (H0 : (Z.max w x <= fold_left Z.max l (Z.max w x))%Z) by (apply H2; left; reflexivity). intros u [<-|[<-|Hu]]; [lia|lia|]. apply H2. right. exact Hu. Qed.
Lemma mapM_ok {S T} (f : S -> res T) h l : (forall s, f s = Ok (h s)) -> mapM f l = Ok (map h l).
Proof. intros H. induction l as [|s l IH]; cbn; [reflexivity|]. rewrite H, IH. reflexivity. Qed.

Section P3.
Context {O V : Type}.
Notation graph := (Base.graph pos O V).
Implicit Types (g : graph).
(** An invalid rotation is refused; a valid one is plotted, except that the aspect ratio of nothing is an error. *)
Theorem C83_accepts g nodes_ edges_ r aspect :
  (~ is_rotation r -> plot_3d g nodes_ edges_ r aspect = Err ValueError) /\
  (is_rotation r -> nodes g = [] -> nodes_ || edges_ = true -> aspect = true -> plot_3d g nodes_ edges_ r aspect = Err ValueError) /\
  (is_rotation r -> nodes g <> [] \/ nodes_ || edges_ = false \/ aspect = false -> exists cs, plot_3d g nodes_ edges_ r aspect = Ok cs).
Proof. unfold plot_3d. destruct (check_rotation_spec r) as [[H E]|[H E]]; rewrite E; [|splits; [reflexivity|intros; contradiction|intros; contradiction]].
  split; [intros; contradiction|]. apply rotation_cases in H.
  assert (Hl : exists x y z, r = [x; y; z]) by (cbn in H; destruct H as [<-|[<-|[<-|[<-|[<-|[<-|[]]]]]]]; eauto). destruct Hl as (x & y & z & ->).
  assert (He : forall e : pos * pos * V, edge_cmd x y z e = Ok (ok_or (Plot3D [] [] []) (edge_cmd x y z e))). { intros [[a b] v]. cbn in H. repeat (destruct H as [H|H]; [injection H as <- <- <-; reflexivity|]). contradiction. }
  assert (Hn : exists c, nodes_cmd x y z (nodes g) = Ok c). { cbn in H. repeat (destruct H as [H|H]; [injection H as <- <- <-; eexists; reflexivity|]). contradiction. }
  assert (Ha : nodes g <> [] -> exists l, aspect_cmds x y z (nodes g) = Ok l).
  { intros Hne. destruct (nodes g) as [|p ns]; [congruence|]. cbn in H. repeat (destruct H as [H|H]; [injection H as <- <- <-; eexists; reflexivity|]). contradiction. }
  assert (Hz : nodes g = [] -> aspect_cmds x y z (nodes g) = Err ValueError).
  { intros ->. cbn in H. repeat (destruct H as [H|H]; [injection H as <- <- <-; reflexivity|]). contradiction. }
  rewrite (mapM_ok _ _ _ He). destruct Hn as [c ->]. split.
  - intros _ Hg Hne ->. rewrite Hne, (Hz Hg). destruct nodes_, edges_; reflexivity.
  - intros _ Hg.
    assert (Hl : exists l, (if (nodes_ || edges_) && aspect then aspect_cmds x y z (nodes g) else Ok []) = Ok l).
    { destruct ((nodes_ || edges_) && aspect) eqn:Eb; [|eauto]. apply andb_prop in Eb. destruct Eb as [E1 E2]. destruct Hg as [Hg|[Hg|Hg]]; [auto|congruence|congruence]. }
    destruct Hl as [l ->]. destruct edges_, nodes_; cbn; eauto. Qed.
(** It draws a line for each edge and a dot for each node, each coordinate on the axis that the rotation says. *)
Theorem C83_drawn g nodes_ edges_ r aspect cs : plot_3d g nodes_ edges_ r aspect = Ok cs ->
  exists i0 i1 i2 rest, Permutation [i0; i1; i2] [0; 1; 2] /\ shows r 0 i0 /\ shows r 1 i1 /\ shows r 2 i2 /\
    cs = (if edges_ then map (fun e => let '(a, b, _) := e in Plot3D [coord a i0; coord b i0] [coord a i1; coord b i1] [coord a i2; coord b i2]) (edges g) else []) ++
         (if nodes_ then [Scatter3D (map (fun n => coord n i0) (nodes g)) (map (fun n => coord n i1) (nodes g)) (map (fun n => coord n i2) (nodes g))] else []) ++ rest /\
    (forall c, In c rest -> exists a, (exists lo hi, c = SetLim a lo hi) \/ exists l, c = SetLabel a l).
Proof. unfold plot_3d. destruct (check_rotation_spec r) as [[H E]|[H E]]; rewrite E; [|discriminate]. apply rotation_cases in H.
  assert (HA : forall x y z l, aspect_cmds x y z (nodes g) = Ok l -> forall c, In c l -> exists a lo hi, c = SetLim a lo hi).
  { intros x y z l. unfold aspect_cmds. repeat match goal with |- (bind ?m _) = _ -> _ => destruct m eqn:?; cbn [bind]; try discriminate end. intros [= <-] c [<-|[<-|[<-|[]]]]; eauto. }
  assert (HR : forall x y z l, (if (nodes_ || edges_) && aspect then aspect_cmds x y z (nodes g) else Ok []) = Ok l -> forall c, In c (l ++ [SetLabel 0 x; SetLabel 1 y; SetLabel 2 z]) ->
     exists a, (exists lo hi, c = SetLim a lo hi) \/ exists l, c = SetLabel a l).
  { intros x y z l Hl c Hc. apply in_app_iff in Hc. destruct Hc as [Hc|[<-|[<-|[<-|[]]]]]; eauto. destruct ((nodes_ || edges_) && aspect); [|injection Hl as <-; contradiction].
    destruct (HA _ _ _ _ Hl _ Hc) as (a & lo & hi & ->). eauto. }
  assert (HM : forall x y z i0 i1 i2, Permutation [i0; i1; i2] [0; 1; 2] -> shows [x; y; z] 0 i0 -> shows [x; y; z] 1 i1 -> shows [x; y; z] 2 i2 ->
    (forall e : pos * pos * V, edge_cmd x y z e = Ok (let '(a, b, _) := e in Plot3D [coord a i0; coord b i0] [coord a i1; coord b i1] [coord a i2; coord b i2])) ->
    (forall ns, nodes_cmd x y z ns = Ok (Scatter3D (map (fun n => coord n i0) ns) (map (fun n => coord n i1) ns) (map (fun n => coord n i2) ns))) -> r = [x; y; z] ->
    match r with [x; y; z] => es <- (if edges_ then mapM (edge_cmd x y z) (edges g) else Ok []) ;; ns <- (if nodes_ then c <- nodes_cmd x y z (nodes g) ;; Ok [c] else Ok []) ;;
      ls <- (if (nodes_ || edges_) && aspect then aspect_cmds x y z (nodes g) else Ok []) ;; Ok (es ++ ns ++ ls ++ [SetLabel 0 x; SetLabel 1 y; SetLabel 2 z]) | _ => Err ValueError end = Ok cs ->
    exists i0 i1 i2 rest, Permutation [i0; i1; i2] [0; 1; 2] /\ shows r 0 i0 /\ shows r 1 i1 /\ shows r 2 i2 /\
    cs = (if edges_ then map (fun e => let '(a, b, _) := e in Plot3D [coord a i0; coord b i0] [coord a i1; coord b i1] [coord a i2; coord b i2]) (edges g) else []) ++
         (if nodes_ then [Scatter3D (map (fun n => coord n i0) (nodes g)) (map (fun n => coord n i1) (nodes g)) (map (fun n => coord n i2) (nodes g))] else []) ++ rest /\
    (forall c, In c rest -> exists a, (exists lo hi, c = SetLim a lo hi) \/ exists l, c = SetLabel a l)).
  { intros x y z i0 i1 i2 HP S0 S1 S2 He Hn -> Hcs. rewrite (mapM_ok _ _ _ He), Hn in Hcs.
    destruct (if (nodes_ || edges_) && aspect then aspect_cmds x y z (nodes g) else Ok []) as [l| |] eqn:El; [|destruct edges_, nodes_; discriminate|destruct edges_, nodes_; discriminate].
    exists i0, i1, i2, (l ++ [SetLabel 0 x; SetLabel 1 y; SetLabel 2 z]). splits; try assumption; [|apply (HR _ _ _ _ El)].
    destruct edges_, nodes_; cbn [bind] in Hcs; injection Hcs as <-; reflexivity. }
  cbn in H. assert (P : forall i0 i1 i2, In [i0; i1; i2] [[0; 1; 2]; [0; 2; 1]; [1; 0; 2]; [1; 2; 0]; [2; 0; 1]; [2; 1; 0]] -> Permutation [i0; i1; i2] [0; 1; 2]).
  { intros i0 i1 i2 Hi. cbn in Hi. apply NoDup_Permutation; [| |]; repeat (destruct Hi as [Hi|Hi]; [injection Hi as <- <- <-; first [repeat constructor; cbn; intuition congruence|intros x; cbn; tauto]|]); contradiction. }
  destruct H as [<-|[<-|[<-|[<-|[<-|[<-|[]]]]]]].
  - apply (HM X Y Z_ 0 1 2); [apply P; cbn; tauto|reflexivity|reflexivity|reflexivity|intros [[a b] v]; reflexivity|reflexivity|reflexivity].
  - apply (HM X Z_ Y 0 2 1); [apply P; cbn; tauto|reflexivity|reflexivity|reflexivity|intros [[a b] v]; reflexivity|reflexivity|reflexivity].
  - apply (HM Y X Z_ 1 0 2); [apply P; cbn; tauto|reflexivity|reflexivity|reflexivity|intros [[a b] v]; reflexivity|reflexivity|reflexivity].
  - apply (HM Y Z_ X 2 0 1); [apply P; cbn; tauto|reflexivity|reflexivity|reflexivity|intros [[a b] v]; reflexivity|reflexivity|reflexivity].
  - apply (HM Z_ X Y 1 2 0); [apply P; cbn; tauto|reflexivity|reflexivity|reflexivity|intros [[a b] v]; reflexivity|reflexivity|reflexivity].
  - apply (HM Z_ Y X 2 1 0); [apply P; cbn; tauto|reflexivity|reflexivity|reflexivity|intros [[a b] v]; reflexivity|reflexivity|reflexivity]. Qed.

(** The rotations that undo themselves: xyz, xzy, yxz, zyx *)
Definition swaps (r : list letter) : Prop := forall a i, a < 3 -> i < 3 -> (shows r a i <-> shows r i a).
(** The limits always show a cube. *)
Theorem C83_cube g nodes_ edges_ r cs : plot_3d g nodes_ edges_ r true = Ok cs -> nodes_ || edges_ = true ->
  exists side, (forall a, a < 3 -> exists lo hi, In (SetLim a lo hi) cs) /\ (forall a lo hi, In (SetLim a lo hi) cs -> (hi - lo = side)%Z).
Proof. intros H Hne. destruct (C83_drawn g nodes_ edges_ r true cs H) as (i0 & i1 & i2 & rest & _ & _ & _ & _ & Hcs & _).
  unfold plot_3d in H. destruct (check_rotation r); [discriminate|]. destruct r as [|x [|y [|z [|? ?]]]]; try discriminate. rewrite Hne in H.
  destruct (if edges_ then mapM (edge_cmd x y z) (edges g) else Ok []) as [es| |] eqn:Ee; [|discriminate|discriminate]. cbn [bind] in H.
  destruct (if nodes_ then c <- nodes_cmd x y z (nodes g) ;; Ok [c] else Ok []) as [ns| |] eqn:En; [|discriminate|discriminate]. cbn [bind andb] in H.
  destruct (aspect_cmds x y z (nodes g)) as [l| |] eqn:El; [|discriminate|discriminate]. cbn [bind] in H. injection H as <-.
  assert (Hes : forall c, In c es -> exists a b d, c = Plot3D a b d).
  { destruct edges_; [|injection Ee as <-; contradiction]. clear -Ee. revert es Ee. induction (edges g) as [|e l IH]; intros es Ee; cbn in Ee; [injection Ee as <-; contradiction|].
    destruct (edge_cmd x y z e) as [c| |] eqn:Ec; [|discriminate|discriminate]. cbn in Ee. destruct (mapM (edge_cmd x y z) l) as [t| |]; [|discriminate|discriminate]. injection Ee as <-.
    intros c' [<-|Hc]; [|eapply IH; eauto]. destruct e as [[n1 n2] v]. unfold edge_cmd in Ec. repeat match type of Ec with bind ?m _ = _ => destruct m; cbn [bind] in Ec; try discriminate end. injection Ec as <-. eauto. }
  assert (Hns : forall c, In c ns -> exists a b d, c = Scatter3D a b d).
  { destruct nodes_; [|injection En as <-; contradiction]. unfold nodes_cmd in En. repeat match type of En with bind ?m _ = _ => destruct m eqn:?; cbn [bind] in En; try discriminate end. injection En as <-.
    intros c [<-|[]]. repeat match goal with H : bind ?m _ = Ok _ |- _ => destruct m; cbn [bind] in H; try discriminate end. match goal with H : Ok _ = Ok _ |- _ => injection H as <- end. eauto. }
  unfold aspect_cmds in El. repeat match type of El with bind ?m _ = _ => destruct m eqn:?; cbn [bind] in El; try discriminate end. injection El as <-.
  match goal with H : maxl [_; _; _] = Ok ?v |- _ => exists (v + v)%Z end. split.
  - intros a Ha. destruct a as [|[|[|a]]]; [| | |lia]; eexists; eexists; rewrite !in_app_iff; cbn; eauto 10.
  - intros a lo hi Hin. rewrite !in_app_iff in Hin. destruct Hin as [Hin|[Hin|[Hin|Hin]]].
    + apply Hes in Hin. destruct Hin as (? & ? & ? & ?); discriminate.
    + apply Hns in Hin. destruct Hin as (? & ? & ? & ?); discriminate.
    + cbn in Hin. destruct Hin as [Hin|[Hin|[Hin|[]]]]; injection Hin as _ <- <-; ring.
    + cbn in Hin. destruct Hin as [Hin|[Hin|[Hin|[]]]]; discriminate. Qed.

Lemma plot_parts g nodes_ edges_ r aspect cs : plot_3d g nodes_ edges_ r aspect = Ok cs ->
  exists x y z es l, r = [x; y; z] /\ In r rotations /\ cs = es ++ l ++ [SetLabel 0 x; SetLabel 1 y; SetLabel 2 z] /\
    (forall c, In c es -> (exists a b d, c = Plot3D a b d) \/ (exists a b d, c = Scatter3D a b d)) /\ (l = [] \/ aspect_cmds x y z (nodes g) = Ok l).
Proof. intros H. unfold plot_3d in H. destruct (check_rotation_spec r) as [[Hr E]|[Hr E]]; rewrite E in H; [|discriminate]. destruct r as [|x [|y [|z [|? ?]]]]; try discriminate.
  destruct (if edges_ then mapM (edge_cmd x y z) (edges g) else Ok []) as [es| |] eqn:Ee; [|discriminate|discriminate]. cbn [bind] in H.
  destruct (if nodes_ then c <- nodes_cmd x y z (nodes g) ;; Ok [c] else Ok []) as [ns| |] eqn:En; [|discriminate|discriminate]. cbn [bind] in H.
  destruct (if (nodes_ || edges_) && aspect then aspect_cmds x y z (nodes g) else Ok []) as [l| |] eqn:El; [|discriminate|discriminate]. cbn [bind] in H. injection H as <-.
  exists x, y, z, (es ++ ns), l. splits; [reflexivity|apply rotation_cases; exact Hr|rewrite <- app_assoc; reflexivity| |destruct ((nodes_ || edges_) && aspect); [auto|injection El as <-; auto]].
  intros c Hc. apply in_app_iff in Hc. destruct Hc as [Hc|Hc]; [left|right].
  - destruct edges_; [|injection Ee as <-; contradiction]. clear -Ee Hc. revert es Ee Hc. induction (edges g) as [|e l IH]; intros es Ee; cbn in Ee; [injection Ee as <-; contradiction|].
    destruct (edge_cmd x y z e) as [c'| |] eqn:Ec; [|discriminate|discriminate]. cbn in Ee. destruct (mapM (edge_cmd x y z) l) as [t| |]; [|discriminate|discriminate]. injection Ee as <-.
    intros [<-|Hc]; [|eapply IH; eauto]. destruct e as [[n1 n2] v]. unfold edge_cmd in Ec. repeat match type of Ec with bind ?m _ = _ => destruct m; cbn [bind] in Ec; try discriminate end. injection Ec as <-. eauto.
  - destruct nodes_; [|injection En as <-; contradiction]. unfold nodes_cmd in En. repeat match type of En with bind ?m _ = _ => destruct m eqn:?; cbn [bind] in En; try discriminate end. injection En as <-.
    destruct Hc as [<-|[]]. repeat match goal with H : bind ?m _ = Ok _ |- _ => destruct m; cbn [bind] in H; try discriminate end. match goal with H : Ok _ = Ok _ |- _ => injection H as <- end. eauto. Qed.
Lemma coord_range (ns : list pos) k lo hi p : minl (map (fun n => coord n k) ns) = Ok lo -> maxl (map (fun n => coord n k) ns) = Ok hi -> In p ns -> (lo <= coord p k <= hi)%Z.
Proof. intros H1 H2 Hp. apply minl_spec in H1. apply maxl_spec in H2. split; [apply (proj2 H1)|apply (proj2 H2)]; apply in_map_iff; eauto. Qed.
(** For these rotations each axis is labelled with the coordinate it shows, and its limits (given if the aspect ratio is
    to be maintained) contain that coordinate of every node. *)
Theorem C83_labels_limits_partial g nodes_ edges_ r aspect cs : plot_3d g nodes_ edges_ r aspect = Ok cs -> swaps r ->
  (forall a l i, In (SetLabel a l) cs -> shows r a i -> l = letter_of i) /\
  (forall a lo hi i p, In (SetLim a lo hi) cs -> shows r a i -> contains g p = true -> (lo <= 2 * coord p i <= hi)%Z).
Proof. intros H Hs. destruct (plot_parts _ _ _ _ _ _ H) as (x & y & z & es & l & -> & Hr & -> & Hes & Hl). clear H.
  assert (Hes1 : forall a u, ~ In (SetLabel a u) es) by (intros a u Hin; apply Hes in Hin; destruct Hin as [(? & ? & ? & ?)|(? & ? & ? & ?)]; discriminate).
  assert (Hes2 : forall a u v, ~ In (SetLim a u v) es) by (intros a u v Hin; apply Hes in Hin; destruct Hin as [(? & ? & ? & ?)|(? & ? & ? & ?)]; discriminate).
  assert (Hl1 : forall a u, ~ In (SetLabel a u) l).
  { intros a u Hin. destruct Hl as [-> |Hl]; [contradiction|]. unfold aspect_cmds in Hl. repeat match type of Hl with bind ?m _ = _ => destruct m eqn:?; cbn [bind] in Hl; try discriminate end. injection Hl as <-. cbn in Hin.
    destruct Hin as [Hin|[Hin|[Hin|[]]]]; discriminate. }
  assert (S02 := Hs 0 2). assert (S20 := Hs 2 0). cbn in Hr. unfold shows in *. split.
  - intros a u i Hin Hi. rewrite !in_app_iff in Hin. destruct Hin as [Hin|[Hin|Hin]]; [exfalso; eapply Hes1; eauto|exfalso; eapply Hl1; eauto|].
    clear Hes Hes1 Hes2 Hl Hl1. assert (Hi3 : i < 3) by (change 3 with (length [x; y; z]); apply nth_error_Some; congruence).
    repeat (destruct Hr as [Hr|Hr]; [injection Hr as <- <- <-; cbn in Hin; destruct Hin as [Hin|[Hin|[Hin|[]]]]; injection Hin as <- <-; destruct i as [|[|[|i]]]; cbn in *; try discriminate; try reflexivity; try lia;
      exfalso; assert (A1 := S02 ltac:(lia) ltac:(lia)); assert (A2 := S20 ltac:(lia) ltac:(lia)); first [discriminate (proj1 A1 eq_refl)|discriminate (proj1 A2 eq_refl)]|]). contradiction.
  - intros a lo hi i p Hin Hi Hp. apply contains_In in Hp. rewrite !in_app_iff in Hin. destruct Hin as [Hin|[Hin|Hin]]; [exfalso; eapply Hes2; eauto| |cbn in Hin; destruct Hin as [Hin|[Hin|[Hin|[]]]]; discriminate].
    clear Hes Hes1 Hes2 Hl1. assert (Hi3 : i < 3) by (change 3 with (length [x; y; z]); apply nth_error_Some; congruence). destruct Hl as [-> |Hl]; [contradiction|].
    unfold aspect_cmds in Hl. repeat match type of Hl with bind ?m _ = _ => destruct m eqn:?; cbn [bind] in Hl; try discriminate end. injection Hl as <-.
    repeat match goal with H1 : minl (map _ (nodes g)) = Ok _, H2 : maxl (map _ (nodes g)) = Ok _ |- _ => pose proof (coord_range _ _ _ _ p H1 H2 Hp); clear H1 end.
    match goal with H : maxl [_; _; _] = Ok _ |- _ => apply maxl_spec in H; destruct H as [_ HM] end.
    pose proof (HM _ (or_introl eq_refl)). pose proof (HM _ (or_intror (or_introl eq_refl))). pose proof (HM _ (or_intror (or_intror (or_introl eq_refl)))). clear HM.
    repeat match goal with H : look xyz_dir _ = Ok _ |- _ => unfold look in H end. replace (2 * coord p i)%Z with (coord p i + coord p i)%Z by lia.
    repeat (destruct Hr as [Hr|Hr]; [injection Hr as <- <- <-; cbn in *; repeat match goal with H : Ok _ = Ok _ |- _ => injection H as <- end;
      destruct Hin as [Hin|[Hin|[Hin|[]]]]; injection Hin as <- <- <-; destruct i as [|[|[|i]]]; cbn in *; try discriminate; try lia;
      exfalso; assert (A1 := S02 ltac:(lia) ltac:(lia)); assert (A2 := S20 ltac:(lia) ltac:(lia)); first [discriminate (proj1 A1 eq_refl)|discriminate (proj1 A2 eq_refl)]|]). contradiction. Qed.
End P3.

Theorem C83_swaps_four : swaps [X; Y; Z_] /\ swaps [X; Z_; Y] /\ swaps [Y; X; Z_] /\ swaps [Z_; Y; X].
Proof. splits; intros a i Ha Hi; destruct a as [|[|[|a]]], i as [|[|[|i]]]; try lia; unfold shows; cbn; split; congruence. Qed.
(** For the other two (yzx and zxy) labels and limits belong to the wrong coordinate: here axis x shows the third
    coordinate, 100, is labelled "y Label" and limited to [0, 0]. *)
Definition g_point : Base.graph pos unit Z := add_node empty_graph (0, 0, 100)%Z None.
Theorem C83_labels_limits_refuted : reachable g_point /\ is_rotation [Y; Z_; X] /\ shows [Y; Z_; X] 0 2 /\
  exists cs, plot_3d g_point true true [Y; Z_; X] true = Ok cs /\ In (SetLabel 0 Y) cs /\ In (SetLim 0 0 0) cs /\ In (Scatter3D [100%Z] [0%Z] [0%Z]) cs.
Proof. splits; [exists [OpAddNode (0, 0, 100)%Z None]; reflexivity|apply rotation_cases; cbn; auto 10|reflexivity|]. eexists. splits; [reflexivity|cbn; auto 10|cbn; auto 10|cbn; auto 10]. Qed.
Definition ops_cube : list (op pos unit Z) := [OpAddEdge (1, 2, 3)%Z (4, 6, 3)%Z 5%Z false].
Definition g_cube : Base.graph pos unit Z := ok_or empty_graph (run ops_cube).
Example ex_plot3 : plot_3d g_cube true true [Y; X; Z_] true = Ok [Plot3D [2; 6]%Z [1; 4]%Z [3; 3]%Z; Scatter3D [2; 6]%Z [1; 4]%Z [3; 3]%Z;
  SetLim 0 4 12; SetLim 1 1 9; SetLim 2 2 10; SetLabel 0 Y; SetLabel 1 X; SetLabel 2 Z_] /\ plot_3d g_cube true true [X; X; Z_] true = Err ValueError /\
  plot_3d (@empty_graph pos unit Z) true false [X; Y; Z_] true = Err ValueError.
Proof. splits; reflexivity. Qed.
