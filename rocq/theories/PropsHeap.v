(** C78, C79: graphs, copies and dictionaries as objects; what a call that raises leaves behind. *)
From Verif Require Import Prelude PreludeFacts Base BaseFacts BaseFacts2 BaseFacts3 Spec MaxFlowFacts HashFacts McfFacts Heap HeapSpec HeapFacts HeapFacts2 HeapFacts3 HeapFacts4.

Section Props.
Context {A O V : Type} {EA : EqDec A} (is_coll : V -> bool).
Notation graph := (Base.graph A O V).
Implicit Types (w : world A O V) (ss : list (stmt A O V)) (G : graph) (g : gobj).
(** what the user sees in graph variable j, in the j-th dict of dicts and in the j-th dict *)
Definition graph_at w j : option graph := match nth_error (w_graphs w) j with Some g => content (w_heap w) g | None => None end.
Definition outer_at w j : option (dict A (dict A V)) := match nth_error (w_outers w) j with Some l => outer_content (w_heap w) l | None => None end.
Definition inner_at w j : option (dict A V) := match nth_error (w_inners w) j with Some l => inner_content (w_heap w) l | None => None end.

Lemma at_graph w abs UO UI j : inv is_coll w abs UO UI -> j < length (w_graphs w) -> graph_at w j = Some (fst (abs j)).
Proof. intros I Hj. destruct (nth_ex _ _ Hj) as [g Hg]. unfold graph_at. rewrite Hg. destruct (i_rep _ _ _ _ _ I j g Hg) as [R _]. eapply content_rep; eauto. Qed.
Lemma at_graph_inv w j G : graph_at w j = Some G -> j < length (w_graphs w).
Proof. unfold graph_at. destruct (nth_error (w_graphs w) j) eqn:E; [intros _; eapply nth_some; eauto|discriminate]. Qed.

(** After any program, every graph variable holds a graph that the operations of C01/C02 build, and no edge value of it
    is a dict, list or tuple. *)
Theorem C78_every_graph_reachable ss : let w := exec_all is_coll ss in
  forall j, j < length (w_graphs w) ->
  exists G, graph_at w j = Some G /\ reachable G /\ (forall a b v, edge G a b = Some v -> is_coll v = false).
Proof. intros w j Hj. destruct (exec_all_inv is_coll ss) as (abs & UO & UI & I). fold w in I. exists (fst (abs j)).
  split; [eapply at_graph; eauto|]. destruct (nth_ex _ _ Hj) as [g Hg]. apply (i_rep _ _ _ _ _ I j g Hg). Qed.

(** A statement changes at most the graph whose method it calls: every other graph variable still holds the same
    content, whatever was copied, exported or imported before and whatever the user does to the dicts he holds. *)
Theorem C78_others_untouched ss s : let w := exec_all is_coll ss in let w' := fst (exec is_coll w s) in
  forall j, j < length (w_graphs w) -> updates s <> Some j -> graph_at w' j = graph_at w j.
Proof. intros w w' j Hj Hu. destruct (exec_all_inv is_coll ss) as (abs & UO & UI & I). fold w in I.
  destruct (exec_inv is_coll w abs UO UI s I) as (abs' & UO' & UI' & I' & Ha & (gs & Hgs) & _). fold w' in I', Hgs.
  rewrite (at_graph w abs UO UI j I Hj), (at_graph w' abs' UO' UI' j I'), Ha; auto. rewrite Hgs, app_length. lia. Qed.

(** A method call has the effect and the outcome of the operation on the content of that graph alone. *)
Theorem C78_call_effect ss i c G : let w := exec_all is_coll ss in graph_at w i = Some G ->
  graph_at (fst (exec is_coll w (Call i c))) i = Some (fst (apply is_coll G c)) /\
  snd (exec is_coll w (Call i c)) = snd (apply is_coll G c).
Proof. intros w HG. assert (Hi := at_graph_inv _ _ _ HG). destruct (exec_all_inv is_coll ss) as (abs & UO & UI & I). fold w in I.
  destruct (nth_ex _ _ Hi) as [g Hg]. destruct (exec_call is_coll w abs UO UI i g c I Hg) as (h' & own' & E & F & I').
  rewrite (at_graph w abs UO UI i I Hi) in HG. injection HG as HG. rewrite E. cbn [fst snd]. rewrite <- HG. split; [|reflexivity].
  rewrite (at_graph _ _ _ _ i I') by exact Hi. unfold set_abs. rewrite Nat.eqb_refl. reflexivity. Qed.

(** copy() makes a further graph with the content that C03 describes, to_dict() a further dict of dicts with the content
    that C03 describes, and neither changes anything the user already has. *)
Theorem C78_copy_effect ss i G : let w := exec_all is_coll ss in graph_at w i = Some G ->
  exists G', copy G = Ok G' /\ let w' := fst (exec is_coll w (Copy i)) in
    snd (exec is_coll w (Copy i)) = Ok tt /\ length (w_graphs w') = S (length (w_graphs w)) /\ graph_at w' (length (w_graphs w)) = Some G'.
Proof. intros w HG. assert (Hi := at_graph_inv _ _ _ HG). destruct (exec_all_inv is_coll ss) as (abs & UO & UI & I). fold w in I.
  destruct (nth_ex _ _ Hi) as [g Hg]. destruct (exec_copy is_coll w abs UO UI i g I Hg) as (h' & c & own' & G' & E & Ec & F & I').
  rewrite (at_graph w abs UO UI i I Hi) in HG. injection HG as HG. exists G'. rewrite <- HG. split; [exact Ec|]. rewrite E. cbn [fst snd w_graphs].
  rewrite app_length. cbn [length]. splits; [reflexivity|lia|]. rewrite (at_graph _ _ _ _ (length (w_graphs w)) I') by (cbn; rewrite app_length; cbn; lia).
  unfold set_abs. rewrite Nat.eqb_refl. reflexivity. Qed.
Theorem C78_to_dict_effect ss i G : let w := exec_all is_coll ss in graph_at w i = Some G ->
  exists D, to_dict G = Ok D /\ let w' := fst (exec is_coll w (ToDict i)) in
    snd (exec is_coll w (ToDict i)) = Ok tt /\ length (w_outers w') = S (length (w_outers w)) /\ outer_at w' (length (w_outers w)) = Some D.
Proof. intros w HG. assert (Hi := at_graph_inv _ _ _ HG). destruct (exec_all_inv is_coll ss) as (abs & UO & UI & I). fold w in I.
  destruct (nth_ex _ _ Hi) as [g Hg]. destruct (exec_to_dict is_coll w abs UO UI i g I Hg) as (h' & l & D & UO' & UI' & E & ED & HD & _ & I').
  rewrite (at_graph w abs UO UI i I Hi) in HG. injection HG as HG. exists D. rewrite <- HG. split; [exact ED|]. rewrite E. cbn [fst snd w_outers w_heap].
  rewrite app_length. cbn [length]. splits; [reflexivity|lia|]. unfold outer_at. cbn [w_outers w_heap]. rewrite nth_error_app2, Nat.sub_diag by lia. exact HD. Qed.
(** from_dict() has the effect of the same calls of add_node and add_edge as for a dict that is nobody else's *)
Theorem C78_from_dict_effect ss i j G D : let w := exec_all is_coll ss in graph_at w i = Some G -> outer_at w j = Some D ->
  graph_at (fst (exec is_coll w (FromDict i j))) i = Some (fst (put_all (put_row is_coll) D G)) /\
  snd (exec is_coll w (FromDict i j)) = snd (put_all (put_row is_coll) D G).
Proof. intros w HG HD. assert (Hi := at_graph_inv _ _ _ HG). destruct (exec_all_inv is_coll ss) as (abs & UO & UI & I). fold w in I.
  destruct (nth_ex _ _ Hi) as [g Hg]. unfold outer_at in HD. destruct (nth_error (w_outers w) j) as [l|] eqn:Hl; [|discriminate].
  destruct (exec_from_dict is_coll w abs UO UI i j g l I Hg Hl) as (D' & h' & own' & HD' & E & F & I'). rewrite HD in HD'. injection HD' as <-.
  rewrite (at_graph w abs UO UI i I Hi) in HG. injection HG as HG. rewrite E. cbn [fst snd]. rewrite <- HG. split; [|reflexivity].
  rewrite (at_graph _ _ _ _ i I') by exact Hi. unfold set_abs. rewrite Nat.eqb_refl. reflexivity. Qed.
(** No graph operation changes a dict the user holds: only his own assignments do. *)
Theorem C78_dicts_untouched ss s : let w := exec_all is_coll ss in let w' := fst (exec is_coll w s) in edits_dicts s = false ->
  (forall j, j < length (w_outers w) -> outer_at w' j = outer_at w j) /\
  (forall j, j < length (w_inners w) -> inner_at w' j = inner_at w j).
Proof. intros w w' Hs. destruct (exec_all_inv is_coll ss) as (abs & UO & UI & I). fold w in I.
  destruct (exec_inv is_coll w abs UO UI s I) as (abs' & UO' & UI' & I' & _ & _ & Hk & (os & Ho) & (is & Hi)). fold w' in I', Hk, Ho, Hi.
  specialize (Hk Hs). split; intros j Hj.
  - unfold outer_at. rewrite Ho, nth_error_app1 by exact Hj. destruct (nth_ex _ _ Hj) as [l Hl]. rewrite Hl. assert (Ul := i_vo _ _ _ _ _ I j l Hl).
    unfold outer_content. rewrite Hk by auto. destruct (i_outer _ _ _ _ _ I l Ul) as (d & -> & Hd). clear -Hd Hk. induction d as [|[a x] d IH]; cbn; [reflexivity|].
    rewrite Hk by (right; apply Hd; left; reflexivity). rewrite IH; [reflexivity|]. intros y Hy. apply Hd. right. exact Hy.
  - unfold inner_at. rewrite Hi, nth_error_app1 by exact Hj. destruct (nth_ex _ _ Hj) as [l Hl]. rewrite Hl. assert (Ul := i_vi _ _ _ _ _ I j l Hl).
    unfold inner_content. rewrite Hk by auto. reflexivity. Qed.
(** every variable of the user holds a proper object of its kind *)
Theorem C78_every_dict_well_formed ss : let w := exec_all is_coll ss in
  (forall j, j < length (w_outers w) -> exists D, outer_at w j = Some D) /\ (forall j, j < length (w_inners w) -> exists D, inner_at w j = Some D).
Proof. intros w. destruct (exec_all_inv is_coll ss) as (abs & UO & UI & I). fold w in I. split; intros j Hj; destruct (nth_ex _ _ Hj) as [l Hl].
  - unfold outer_at. rewrite Hl. destruct (outer_vals is_coll w abs UO UI l I (i_vo _ _ _ _ _ I j l Hl)) as (d & D & _ & _ & HO & _). eauto.
  - unfold inner_at. rewrite Hl. destruct (i_inner _ _ _ _ _ I l (i_vi _ _ _ _ _ I j l Hl)) as (x & Hx). unfold inner_content. rewrite Hx. eauto. Qed.

(** ** C79: calls that raise *)
(** A call that raises leaves a graph on which everything C01 says still holds (it is one the operations build). *)
Theorem C79_state_after_exception ss i c e G : let w := exec_all is_coll ss in graph_at w i = Some G ->
  snd (exec is_coll w (Call i c)) = Err e ->
  exists G', graph_at (fst (exec is_coll w (Call i c))) i = Some G' /\ reachable G' /\
    ((exists a b v bi, c = AddEdge a b v bi /\ is_coll v = true /\ e = ValueError /\ G' = G) \/
     (exists good bad rest, c = FromList (map Item good ++ bad :: rest) /\ from_list G good = Ok G' /\
        (bad = BadItem e \/
         e = ValueError /\ exists a b v, is_coll v = true /\ (bad = Item (LEdge a b v) \/ exists bi, bad = Item (LEdgeBi a b v bi))))).
Proof. intros w HG He. destruct (C78_call_effect ss i c G HG) as [E1 E2]. fold w in E1, E2. rewrite He in E2. symmetry in E2.
  assert (S : sound is_coll G). { destruct (C78_every_graph_reachable ss i (at_graph_inv _ _ _ HG)) as (G0 & H0 & HS). fold w in H0. rewrite HG in H0. injection H0 as ->. exact HS. }
  destruct (call_upd is_coll (mkObj 0 0 0 0 0 0) c G S) as [_ S']. exists (fst (apply is_coll G c)). splits; [exact E1|apply S'|]. clear E1 He HG w.
  destruct c as [n o|a b v bi|a b|n|xs|n|n]; cbn [apply] in *; try (cbn in E2; discriminate).
  - left. unfold put_edge in *. destruct (is_coll v) eqn:Ev; [|destruct (sound_add_edge is_coll G a b v bi S Ev) as (G' & EG & _); rewrite EG in E2; discriminate].
    cbn in *. injection E2 as <-. exists a, b, v, bi. auto.
  - destruct (sound_del_edge is_coll G a b S) as (G' & EG & _). rewrite EG in E2. discriminate.
  - destruct (sound_del_node is_coll G n S) as (G' & EG & _). rewrite EG in E2. discriminate.
  - right. clear S'. revert G S E2. induction xs as [|x xs IH]; intros G S E2; cbn in E2; [discriminate|].

    destruct (put_item is_coll G x) as [G1 r] eqn:Ex. destruct r as [u|e1|]; cbn [fst snd] in E2.
    + assert (S1 : exists y, x = Item y /\ add_link G y = Ok G1 /\ sound is_coll G1).
      { destruct x as [[a b v|a b v bi|n]|e1]; cbn in Ex; [| | |discriminate].
        - unfold put_edge in Ex. destruct (is_coll v) eqn:Ev; [discriminate|]. destruct (sound_add_edge is_coll G a b v false S Ev) as (G' & EG & S1). rewrite EG in Ex. cbn in Ex. injection Ex as <- _. eauto.
        - unfold put_edge in Ex. destruct (is_coll v) eqn:Ev; [discriminate|]. destruct (sound_add_edge is_coll G a b v bi S Ev) as (G' & EG & S1). rewrite EG in Ex. cbn in Ex. injection Ex as <- _. eauto.
        - injection Ex as <- _. eexists. splits; [reflexivity|reflexivity|apply sound_add_node; exact S]. }
      destruct S1 as (y & -> & Hy & S1). destruct (IH G1 S1 E2) as (good & bad & rest & Hc & Hg & Hb). injection Hc as ->. exists (y :: good), bad, rest.
      splits; [reflexivity| |exact Hb]. cbn [put_all]. rewrite Ex. unfold from_list. cbn [foldM]. rewrite Hy. exact Hg.
    + exists [], x, xs. cbn [put_all map app]. rewrite Ex. cbn [fst]. injection E2 as ->.
      destruct x as [[a b v|a b v bi|n]|e2]; cbn in Ex; [| |discriminate|injection Ex as <- <-; splits; auto].
      * unfold put_edge in Ex. destruct (is_coll v) eqn:Ev; [|destruct (sound_add_edge is_coll G a b v false S Ev) as (G' & EG & _); rewrite EG in Ex; discriminate].
        injection Ex as <- <-. splits; [reflexivity|reflexivity|right; split; [reflexivity|exists a, b, v; auto]].
      * unfold put_edge in Ex. destruct (is_coll v) eqn:Ev; [|destruct (sound_add_edge is_coll G a b v bi S Ev) as (G' & EG & _); rewrite EG in Ex; discriminate].
        injection Ex as <- <-. splits; [reflexivity|reflexivity|right; split; [reflexivity|exists a, b, v; eauto]].
    + discriminate. Qed.

(** An entry is accepted unless it is malformed or its value is a dict, list or tuple. *)
Definition accepted (x : link A V) : bool := match x with LEdge _ _ v | LEdgeBi _ _ v _ => negb (is_coll v) | LNode _ => true end.
Lemma put_good xs ys G : sound is_coll G -> forallb accepted xs = true ->
  exists G', from_list G xs = Ok G' /\ sound is_coll G' /\ put_all (put_item is_coll) (map Item xs ++ ys) G = put_all (put_item is_coll) ys G'.
Proof. revert G. induction xs as [|x xs IH]; intros G S Hx; [exists G; auto|]. cbn in Hx. apply andb_prop in Hx. destruct Hx as [Hx Hxs].
  assert (S1 : exists G1, add_link G x = Ok G1 /\ sound is_coll G1 /\ put_item is_coll G (Item x) = (G1, Ok tt)).
  { destruct x as [a b v|a b v bi|n]; cbn in Hx; try apply negb_true_iff in Hx.
    - destruct (sound_add_edge is_coll G a b v false S Hx) as (G1 & E & S1). exists G1. cbn. unfold put_edge. rewrite Hx, E. auto.
    - destruct (sound_add_edge is_coll G a b v bi S Hx) as (G1 & E & S1). exists G1. cbn. unfold put_edge. rewrite Hx, E. auto.
    - exists (add_node G n None). splits; [reflexivity|apply sound_add_node; exact S|reflexivity]. }
  destruct S1 as (G1 & E1 & S1 & P1). destruct (IH G1 S1 Hxs) as (G' & E & S' & P). exists G'. splits; [|exact S'|].
  - unfold from_list. cbn [foldM]. rewrite E1. exact E.
  - cbn [map app put_all]. rewrite P1. exact P. Qed.
Lemma sound_at ss i G : graph_at (exec_all is_coll ss) i = Some G -> sound is_coll G.
Proof. intros HG. destruct (C78_every_graph_reachable ss i (at_graph_inv _ _ _ HG)) as (G0 & H0 & HS). cbn zeta in H0. rewrite HG in H0. injection H0 as ->. exact HS. Qed.

(** from_list() with a bad entry stops there with the exception of that entry, and has added the entries before it. *)
Theorem C79_from_list_stops ss i G good bad rest e : let w := exec_all is_coll ss in graph_at w i = Some G ->
  forallb accepted good = true ->
  (bad = BadItem e \/ e = ValueError /\ exists x, bad = Item x /\ accepted x = false) ->
  let c := FromList (map Item good ++ bad :: rest) in
  snd (exec is_coll w (Call i c)) = Err e /\
  exists G', from_list G good = Ok G' /\ graph_at (fst (exec is_coll w (Call i c))) i = Some G'.
Proof. intros w HG Hg Hb c. destruct (C78_call_effect ss i c G HG) as [E1 E2]. fold w in E1, E2. rewrite E1, E2.
  destruct (put_good good (bad :: rest) G (sound_at _ _ _ HG) Hg) as (G' & EG & S' & P). cbn [apply c]. rewrite P. cbn [put_all].
  assert (HB : put_item is_coll G' bad = (G', Err e)).
  { destruct Hb as [-> |(-> & x & -> & Hx)]; [reflexivity|]. destruct x as [a b v|a b v bi|n]; cbn in Hx; [| |discriminate]; apply negb_false_iff in Hx; cbn; unfold put_edge; rewrite Hx; reflexivity. }
  rewrite HB. split; [reflexivity|]. exists G'. auto. Qed.
(** from_list() with accepted entries only returns, and adds them all *)
Theorem C79_from_list_accepts ss i G xs : let w := exec_all is_coll ss in graph_at w i = Some G -> forallb accepted xs = true ->
  snd (exec is_coll w (Call i (FromList (map Item xs)))) = Ok tt /\
  exists G', from_list G xs = Ok G' /\ graph_at (fst (exec is_coll w (Call i (FromList (map Item xs))))) i = Some G'.
Proof. intros w HG Hg. destruct (C78_call_effect ss i (FromList (map Item xs)) G HG) as [E1 E2]. fold w in E1, E2. rewrite E1, E2.
  destruct (put_good xs [] G (sound_at _ _ _ HG) Hg) as (G' & EG & S' & P). rewrite app_nil_r in P. cbn [apply]. rewrite P. split; [reflexivity|]. exists G'. auto. Qed.
(** add_edge() with a dict, list or tuple as value: ValueError, and nothing has changed, not even the nodes *)
Theorem C79_add_edge_rejected ss i G a b v bi : let w := exec_all is_coll ss in graph_at w i = Some G -> is_coll v = true ->
  snd (exec is_coll w (Call i (AddEdge a b v bi))) = Err ValueError /\ graph_at (fst (exec is_coll w (Call i (AddEdge a b v bi)))) i = Some G.
Proof. intros w HG Hv. destruct (C78_call_effect ss i (AddEdge a b v bi) G HG) as [E1 E2]. fold w in E1, E2. rewrite E1, E2. cbn [apply]. unfold put_edge. rewrite Hv. auto. Qed.
(** the entries of a dict of dicts, in order: (n,) for n: {} and (n, m, v) for n: {.., m: v, ..} *)
Definition dict_entries (D : dict A (dict A V)) : list (link A V) :=
  flat_map (fun p => match snd p with [] => [LNode (fst p)] | _ => map (fun q => LEdge (fst p) (fst q) (snd q)) (snd p) end) D.
Lemma put_all_app {X} (f : graph -> X -> graph * res unit) xs ys G : put_all f (xs ++ ys) G = match put_all f xs G with (G', Ok _) => put_all f ys G' | r => r end.
Proof. revert G. induction xs as [|x xs IH]; intros G; cbn; [reflexivity|]. destruct (f G x) as [G1 [[]| |]]; auto. Qed.
Lemma put_all_map {X Y} (f : graph -> Y -> graph * res unit) (h : X -> Y) xs G : put_all f (map h xs) G = put_all (fun G x => f G (h x)) xs G.
Proof. revert G. induction xs as [|x xs IH]; intros G; cbn; [reflexivity|]. destruct (f G (h x)) as [G1 [[]| |]]; auto. Qed.
Lemma put_rows D G : put_all (put_row is_coll) D G = put_all (put_item is_coll) (map Item (dict_entries D)) G.
Proof. revert G. induction D as [|[n x] D IH]; intros G; [reflexivity|]. unfold dict_entries. cbn [flat_map fst snd]. rewrite map_app, put_all_app. cbn [put_all].
  replace (put_row is_coll G (n, x)) with (put_all (put_item is_coll) (map Item (match x with [] => [LNode n] | _ => map (fun q => LEdge n (fst q) (snd q)) x end)) G).
  - destruct (put_all _ _ G) as [G1 [[]| |]]; auto.
  - unfold put_row. destruct x as [|q x]; cbn [is_nil fst snd]; [reflexivity|]. rewrite map_map, put_all_map. reflexivity. Qed.
(** from_dict(): adds the entries of the dict up to the first whose value is a dict, list or tuple; ValueError there *)
Theorem C79_from_dict_effect ss i j G D : let w := exec_all is_coll ss in graph_at w i = Some G -> outer_at w j = Some D ->
  let w' := fst (exec is_coll w (FromDict i j)) in let r := snd (exec is_coll w (FromDict i j)) in
  exists good G', from_list G good = Ok G' /\ graph_at w' i = Some G' /\ reachable G' /\ forallb accepted good = true /\
    (dict_entries D = good /\ r = Ok tt \/ exists bad rest, dict_entries D = good ++ bad :: rest /\ accepted bad = false /\ r = Err ValueError).
Proof. intros w HG HD w' r. destruct (C78_from_dict_effect ss i j G D HG HD) as [E1 E2]. fold w in E1, E2. fold w' in E1. fold r in E2. rewrite put_rows in E1, E2. rewrite E2, E1. clear E1 E2 r w' HD.
  assert (S := sound_at _ _ _ HG). generalize (dict_entries D). intros xs.
  assert (Hsplit : exists good tl, xs = good ++ tl /\ forallb accepted good = true /\ (tl = [] \/ exists bad rest, tl = bad :: rest /\ accepted bad = false)).
  { clear. induction xs as [|x xs IH]; [exists [], []; auto|]. destruct (accepted x) eqn:E.
    - destruct IH as (good & tl & -> & Hg & Ht). exists (x :: good), tl. splits; [reflexivity|cbn; rewrite E; exact Hg|exact Ht].
    - exists [], (x :: xs). splits; [reflexivity|reflexivity|right; eauto]. }
  destruct Hsplit as (good & tl & -> & Hg & Ht). rewrite map_app. destruct (put_good good (map Item tl) G S Hg) as (G' & EG & S' & P). rewrite P.
  exists good, G'. destruct Ht as [-> |(bad & rest & -> & Hb)].
  - cbn. splits; [exact EG|reflexivity|apply S'|exact Hg|]. left. rewrite app_nil_r. auto.
  - assert (HB : put_item is_coll G' (Item bad) = (G', Err ValueError)).
    { destruct bad as [a b v|a b v bi|n]; cbn in Hb; [| |discriminate]; apply negb_false_iff in Hb; cbn; unfold put_edge; rewrite Hb; reflexivity. }
    cbn [map put_all]. rewrite HB. splits; [exact EG|reflexivity|apply S'|exact Hg|]. right. eauto. Qed.
End Props.

(** Examples: values are numbers or lists of numbers. *)
Definition ex_coll (v : Z + list Z) : bool := match v with inl _ => false | inr _ => true end.
(** d = {}; e = {}; d[1] = e; e[2] = 5; d[3] = e (the same dict); g = Graph(); g.from_dict(d); c = g.copy(); x = c.to_dict();
    y = x[1]; y[2] = 9; del e[2]; c.add_edge(1, 2, 7) *)
Definition ex_prog : list (stmt nat unit (Z + list Z)) :=
  [NewOuter; NewInner; SetOuter 0 1 0; SetInner 0 2 (inl 5%Z); SetOuter 0 3 0; NewGraph; FromDict 0 0; Copy 0; ToDict 1; GetInner 1 1; SetInner 1 2 (inl 9%Z); DelInner 0 2; Call 1 (AddEdge 1 2 (inl 7%Z) false)].
Definition ex_edges j := match graph_at (exec_all ex_coll ex_prog) j with Some G => edges G | None => [] end.
Example ex_heap : ex_edges 0 = [(1, 2, inl 5%Z); (3, 2, inl 5%Z)] /\ ex_edges 1 = [(1, 2, inl 7%Z); (3, 2, inl 5%Z)] /\
  outer_at (exec_all ex_coll ex_prog) 0 = Some [(1, []); (3, [])] /\ outer_at (exec_all ex_coll ex_prog) 1 = Some [(1, [(2, inl 9%Z)]); (2, []); (3, [(2, inl 5%Z)])].
Proof. vm_compute. splits; reflexivity. Qed.
(** a third statement that raises half way *)
Definition ex_stmt : stmt nat unit (Z + list Z) := Call 0 (FromList [Item (LEdge 4 5 (inl 1%Z)); Item (LEdge 5 6 (inr [1%Z])); Item (LNode 7)]).
Example ex_half : snd (exec ex_coll (exec_all ex_coll ex_prog) ex_stmt) = Err ValueError /\
  (match graph_at (fst (exec ex_coll (exec_all ex_coll ex_prog) ex_stmt)) 0 with Some G => nodes G | None => [] end) = [1; 2; 3; 4; 5] /\
  forallb (accepted (A := nat) ex_coll) [LEdge 4 5 (inl 1%Z)] = true /\ accepted (A := nat) ex_coll (LEdge 5 6 (inr [1%Z])) = false.
Proof. vm_compute. splits; reflexivity. Qed.
