(** Model of /repo/graph/max_flow.py over capacities of any kind: the operations on numbers are a parameter, as in GSp.
    [Flow] is the case of integer capacities; PropsFlowFloat2 is the case of floats.  Nothing is assumed about the
    operations: they may round. *)
From Verif Require Import Prelude Base Loop GSp.

Section GFlow.
Context {A O W : Type} {EA : EqDec A} (ar : arith W) (sub : W -> W -> W).
(** max_flow.py:48,85: 1 / c *)
Context (inv : W -> W).
(** max_flow.py:22-23: sum(...).  A parameter, because sum() of floats adds from left to right in older versions of
    Python and with a correction term since 3.12. *)
Context (sumf : list W -> W).
Notation graph := (graph A O W).

(** min(a, b): the second if it is smaller *)
Definition pmin (a b : W) : W := if a_ltb ar b a then b else a.
(** max_flow.py:60 min(d, capacity_graph.edge(s, e, default=float("inf"))) *)
Definition gmf_left (cap : graph) (x : A * A * W) : W :=
  let '(s, e, d) := x in pmin d (match edge cap s e with Some c => c | None => a_inf ar end).
(** max_flow.py:60 min([...]); min of an empty list is a ValueError *)
Definition gmf_path_flow (cap : graph) (es : list (A * A * W)) : res W :=
  match es with
  | [] => Err ValueError
  | x :: t => Ok (fold_left (fun m y => pmin m (gmf_left cap y)) t (gmf_left cap x))
  end.
(** max_flow.py:69-89 the body of the for loop; state (flow_graph, capacity_graph, inverted_graph) *)
Definition gmf_update (g : graph) (pf : W) (st : graph * graph * graph) (x : A * A * W) : res (graph * graph * graph) :=
  let '(flow, cap, ig) := st in
  let '(n1, n2, _) := x in
  match edge g n1 n2 with
  | None => Err TypeError
  | Some c0 =>
      let v := match edge flow n1 n2 with None => pf | Some v => a_add ar v pf end in
      flow <- add_edge flow n1 n2 v false ;;
      let c := sub c0 v in
      cap <- add_edge cap n1 n2 c false ;;
      ig <- (if a_ltb ar (a_zero ar) c then add_edge ig n1 n2 (inv c) false else del_edge ig n1 n2) ;;
      Ok (flow, cap, ig)
  end.
(** max_flow.py:55-57: shortest_path(inverted_graph, start, end), and d == float("inf") *)
Definition gmf_search (fuel : nat) (ig : graph) (s e : A) : res (option (list A)) :=
  r <- gshortest_path ar fuel ig s e [] ;; Ok (if a_eqb ar (fst r) (a_inf ar) then None else Some (snd r)).
(** max_flow.py:53-89 one iteration; state (unassigned_flow, total_flow, graphs) *)
Definition gmf_step (fuel : nat) (g : graph) (s e : A) (st : W * W * (graph * graph * graph))
  : (W * W * (graph * graph * graph)) + res (W * graph) :=
  let '(unassigned, total, gs) := st in
  if a_eqb ar unassigned (a_zero ar) then inr (Ok (total, fst (fst gs))) else
  match (o <- gmf_search fuel (snd gs) s e ;;
         match o with
         | None => Ok None
         | Some path =>
             es <- edges_path g path ;;
             pf <- gmf_path_flow (snd (fst gs)) es ;;
             gs' <- foldM (gmf_update g pf) es gs ;;
             Ok (Some (sub unassigned pf, a_add ar total pf, gs'))
         end) with
  | Ok None => inr (Ok (total, fst (fst gs)))
  | Ok (Some st') => inl st'
  | Err x => inr (Err x)
  | OutOfFuel => inr OutOfFuel
  end.
(** max_flow.py:5-90 maximum_flow *)
Definition gmaximum_flow (fuel : nat) (g : graph) (s e : A) : res (W * graph) :=
  if negb (contains g s) then Err ValueError else
  if negb (contains g e) then Err ValueError else
  let unassigned := pmin (sumf (map snd (edges_from g s))) (sumf (map snd (edges_to g e))) in
  ig <- from_list empty_graph (map (fun x => LEdge (fst (fst x)) (snd (fst x)) (inv (snd x))) (filter (fun x => a_ltb ar (a_zero ar) (snd x)) (edges g))) ;;
  loop fuel (gmf_step fuel g s e) (unassigned, a_zero ar, (empty_graph, empty_graph, ig)).
End GFlow.
