(** Model of /repo/graph/max_flow.py *)
From Verif Require Import Prelude Base Loop Sp.
Local Open Scope Z_scope.

Section Flow.
Context {A O W : Type} {EA : EqDec A}.
(** max_flow.py:48,85: the float 1 / c; it only serves to choose paths and is left abstract *)
Context (inv : Z -> W).
(** max_flow.py:55: shortest_path(inverted_graph, start, end); None stands for a distance of infinity.
    Left abstract here because the inverted graph has float values; [dijkstra] below is the instance. *)
Context (sp : nat -> graph A O W -> A -> A -> res (option (list A))).
Notation graph := (graph A O Z).

(** Python sum of the edge values *)
Definition sum_values (l : list (A * A * Z)) : Z := fold_right (fun e acc => snd e + acc) 0 l.
(** max_flow.py:60 min of the remaining capacities; min of an empty list is a ValueError *)
Definition mf_left (cap : graph) (x : A * A * Z) : Z :=
  let '(s, e, d) := x in match edge cap s e with Some c => Z.min d c | None => d end.
Definition mf_path_flow (cap : graph) (es : list (A * A * Z)) : res Z :=
  match es with
  | [] => Err ValueError
  | x :: t => Ok (fold_left (fun m y => Z.min m (mf_left cap y)) t (mf_left cap x))
  end.
(** max_flow.py:69-89 the body of the for loop; state (flow_graph, capacity_graph, inverted_graph) *)
Definition mf_update (g : graph) (pf : Z) (st : graph * graph * Base.graph A O W) (x : A * A * Z)
  : res (graph * graph * Base.graph A O W) :=
  let '(flow, cap, ig) := st in
  let '(n1, n2, _) := x in
  match edge g n1 n2 with
  | None => Err TypeError
  | Some c0 =>
      let v := match edge flow n1 n2 with None => pf | Some v => v + pf end in
      flow <- add_edge flow n1 n2 v false ;;
      let c := c0 - v in
      cap <- add_edge cap n1 n2 c false ;;
      ig <- (if 0 <? c then add_edge ig n1 n2 (inv c) false else del_edge ig n1 n2) ;;
      Ok (flow, cap, ig)
  end.
(** max_flow.py:53-89 one iteration; state (unassigned_flow, total_flow, graphs) *)
Definition mf_step (fuel : nat) (g : graph) (s e : A) (st : Z * Z * (graph * graph * Base.graph A O W))
  : (Z * Z * (graph * graph * Base.graph A O W)) + res (Z * graph) :=
  let '(unassigned, total, gs) := st in
  if unassigned =? 0 then inr (Ok (total, fst (fst gs))) else
  match (o <- sp fuel (snd gs) s e ;;
         match o with
         | None => Ok None
         | Some path =>
             es <- edges_path g path ;;
             pf <- mf_path_flow (snd (fst gs)) es ;;
             gs' <- foldM (mf_update g pf) es gs ;;
             Ok (Some (unassigned - pf, total + pf, gs'))
         end) with
  | Ok None => inr (Ok (total, fst (fst gs)))
  | Ok (Some st') => inl st'
  | Err x => inr (Err x)
  | OutOfFuel => inr OutOfFuel
  end.
(** max_flow.py:5-90 maximum_flow *)
Definition maximum_flow (fuel : nat) (g : graph) (s e : A) : res (Z * graph) :=
  if negb (contains g s) then Err ValueError else
  if negb (contains g e) then Err ValueError else
  let unassigned := Z.min (sum_values (edges_from g s)) (sum_values (edges_to g e)) in
  ig <- from_list empty_graph (map (fun x => LEdge (fst (fst x)) (snd (fst x)) (inv (snd x))) (filter (fun x => 0 <? snd x) (edges g))) ;;
  loop fuel (mf_step fuel g s e) (unassigned, 0, (empty_graph, empty_graph, ig)).
End Flow.

(** shortest_path.py on integer edge values as the path finder *)
Definition dijkstra {A O} {EA : EqDec A} (fuel : nat) (g : graph A O Z) (s e : A) : res (option (list A)) :=
  r <- shortest_path fuel g s e [] ;; Ok (match fst r with Inf => None | Fin _ => Some (snd r) end).

(** Model of /repo/graph/max_flow_min_cut.py *)
From Verif Require Import Bfs.
Section MinCut.
Context {A O W : Type} {EA : EqDec A}.
Context (inv : Z -> W) (sp : nat -> graph A O W -> A -> A -> res (option (list A))).
Notation graph := (graph A O Z).
(** max_flow_min_cut.py:30-33 the body of the inner loop; state (working_graph, min_cut).  None - None is a TypeError. *)
Definition mc_edge (g mfg : graph) (n1 : A) (st : graph * list (A * A)) (n2 : A) : res (graph * list (A * A)) :=
  let '(working, cut) := st in
  match edge g n1 n2, edge mfg n1 n2 with
  | Some c, Some v =>
      if c - v =? 0 then working <- del_edge working n1 n2 ;; Ok (working, cut ++ [(n1, n2)]) else Ok st
  | _, _ => Err TypeError
  end.
(** max_flow_min_cut.py:5-38.  set.remove of a missing element is a KeyError. *)
Definition maximum_flow_min_cut (fuel : nat) (g : graph) (s e : A) : res (list (A * A)) :=
  if negb (contains g s) then Err ValueError else
  if negb (contains g e) then Err ValueError else
  r <- maximum_flow inv sp fuel g s e ;;
  let '(flow, mfg) := r in
  if flow =? 0 then Ok [] else
  working <- from_list empty_graph (to_list mfg) ;;
  walk <- breadth_first_walk fuel mfg s (Some e) false ;;
  st <- foldM (fun st n1 => foldM (mc_edge g mfg n1) (nodes_from mfg n1) st) walk (working, []) ;;
  let '(working, cut) := st in
  let cut_nodes := nodes_out_degree working 0 in
  if mem e cut_nodes then Ok (filter (fun x => mem (fst x) (sremove e cut_nodes)) cut) else Err KeyError.
End MinCut.
