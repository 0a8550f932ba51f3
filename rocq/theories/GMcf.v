(** Model of /repo/graph/min_cost_flow.py (Graph.minimum_cost_flow, core.py:143-152) with stocks and capacities of any kind:
    the operations on amounts are a parameter and may round.  [Mcf] is the case of integers.  The costs per unit are
    integers, so that distances are exact (simplification: the code also takes floats there).
    [srt] is list.sort on (stock, node) pairs, and insort(balance, x) is srt (x :: balance).  [near] is the first entry of
    the sorted supply_sites. *)
From Verif Require Import Prelude Base Loop Sp Fw FlowSpec Mcf GSp GFlow.

Section GMcf.
Context {A O W : Type} {EA : EqDec A} {EW : EqDec W} (ar : arith W) (sub : W -> W -> W).
(** abs(D), an amount times a cost, and sum() *)
Context (abs : W -> W) (times : W -> Z -> W) (sumf : list W -> W).
Context (cl : gclass) (srt : list (W * A) -> list (W * A)) (near : list (ext * (W * A)) -> ext * (W * A)).
Notation graph := (graph A O Z).
Notation amounts := (Base.graph A O W).
(** (flows, capacities, paths, distances) *)
Definition gmcf_graphs : Type := amounts * amounts * graph * @matrix A.

(** min_cost_flow.py:80,86: capacities.edge(s, e, default=capacity.edge(s, e)); arithmetic with None is a TypeError *)
Definition gmcf_left (capacity caps : amounts) (x : A * A) : res W :=
  match edge caps (fst x) (snd x) with
  | Some c => Ok c
  | None => match edge capacity (fst x) (snd x) with Some c => Ok c | None => Err TypeError end
  end.
(** min_cost_flow.py:80: min(...) over the steps of the path; empty: ValueError *)
Definition gmcf_limit (capacity caps : amounts) (ps : list (A * A)) : res W :=
  match ps with
  | [] => Err ValueError
  | x :: t => c <- gmcf_left capacity caps x ;; foldM (fun m y => d <- gmcf_left capacity caps y ;; Ok (pmin ar m d)) t c
  end.
(** min_cost_flow.py:83: min(E, abs(D), capacity_limit) *)
Definition gmcf_amount (E D limit : W) : W := pmin ar (pmin ar E (abs D)) limit.
(** min_cost_flow.py:84-91: the body of the for loop *)
Definition gmcf_update (capacity : amounts) (L : W) (st : gmcf_graphs) (x : A * A) : res gmcf_graphs :=
  let '(flows, caps, paths, distances) := st in
  let '(s, e) := x in
  flows <- add_edge flows s e (a_add ar L (match edge flows s e with Some v => v | None => a_zero ar end)) false ;;
  c <- gmcf_left capacity caps (s, e) ;;
  let new_capacity := sub c L in
  caps <- add_edge caps s e new_capacity false ;;
  if a_eqb ar new_capacity (a_zero ar)
  then paths <- del_edge paths s e ;; Ok (flows, caps, paths, all_pairs_shortest_paths paths)
  else Ok (flows, caps, paths, distances).
(** min_cost_flow.py:64: the list comprehension; distances[En][Dn] raises KeyError if a key is missing *)
Fixpoint gmcf_sites (distances : @matrix A) (Dn : A) (balance : list (W * A)) : res (list (ext * (W * A))) :=
  match balance with
  | [] => Ok []
  | (E, En) :: t =>
      if a_ltb ar (a_zero ar) E then
        match eget distances En Dn with
        | None => Err KeyError
        | Some d => r <- gmcf_sites distances Dn t ;; Ok ((d, (E, En)) :: r)
        end
      else gmcf_sites distances Dn t
  end.
(** min_cost_flow.py:58-97: one iteration of the while loop; state (balance, graphs) *)
Definition gmcf_step (fuel : nat) (capacity : amounts) (st : list (W * A) * gmcf_graphs)
  : (list (W * A) * gmcf_graphs) + res amounts :=
  let '(balance, gs) := st in
  let '(flows, caps, paths, distances) := gs in
  match balance with
  | [] => inr (Ok flows)
  | (D, Dn) :: balance =>
      if a_ltb ar (a_zero ar) D then inr (Ok flows) else
      match (sites <- gmcf_sites distances Dn balance ;;
             match sites with
             | [] => Ok None
             | _ =>
                 let '(dist, (E, En)) := near sites in
                 let balance := lremove (E, En) balance in
                 if a_ltb ar E (a_zero ar) then Ok None else
                 if ext_eqb dist Inf then Err BadLogic else
                 r <- shortest_path fuel paths En Dn [] ;;
                 let ps := zip_next (snd r) in
                 limit <- gmcf_limit capacity caps ps ;;
                 let L := gmcf_amount E D limit in
                 gs' <- foldM (gmcf_update capacity L) ps gs ;;
                 let balance := if a_ltb ar (a_zero ar) (sub E L) then srt ((sub E L, En) :: balance) else balance in
                 let balance := if a_ltb ar (a_add ar D L) (a_zero ar) then srt ((a_add ar D L, Dn) :: balance) else balance in
                 Ok (Some (balance, gs'))
             end) with
      | Ok None => inr (Ok flows)
      | Ok (Some st') => inl st'
      | Err x => inr (Err x)
      | OutOfFuel => inr OutOfFuel
      end
  end.
(** min_cost_flow.py:99: sum(d * costs.edge(s, e) for s, e, d in flows.edges()) *)
Definition gmcf_total (costs : graph) (flows : amounts) : res W :=
  l <- foldM (fun t (x : A * A * W) => let '(s, e, d) := x in match edge costs s e with Some c => Ok (t ++ [times d c]) | None => Err TypeError end) (edges flows) [] ;;
  Ok (sumf l).
(** min_cost_flow.py:33-43: the capacities used *)
Definition gmcf_capacity (costs : graph) (capacity : option amounts) : res amounts :=
  match capacity with
  | None => from_list empty_graph (map (fun x => LEdge (fst (fst x)) (snd (fst x)) (a_inf ar)) (edges costs))
  | Some c =>
      if existsb (fun x => a_ltb ar (snd x) (a_zero ar)) (edges c) then Err ValueError else
      if forallb (fun x => mem x (links c)) (links costs) && forallb (fun x => mem x (links costs)) (links c)
      then Ok c else Err ValueError
  end.
(** min_cost_flow.py:7-100 with costs an object of class cl *)
Definition gminimum_cost_flow_of (fuel : nat) (costs : graph) (inventory : dict A W) (capacity : option amounts) : res (W * amounts) :=
  if negb (forallb (fun x => Z.leb 0 (snd x)) (edges costs)) then Err ValueError else
  capacity <- gmcf_capacity costs capacity ;;
  paths <- copy_of cl costs ;;
  let balance := srt (map (fun p => (snd p, fst p)) (filter (fun p => negb (a_eqb ar (snd p) (a_zero ar))) inventory)) in
  flows <- loop fuel (gmcf_step fuel capacity) (balance, (empty_graph, empty_graph, paths, all_pairs_shortest_paths paths)) ;;
  total <- gmcf_total costs flows ;;
  Ok (total, flows).
End GMcf.
