(** Model of /repo/graph/min_cost_flow.py (Graph.minimum_cost_flow, core.py:143-152).  Costs and stocks are integers;
    capacities are integers or float('inf').  The isinstance tests (min_cost_flow.py:19-32) are subsumed by typing.
    [srt] is list.sort on (stock, node) pairs, and insort(balance, x) is srt (x :: balance): the balance is sorted and
    its entries are distinct, so both give the one sorted list of these entries.  [near] is the first entry of the
    sorted supply_sites: an entry with the least distance. *)
From Verif Require Import Prelude Base Loop Sp Fw FlowSpec.
Local Open Scope Z_scope.

(** inf - L = inf *)
Definition ext_sub (a : ext) (b : Z) : ext := match a with Fin x => Fin (x - b) | Inf => Inf end.
(** zip(path[:-1], path[1:]) *)
Fixpoint zip_next {A} (p : list A) : list (A * A) :=
  match p with
  | a :: ((b :: _) as t) => (a, b) :: zip_next t
  | _ => []
  end.

Section Mcf.
Context {A O : Type} {EA : EqDec A}.
Context (cl : gclass) (srt : list (Z * A) -> list (Z * A)) (near : list (ext * (Z * A)) -> ext * (Z * A)).
Notation graph := (graph A O Z).
Notation capgraph := (Base.graph A O ext).
(** (flows, capacities, paths, distances) *)
Definition mcf_graphs : Type := graph * capgraph * graph * @matrix A.

(** min_cost_flow.py:80,86: capacities.edge(s, e, default=capacity.edge(s, e)); arithmetic with None is a TypeError *)
Definition mcf_left (capacity caps : capgraph) (x : A * A) : res ext :=
  match edge caps (fst x) (snd x) with
  | Some c => Ok c
  | None => match edge capacity (fst x) (snd x) with Some c => Ok c | None => Err TypeError end
  end.
(** min_cost_flow.py:80: min(...) over the steps of the path; empty: ValueError *)
Definition mcf_limit (capacity caps : capgraph) (ps : list (A * A)) : res ext :=
  match ps with
  | [] => Err ValueError
  | x :: t => c <- mcf_left capacity caps x ;; foldM (fun m y => d <- mcf_left capacity caps y ;; Ok (ext_min m d)) t c
  end.
(** min_cost_flow.py:83: min(E, abs(D), capacity_limit) *)
Definition mcf_amount (E D : Z) (limit : ext) : Z :=
  match limit with Fin c => Z.min (Z.min E (Z.abs D)) c | Inf => Z.min E (Z.abs D) end.
(** min_cost_flow.py:84-91: the body of the for loop *)
Definition mcf_update (capacity : capgraph) (L : Z) (st : mcf_graphs) (x : A * A) : res mcf_graphs :=
  let '(flows, caps, paths, distances) := st in
  let '(s, e) := x in
  flows <- add_edge flows s e (L + match edge flows s e with Some v => v | None => 0 end) false ;;
  c <- mcf_left capacity caps (s, e) ;;
  let new_capacity := ext_sub c L in
  caps <- add_edge caps s e new_capacity false ;;
  if ext_eqb new_capacity (Fin 0)
  then paths <- del_edge paths s e ;; Ok (flows, caps, paths, all_pairs_shortest_paths paths)
  else Ok (flows, caps, paths, distances).
(** min_cost_flow.py:64: the list comprehension; distances[En][Dn] raises KeyError if a key is missing *)
Fixpoint mcf_sites (distances : @matrix A) (Dn : A) (balance : list (Z * A)) : res (list (ext * (Z * A))) :=
  match balance with
  | [] => Ok []
  | (E, En) :: t =>
      if 0 <? E then
        match eget distances En Dn with
        | None => Err KeyError
        | Some d => r <- mcf_sites distances Dn t ;; Ok ((d, (E, En)) :: r)
        end
      else mcf_sites distances Dn t
  end.
(** min_cost_flow.py:58-97: one iteration of the while loop; state (balance, graphs).  The test `if E < 0` (71-72) never
    succeeds because only entries with E > 0 are candidates. *)
Definition mcf_step (fuel : nat) (capacity : capgraph) (st : list (Z * A) * mcf_graphs)
  : (list (Z * A) * mcf_graphs) + res graph :=
  let '(balance, gs) := st in
  let '(flows, caps, paths, distances) := gs in
  match balance with
  | [] => inr (Ok flows)
  | (D, Dn) :: balance =>
      if 0 <? D then inr (Ok flows) else
      match (sites <- mcf_sites distances Dn balance ;;
             match sites with
             | [] => Ok None
             | _ =>
                 let '(dist, (E, En)) := near sites in
                 let balance := lremove (E, En) balance in
                 if E <? 0 then Ok None else
                 if ext_eqb dist Inf then Err BadLogic else
                 r <- shortest_path fuel paths En Dn [] ;;
                 let ps := zip_next (snd r) in
                 limit <- mcf_limit capacity caps ps ;;
                 let L := mcf_amount E D limit in
                 gs' <- foldM (mcf_update capacity L) ps gs ;;
                 let balance := if 0 <? E - L then srt ((E - L, En) :: balance) else balance in
                 let balance := if D + L <? 0 then srt ((D + L, Dn) :: balance) else balance in
                 Ok (Some (balance, gs'))
             end) with
      | Ok None => inr (Ok flows)
      | Ok (Some st') => inl st'
      | Err x => inr (Err x)
      | OutOfFuel => inr OutOfFuel
      end
  end.
(** min_cost_flow.py:99: sum(d * costs.edge(s, e) for s, e, d in flows.edges()) *)
Definition mcf_total (costs flows : graph) : res Z :=
  foldM (fun t (x : A * A * Z) => let '(s, e, d) := x in match edge costs s e with Some c => Ok (t + d * c) | None => Err TypeError end) (edges flows) 0.
Definition links {V} (g : Base.graph A O V) : list (A * A) := map fst (edges g).
(** min_cost_flow.py:7-100 with costs an object of class cl *)
Definition minimum_cost_flow_of (fuel : nat) (costs : graph) (inventory : dict A Z) (capacity : option capgraph) : res (Z * graph) :=
  if negb (forallb (fun x => 0 <=? snd x) (edges costs)) then Err ValueError else
  capacity <- match capacity with
              | None => from_list empty_graph (map (fun x => LEdge (fst (fst x)) (snd (fst x)) Inf) (edges costs))
              | Some c =>
                  if existsb (fun x => ext_ltb (snd x) (Fin 0)) (edges c) then Err ValueError else
                  if forallb (fun x => mem x (links c)) (links costs) && forallb (fun x => mem x (links costs)) (links c)
                  then Ok c else Err ValueError
              end ;;
  paths <- copy_of cl costs ;;
  let balance := srt (map (fun p => (snd p, fst p)) (filter (fun p => negb (snd p =? 0)) inventory)) in
  flows <- loop fuel (mcf_step fuel capacity) (balance, (empty_graph, empty_graph, paths, all_pairs_shortest_paths paths)) ;;
  total <- mcf_total costs flows ;;
  Ok (total, flows).
End Mcf.
(** on objects of class Graph *)
Notation minimum_cost_flow := (minimum_cost_flow_of IsGraph).
