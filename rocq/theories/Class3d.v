(** Functions of the package called on an object of class Graph3D, where a method of Graph3D that is called inside differs
    from the one of Graph (core.py:327-377): copy (see copy_of in Base.v), add_edge (asserts that a value is given; rejects
    nodes that are not positions), add_node (rejects nodes that are not positions) and distance (a static method with the
    two required arguments n1, n2; it hides BasicGraph.distance).  The nodes of the graphs are positions (C80); other
    objects that a function adds to a graph of the same class are rejected with TypeError (core.py:339-346). *)
From Verif Require Import Prelude Base Loop Sp Perms Tsp Dfs Hash Topo Dag Cpm Assign Bfs Fw Traffic Jam.

Section Tsp3.
Context {A O : Type} {EA : EqDec A}.
Notation graph := (graph A O Z).
(** core.py:349: graph.distance(tour) lacks n2, graph.distance(tour, return_to_start=True) has an unknown keyword *)
Definition distance_of (c : gclass) (g : graph) (t : list A) : res Z := match c with IsGraph => distance g t | IsGraph3D => Err TypeError end.
(** tsp.py:95-114 tsp_greedy on a Graph3D: the calls before and including the first graph.distance *)
Definition tsp_greedy3 (srt : list (Z * (A * A)) -> list (Z * (A * A))) (g : graph) : res (Z * list A) :=
  t1 <- greedy srt g ;; d1 <- distance_of IsGraph3D g t1 ;; Ok (d1, t1).
(** tsp.py:331-359 tsp_2023 on a Graph3D, up to the first graph.distance *)
Definition tsp_2023_3 (srt : list (Z * (A * A)) -> list (Z * (A * A))) (fuel : nat) (g : graph) : res (Z * list A) :=
  if length (nodes g) <? 7 then brute_force fuel g
  else t <- greedy srt g ;; d <- distance_of IsGraph3D g t ;; Ok (d, t).
End Tsp3.

Section Hash3.
Context {A O V D : Type} {EA : EqDec A} (hashf : A -> list D -> D).
Notation graph := (graph A O V).
Notation hgraph := (Base.graph A (A * option D) Z).
(** core.py:363-367 hash_graph.add_edge(source, receiver) without a value *)
Definition add_edge_no_value (c : gclass) (hg : hgraph) (a b : A) : res hgraph :=
  match c with IsGraph => add_edge hg a b 1%Z false | IsGraph3D => Err AssertionError end.
(** hash_methods.py:58-68 (Hash.fgh_receive) *)
Definition fgh_receive_of (c : gclass) (source : A) (st : list A * hgraph * list A) (receiver : A) : res (list A * hgraph * list A) :=
  let '(sources, hg, visited) := st in
  if mem receiver visited then Ok st else
  let visited := sadd receiver visited in
  let hg := if contains hg receiver then hg else add_node hg receiver (Some (receiver, None)) in
  hg <- add_edge_no_value c hg source receiver ;;
  Ok (if mem receiver sources then sources else sources ++ [receiver], hg, visited).
(** hash_methods.py:34-74 (Hash.fgh_step) *)
Definition fgh_step_of (c : gclass) (fuel : nat) (g : graph) (st : list A * hgraph * list A) : (list A * hgraph * list A) + res hgraph :=
  let '(sources, hg, visited) := st in
  match sources with
  | [] => inr (foldM (fun hg sink => match node hg sink with
                                     | None => Err TypeError
                                     | Some (_, None) => Err AssertionError
                                     | Some (_, Some _) => Ok hg
                                     end) (nodes_out_degree g 0) hg)
  | source :: sources =>
      match (hs <- foldM (fgh_supply fuel g hg source) (nodes_to g source) [] ;;
             let hg := add_node hg source (Some (source, Some (hashf source hs))) in
             foldM (fgh_receive_of c source) (nodes_from g source) (sources, hg, visited)) with
      | Ok st => inl st
      | Err e => inr (Err e)
      | OutOfFuel => inr OutOfFuel
      end
  end.
(** hash_methods.py:19-75 *)
Definition flow_graph_hash_of (c : gclass) (fuel : nat) (g : graph) : res hgraph :=
  loop fuel (fgh_step_of c fuel g) (nodes_in_degree g 0, empty_graph, []).
End Hash3.

Section Ap3.
Context {A O : Type} {EA : EqDec A}.
Notation graph := (graph A O Z).
Context (srt : list (Z * A) -> list (Z * A)) (fresh : nat -> A).
(** assignment_problem.py:51-74 on a Graph3D: with more agents than tasks, the first graph.add_edge(agent, uuid4().hex, v)
    raises TypeError; otherwise nothing differs from Graph (there are no dummy tasks). *)
Definition ap_solver3 (fuel : nat) (g : graph) : res (list (A * A * Z) * graph) :=
  match map snd (edges g) with
  | [] => Err ValueError
  | _ => if length (nodes_out_degree g 0) <? length (nodes_in_degree g 0) then Err TypeError else ap_solver srt fresh fuel g
  end.
End Ap3.

Section Slack3.
Context {A : Type} {EA : EqDec A}.
Notation graph := (graph A Z Z).
(** critical_path.py:154-181 (Cpm.ms_try) up to new_graph.add_edge(n1, n2), which raises *)
Definition ms_try3 (phases : dict A Z) (n1 : A) (s : graph * Z * bool) (n2 : A) : res (graph * Z * bool) :=
  let '(ng, slack, stop) := s in
  if stop then Ok s else
  if eqb n2 n1 then Ok s else
  match dget n2 phases, dget n1 phases with
  | Some p2, Some p1 =>
      if negb (p1 <=? p2)%Z then Ok s else
      if negb (match edge ng n2 n1 with None => true | Some _ => false end) then Ok s else
      if negb (match edge ng n1 n2 with None => true | Some _ => false end) then Ok s else
      Err AssertionError
  | _, _ => Err KeyError
  end.
Definition ms_node3 (phases : dict A Z) (ids : list A) (s : graph * Z * bool) (n1 : A) : res (graph * Z * bool) :=
  if snd s then Ok s else foldM (ms_try3 phases n1) ids s.
(** critical_path.py:128-197 on a Graph3D; the second part is Cpm.ms_purge (its last line, add_edge without a value, is
    only run for edges that are not in the given graph) *)
Definition minimize_for_slack3 (srt : list A -> list A) (ord : nat -> list A -> list A) (fuel : nat) (g : graph) : res graph :=
  r <- critical_path_of IsGraph3D srt fuel g ;;
  phases <- phase_lines_of IsGraph3D ord fuel g ;;
  ng <- copy_of IsGraph3D g ;;
  let slack_nodes := sort_desc (fun p : A * task => t_slack (snd p)) (filter (fun p => 0 <? t_slack (snd p))%Z (snd r)) in
  let ids := map fst slack_nodes in
  s <- foldM (ms_node3 phases ids) (map fst (sort_desc (fun p : A * task => t_dur (snd p)) slack_nodes))
         (ng, total_slack (snd r), false) ;;
  let '(ng, slack, _) := s in
  foldM (ms_purge srt fuel g (fst r) slack) (edges ng) ng.
End Slack3.

Section Jam3.
Context {L N O : Type} {EL : EqDec L} {EN : EqDec N}.
Context (ordN : list N -> list N) (apsrt : dict L (list N) -> dict L (list N)) (pick : nat -> list N -> N) (t0 : Z).
(** traffic_scheduling_problem.py:554-556 and 306-328 on a Graph3D: [movements] is a Graph3D as well, and
    movements.add_node(initial_state) raises because a State is not a tuple.  The check of the routes uses graph.copy(). *)
Fixpoint route_check3 (fuel : nat) (g : graph N O Z) (ls : list (load N)) : res unit :=
  match ls with
  | [] => Ok tt
  | ld :: t =>
      gc <- (if is_nil (ld_proh ld) then Ok g else
               gc <- copy_of IsGraph3D g ;; foldM (fun gc n => del_node gc n) (ordN (ld_proh ld)) gc) ;;
      walk <- breadth_first_walk fuel gc (ld_start ld) None false ;;
      if existsb (fun n => mem n (ld_ends ld)) walk then route_check3 fuel g t else Err UnSolvable
  end.
Definition check_user_input3 (fuel : nat) (g : graph N O Z) (raw : list (L * (N * option (list N) * option (list N)))) : res (dict L (load N)) :=
  r <- read_loads raw [] [] ;;
  let '(all, ns) := r in
  let diff := filter (fun n => negb (contains g n)) ns in
  _ <- (if is_nil diff then Ok tt else diff_check diff (dvals all)) ;;
  if negb (is_ap_solvable apsrt pick (map (fun x => (fst x, ld_ends (snd x))) all)) then Err UnSolvable else
  _ <- route_check3 fuel g (dvals all) ;;
  Ok all.
Definition jam_solver3 (fuel : nat) (g : graph N O Z) (raw : list (L * (N * option (list N) * option (list N)))) (timeout : option Z)
  : res (list (dict L (N * N))) :=
  all <- check_user_input3 fuel g raw ;;
  tm <- timer_new timeout t0 ;;
  Err TypeError.
End Jam3.
