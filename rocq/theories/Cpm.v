(** Model of /repo/graph/critical_path.py.  Durations are integers; a node object that is not a number
    is represented by None (the default object of add_node). *)
From Verif Require Import Prelude Base Loop Topo Dag.
Local Open Scope Z_scope.

(** critical_path.py:6-25 Task.  The initial values of earliest_finish, latest_start and latest_finish
    (inf, 0, inf) are overwritten before they are read; latest_* are written as 0 until then. *)
Record task := mkT { t_dur : Z; t_es : Z; t_ef : Z; t_ls : Z; t_lf : Z }.
(** critical_path.py:43-45 *)
Definition t_slack (t : task) : Z := t_lf t - t_ef t.
(** Python max / min of a non-empty list, [d] for an empty one *)
Definition zmax (d : Z) (l : list Z) : Z := match l with [] => d | x :: t => fold_left Z.max t x end.
Definition zmin (d : Z) (l : list Z) : Z := match l with [] => d | x :: t => fold_left Z.min t x end.
Fixpoint zsum (l : list Z) : Z := match l with [] => 0 | x :: t => x + zsum t end.

Section Cpm.
Context {A V : Type} {EA : EqDec A}.
Notation graph := (graph A Z V).

(** [d[t] for t in l] *)
Fixpoint lookup_all (d : dict A task) (l : list A) : res (list task) :=
  match l with
  | [] => Ok []
  | x :: l => match dget x d with None => Err KeyError | Some t => r <- lookup_all d l ;; Ok (t :: r) end
  end.
(** critical_path.py:105-116 *)
Definition cp_forward (g : graph) (s : dict A task * Z) (id : A) : res (dict A task * Z) :=
  let '(d, cpl) := s in
  preds <- lookup_all d (nodes_to g id) ;;
  match node g id with
  | None => Err ValueError
  | Some dur =>
      let es := zmax 0 (map t_ef preds) in
      let ef := es + dur in
      Ok (dset id (mkT dur es ef 0 0) d, Z.max ef cpl)
  end.
(** critical_path.py:118-123 *)
Definition cp_backward (g : graph) (cpl : Z) (d : dict A task) (id : A) : res (dict A task) :=
  succs <- lookup_all d (nodes_from g id) ;;
  match dget id d with
  | None => Err KeyError
  | Some t =>
      let lf := zmin cpl (map t_ls succs) in
      Ok (dset id (mkT (t_dur t) (t_es t) (t_ef t) (lf - t_dur t) lf) d)
  end.
(** critical_path.py:65-125 on an object of class c; [srt] is sorted(key) of topological_sort *)
Definition critical_path_of (c : gclass) (srt : list A -> list A) (fuel : nat) (g : graph) : res (Z * dict A task) :=
  ord <- topological_sort_of c srt fuel g ;;
  match snd ord with
  | Some e => Err e
  | None =>
      s <- foldM (cp_forward g) (fst ord) ([], 0) ;;
      d <- foldM (cp_backward g (snd s)) (rev (fst ord)) (fst s) ;;
      Ok (snd s, d)
  end.
(** sum(t.slack for t in schedule.values()) *)
Definition total_slack (d : dict A task) : Z := zsum (map t_slack (dvals d)).
End Cpm.
(** on objects of class Graph *)
Notation critical_path := (critical_path_of IsGraph).

(** list.sort(reverse=True, key): descending, equal elements keep their order *)
Fixpoint insert_desc {X} (key : X -> Z) (x : X) (l : list X) : list X :=
  match l with [] => [x] | y :: t => if key x <=? key y then y :: insert_desc key x t else x :: l end.
Definition sort_desc {X} (key : X -> Z) (l : list X) : list X := fold_left (fun s x => insert_desc key x s) l [].

Section Slack.
Context {A : Type} {EA : EqDec A}.
Notation graph := (graph A Z Z).

(** critical_path.py:154-181 the inner for loop; state (new_graph, slack, stop).  Simplification: new_edges is
    not kept (it is never read). *)
Definition ms_try (srt : list A -> list A) (fuel : nat) (phases : dict A Z) (cpl : Z) (n1 : A)
    (s : graph * Z * bool) (n2 : A) : res (graph * Z * bool) :=
  let '(ng, slack, stop) := s in
  if stop then Ok s else                                   (* the loop was left by break *)
  if eqb n2 n1 then Ok s else
  match dget n2 phases, dget n1 phases with
  | Some p2, Some p1 =>
      if negb (p1 <=? p2) then Ok s else
      if negb (match edge ng n2 n1 with None => true | Some _ => false end) then Ok s else
      if negb (match edge ng n1 n2 with None => true | Some _ => false end) then Ok s else
      ng1 <- add_edge ng n1 n2 1 false ;;
      r2 <- critical_path srt fuel ng1 ;;
      if negb (fst r2 =? cpl) then ng2 <- del_edge ng1 n1 n2 ;; Ok (ng2, slack, false) else
      let slack2 := total_slack (snd r2) in
      if (slack2 <? slack) && (cpl =? fst r2) then Ok (ng1, slack2, slack2 =? 0)
      else ng2 <- del_edge ng1 n1 n2 ;; Ok (ng2, slack, false)
  | _, _ => Err KeyError
  end.
(** critical_path.py:149-181 the outer for loop *)
Definition ms_node (srt : list A -> list A) (fuel : nat) (phases : dict A Z) (cpl : Z) (ids : list A)
    (s : graph * Z * bool) (n1 : A) : res (graph * Z * bool) :=
  if snd s then Ok s else foldM (ms_try srt fuel phases cpl n1) ids s.
(** critical_path.py:183-195 *)
Definition ms_purge (srt : list A -> list A) (fuel : nat) (g : graph) (cpl slack : Z) (ng : graph) (e : A * A * Z) : res graph :=
  let '(n1, n2, _) := e in
  match edge g n1 n2 with
  | Some _ => Ok ng
  | None =>
      ng1 <- del_edge ng n1 n2 ;;
      r2 <- critical_path srt fuel ng1 ;;
      if (fst r2 =? cpl) && (total_slack (snd r2) =? slack) then Ok ng1
      else add_edge ng1 n1 n2 1 false
  end.
(** critical_path.py:128-197; tasks are paired with their task_id *)
Definition critical_path_minimize_for_slack (srt : list A -> list A) (ord : nat -> list A -> list A) (fuel : nat) (g : graph) : res graph :=
  r <- critical_path srt fuel g ;;
  phases <- phase_lines ord fuel g ;;
  ng <- copy g ;;
  let slack_nodes := sort_desc (fun p : A * task => t_slack (snd p)) (filter (fun p => 0 <? t_slack (snd p)) (snd r)) in
  let ids := map fst slack_nodes in
  s <- foldM (ms_node srt fuel phases (fst r) ids) (map fst (sort_desc (fun p : A * task => t_dur (snd p)) slack_nodes))
         (ng, total_slack (snd r), false) ;;
  let '(ng, slack, _) := s in
  foldM (ms_purge srt fuel g (fst r) slack) (edges ng) ng.
End Slack.
