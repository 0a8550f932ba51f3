(** Model of critical_path_minimize_for_slack in /repo/graph/critical_path.py over durations of any kind, as in Cpm: the
    operations on numbers and sum() are parameters.  Nothing is assumed about them: they may round, overflow or give NaN. *)
From Verif Require Import Prelude Base Loop Topo Dag GSp GCpm.

Section GSlack.
Context {A W V : Type} {EA : EqDec A} (ar : arith W) (sub : W -> W -> W) (sumf : list W -> W) (one : V).
Notation graph := (graph A W V).
Notation gcp := (gcritical_path_of ar sub IsGraph).
(** list.sort(reverse=True, key): descending, an element goes behind those that are not smaller.  [slack] and [duration] of the
    tasks that are sorted are not NaN (slack > 0 was tested) *)
Fixpoint ginsert_desc {X} (key : X -> W) (x : X) (l : list X) : list X :=
  match l with [] => [x] | y :: t => if a_ltb ar (key y) (key x) then x :: l else y :: ginsert_desc key x t end.
Definition gsort_desc {X} (key : X -> W) (l : list X) : list X := fold_left (fun s x => ginsert_desc key x s) l [].
(** critical_path.py:144 sum(t.slack for t in schedule.values()) *)
Definition gtotal_slack (d : dict A (gtask W)) : W := sumf (map (gt_slack sub) (dvals d)).

(** critical_path.py:154-181 the inner for loop; state (new_graph, slack, stop).  Simplification: new_edges is
    not kept (it is never read).  [one] is the default value of add_edge. *)
Definition gms_try (srt : list A -> list A) (fuel : nat) (phases : dict A Z) (cpl : W) (n1 : A)
    (s : graph * W * bool) (n2 : A) : res (graph * W * bool) :=
  let '(ng, slack, stop) := s in
  if stop then Ok s else                                   (* the loop was left by break *)
  if eqb n2 n1 then Ok s else
  match dget n2 phases, dget n1 phases with
  | Some p2, Some p1 =>
      if negb (p1 <=? p2)%Z then Ok s else
      if negb (match edge ng n2 n1 with None => true | Some _ => false end) then Ok s else
      if negb (match edge ng n1 n2 with None => true | Some _ => false end) then Ok s else
      ng1 <- add_edge ng n1 n2 one false ;;
      r2 <- gcp srt fuel ng1 ;;
      if negb (a_eqb ar (fst r2) cpl) then ng2 <- del_edge ng1 n1 n2 ;; Ok (ng2, slack, false) else
      let slack2 := gtotal_slack (snd r2) in
      if a_ltb ar slack2 slack && a_eqb ar cpl (fst r2) then Ok (ng1, slack2, a_eqb ar slack2 (a_zero ar))
      else ng2 <- del_edge ng1 n1 n2 ;; Ok (ng2, slack, false)
  | _, _ => Err KeyError
  end.
(** critical_path.py:149-181 the outer for loop *)
Definition gms_node (srt : list A -> list A) (fuel : nat) (phases : dict A Z) (cpl : W) (ids : list A)
    (s : graph * W * bool) (n1 : A) : res (graph * W * bool) :=
  if snd s then Ok s else foldM (gms_try srt fuel phases cpl n1) ids s.
(** critical_path.py:183-195 *)
Definition gms_purge (srt : list A -> list A) (fuel : nat) (g : graph) (cpl slack : W) (ng : graph) (e : A * A * V) : res graph :=
  let '(n1, n2, _) := e in
  match edge g n1 n2 with
  | Some _ => Ok ng
  | None =>
      ng1 <- del_edge ng n1 n2 ;;
      r2 <- gcp srt fuel ng1 ;;
      if a_eqb ar (fst r2) cpl && a_eqb ar (gtotal_slack (snd r2)) slack then Ok ng1
      else add_edge ng1 n1 n2 one false
  end.
(** critical_path.py:128-197; tasks are paired with their task_id *)
Definition gminimize_for_slack (srt : list A -> list A) (ord : nat -> list A -> list A) (fuel : nat) (g : graph) : res graph :=
  r <- gcp srt fuel g ;;
  phases <- phase_lines_of IsGraph ord fuel g ;;
  ng <- copy g ;;
  let slack_nodes := gsort_desc (fun p : A * gtask W => gt_slack sub (snd p)) (filter (fun p => a_ltb ar (a_zero ar) (gt_slack sub (snd p))) (snd r)) in
  let ids := map fst slack_nodes in
  s <- foldM (gms_node srt fuel phases (fst r) ids) (map fst (gsort_desc (fun p : A * gtask W => gt_dur (snd p)) slack_nodes))
         (ng, gtotal_slack (snd r), false) ;;
  let '(ng, slack, _) := s in
  foldM (gms_purge srt fuel g (fst r) slack) (edges ng) ng.
End GSlack.
