(** Model of critical_path in /repo/graph/critical_path.py over durations of any kind: the operations on numbers are a
    parameter, as in GSp.  [Cpm] is the case of Python's integers; PropsCpmFloat is the case of floats.  Nothing is assumed
    about the operations: they may round, overflow or give NaN. *)
From Verif Require Import Prelude Base Loop Topo GSp.

(** critical_path.py:6-25 Task; latest_* are written as 0 until the backward pass, as in Cpm *)
Record gtask (W : Type) := mkGT { gt_dur : W; gt_es : W; gt_ef : W; gt_ls : W; gt_lf : W }.
Arguments mkGT {W}. Arguments gt_dur {W}. Arguments gt_es {W}. Arguments gt_ef {W}. Arguments gt_ls {W}. Arguments gt_lf {W}.

Section GCpm.
Context {A W V : Type} {EA : EqDec A} (ar : arith W) (sub : W -> W -> W).
Notation graph := (graph A W V).
(** critical_path.py:43-45 slack *)
Definition gt_slack (t : gtask W) : W := sub (gt_lf t) (gt_ef t).
(** max(l): an element replaces the largest so far if it is greater; [d] for an empty list *)
Definition gmax (d : W) (l : list W) : W := match l with [] => d | x :: t => fold_left (fun m y => if a_ltb ar m y then y else m) t x end.
(** min(l): an element replaces the least so far if it is smaller *)
Definition gmin (d : W) (l : list W) : W := match l with [] => d | x :: t => fold_left (fun m y => if a_ltb ar y m then y else m) t x end.

(** [d[t] for t in l] *)
Fixpoint glookup_all (d : dict A (gtask W)) (l : list A) : res (list (gtask W)) :=
  match l with
  | [] => Ok []
  | x :: l => match dget x d with None => Err KeyError | Some t => r <- glookup_all d l ;; Ok (t :: r) end
  end.
(** critical_path.py:105-116; max(t.earliest_finish, critical_path_length) is the second if it is greater *)
Definition gcp_forward (g : graph) (s : dict A (gtask W) * W) (id : A) : res (dict A (gtask W) * W) :=
  let '(d, cpl) := s in
  preds <- glookup_all d (nodes_to g id) ;;
  match node g id with
  | None => Err ValueError
  | Some dur =>
      let es := gmax (a_zero ar) (map gt_ef preds) in
      let ef := a_add ar es dur in
      Ok (dset id (mkGT dur es ef (a_zero ar) (a_zero ar)) d, if a_ltb ar ef cpl then cpl else ef)
  end.
(** critical_path.py:118-123 *)
Definition gcp_backward (g : graph) (cpl : W) (d : dict A (gtask W)) (id : A) : res (dict A (gtask W)) :=
  succs <- glookup_all d (nodes_from g id) ;;
  match dget id d with
  | None => Err KeyError
  | Some t =>
      let lf := gmin cpl (map gt_ls succs) in
      Ok (dset id (mkGT (gt_dur t) (gt_es t) (gt_ef t) (sub lf (gt_dur t)) lf) d)
  end.
(** critical_path.py:65-125 on an object of class c; [srt] is sorted(key) of topological_sort *)
Definition gcritical_path_of (c : gclass) (srt : list A -> list A) (fuel : nat) (g : graph) : res (W * dict A (gtask W)) :=
  ord <- topological_sort_of c srt fuel g ;;
  match snd ord with
  | Some e => Err e
  | None =>
      s <- foldM (gcp_forward g) (fst ord) ([], a_zero ar) ;;
      d <- foldM (gcp_backward g (snd s)) (rev (fst ord)) (fst s) ;;
      Ok (snd s, d)
  end.
End GCpm.
