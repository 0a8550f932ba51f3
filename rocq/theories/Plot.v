(** Model of /repo/graph/visuals.py.  Drawing is modelled by the list of calls made on matplotlib.
    plot_2d: node values as in Graph3d.v (numbers are rationals).
    plot_3d: nodes are triples of integers (positions); midpoints and radii are kept times two, so that no division is
    needed; a letter of the rotation string is X, Y, Z or another character.
    Not modelled: the import guard (visualise, lines 1-19), colours, the figure object. *)
From Coq Require Import QArith Qcanon.
From Verif Require Import Prelude Base Graph3d.
Open Scope nat_scope.

(** ** plot_2d *)
Inductive cmd2 :=
| Polyline (xs ys : list comp)                (* plt.plot(xs, ys): a line through the points in this order *)
| Segment (xs ys : list comp)                 (* plt.plot([x1, x2], [y1, y2], "bo-"): a line with dots at both ends *)
| Axis (what : nat).                          (* plt.axis("scaled"), plt.axis("off") *)
Section P2.
Context {O V : Type}.
Notation graph := (graph pynode O V).
(** visuals.py:56-65: the checks of a node *)
Definition check_xy (n : pynode) : option exn :=
  match n with
  | NotTuple _ => Some ValueError
  | Tuple l => if negb (length l =? 2) then Some ValueError else
               match l with
               | [x; y] => if negb (is_num x) then Some ValueError else if negb (is_num y) then Some ValueError else None
               | _ => Some ValueError
               end
  end.
Fixpoint check_all (ns : list pynode) : option exn :=
  match ns with [] => None | n :: t => match check_xy n with Some e => Some e | None => check_all t end end.
(** n[i] for a tuple; the default is not used after the checks *)
Definition at_ (n : pynode) (i : nat) : comp := match n with Tuple l => nth i l (PyObj 0) | NotTuple _ => PyObj 0 end.
(** visuals.py:22-80 plot_2d *)
Definition plot_2d (g : graph) (nodes_ edges_ : bool) : res (list cmd2) :=
  match check_all (nodes g) with
  | Some e => Err e
  | None =>
      Ok ((if nodes_ then [Polyline (map (fun n => at_ n 0) (nodes g)) (map (fun n => at_ n 1) (nodes g))] else []) ++
          (if edges_ then map (fun e => let '(s, t, _) := e in Segment [at_ s 0; at_ t 0] [at_ s 1; at_ t 1]) (edges g) else []) ++
          [Axis 0; Axis 1])
  end.
End P2.

(** ** plot_3d *)
Inductive letter := X | Y | Z_ | Char (n : nat).
#[export] Instance EqDec_letter : EqDec letter.
Proof. intros [| | |n] [| | |m]; try (left; reflexivity); try (right; discriminate). destruct (Nat.eq_dec n m) as [->|H]; [left; reflexivity|right; congruence]. Defined.
Definition pos : Type := Z * Z * Z.
Definition coord (p : pos) (i : nat) : Z := match i with 0 => fst (fst p) | 1 => snd (fst p) | _ => snd p end.
Inductive cmd3 :=
| Plot3D (xs ys zs : list Z)                  (* ax.plot3D(..., "gray") *)
| Scatter3D (xs ys zs : list Z)               (* ax.scatter3D(...) *)
| SetLim (axis : nat) (lo2 hi2 : Z)           (* ax.set_xlim (axis 0), set_ylim (1), set_zlim (2); bounds times two *)
| SetLabel (axis : nat) (l : letter).         (* ax.set_xlabel(f"{l} Label"), ... *)
Section P3.
Context {O V : Type}.
Notation graph := (graph pos O V).
(** visuals.py:95-98: the exception for a bad rotation *)
Definition check_rotation (r : list letter) : option exn :=
  if negb (length r =? 3) then Some ValueError
  else if forallb (fun c => mem c r) [X; Y; Z_] then None else Some ValueError.
(** xyz[..] of the dict with the three keys x, y, z: KeyError if there is none *)
Definition look {K} (d : dict letter K) (l : letter) : res K := match dget l d with Some k => Ok k | None => Err KeyError end.
(** visuals.py:104-109 *)
Definition edge_cmd (x y z : letter) (e : pos * pos * V) : res cmd3 :=
  let '(n1, n2, _) := e in
  let d := dset z [coord n1 2; coord n2 2] (dset y [coord n1 1; coord n2 1] (dset x [coord n1 0; coord n2 0] [])) in
  a <- look d X ;; b <- look d Y ;; c <- look d Z_ ;; Ok (Plot3D a b c).
(** visuals.py:113-121 *)
Definition nodes_cmd (x y z : letter) (ns : list pos) : res cmd3 :=
  let d := dset z (map (fun n => coord n 2) ns) (dset y (map (fun n => coord n 1) ns) (dset x (map (fun n => coord n 0) ns) [])) in
  a <- look d X ;; b <- look d Y ;; c <- look d Z_ ;; Ok (Scatter3D a b c).
(** min(xs), max(xs) *)
Definition minl (l : list Z) : res Z := match l with [] => Err ValueError | v :: t => Ok (fold_left Z.min t v) end.
Definition maxl (l : list Z) : res Z := match l with [] => Err ValueError | v :: t => Ok (fold_left Z.max t v) end.
(** visuals.py:124-150; [r2]: twice the radius max_dim *)
Definition xyz_dir : dict letter nat := [(X, 0); (Y, 1); (Z_, 2)].
Definition aspect_cmds (x y z : letter) (ns : list pos) : res (list cmd3) :=
  xd <- look xyz_dir x ;; let xs := map (fun n => coord n xd) ns in xmin <- minl xs ;; xmax <- maxl xs ;;
  yd <- look xyz_dir y ;; let ys := map (fun n => coord n yd) ns in ymin <- minl ys ;; ymax <- maxl ys ;;
  zd <- look xyz_dir z ;; let zs := map (fun n => coord n zd) ns in zmin <- minl zs ;; zmax <- maxl zs ;;
  r2 <- maxl [xmax - xmin; ymax - ymin; zmax - zmin]%Z ;;
  Ok [SetLim 0 (xmax + xmin - r2) (xmax + xmin + r2); SetLim 1 (ymax + ymin - r2) (ymax + ymin + r2);
      SetLim 2 (zmax + zmin - r2) (zmax + zmin + r2)].
Fixpoint mapM {S T} (f : S -> res T) (l : list S) : res (list T) :=
  match l with [] => Ok [] | s :: t => a <- f s ;; b <- mapM f t ;; Ok (a :: b) end.
(** visuals.py:83-156 plot_3d *)
Definition plot_3d (g : graph) (nodes_ edges_ : bool) (rotation : list letter) (aspect : bool) : res (list cmd3) :=
  match check_rotation rotation with Some e => Err e | None =>
  match rotation with
  | [x; y; z] =>
      es <- (if edges_ then mapM (edge_cmd x y z) (edges g) else Ok []) ;;
      ns <- (if nodes_ then c <- nodes_cmd x y z (nodes g) ;; Ok [c] else Ok []) ;;
      ls <- (if (nodes_ || edges_) && aspect then aspect_cmds x y z (nodes g) else Ok []) ;;
      Ok (es ++ ns ++ ls ++ [SetLabel 0 x; SetLabel 1 y; SetLabel 2 z])
  | _ => Err ValueError                       (* not reached after the checks *)
  end end.
End P3.
