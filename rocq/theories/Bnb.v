(** Model of /repo/graph/tsp.py:9-92 tsp_branch_and_bound and core.py:154-169 solve_tsp.  Edge values are integers.
    [srt]: list.sort() of (distance, node) pairs.  [ord t s]: the order in which Python iterates over the set s of
    nodes while it works on the tour t.  [ltt]: the order of two tours of the same length as tuples. *)
From Verif Require Import Prelude Base Sp Loop Tsp.

Section Bnb.
Context {A O : Type} {EA : EqDec A}.
Notation graph := (graph A O Z).
Context (srt : list (Z * A) -> list (Z * A)) (ord : list A -> list A -> list A) (ltt : list A -> list A -> bool).

(** bisect.insort on a sorted list: before the first greater element *)
Fixpoint insort {X} (lt : X -> X -> bool) (x : X) (q : list X) : list X :=
  match q with [] => [x] | y :: r => if lt x y then x :: q else y :: insort lt x r end.
(** tsp.py:20-37 lower_bound, summed: for every node the least edge to another node of the set that does not run back along
    an edge chosen before *)
Fixpoint lb_loop (g : graph) (ns order : list A) (seen : list (A * A)) : Z :=
  match order with
  | [] => 0
  | n :: order =>
      let l2 := srt (map (fun e => (snd e, snd (fst e))) (filter (fun e => mem (snd (fst e)) (lremove n ns)) (edges_from g n))) in
      match find (fun p => negb (mem (snd p, n) seen)) l2 with
      | Some (d, n2) => (d + lb_loop g ns order ((n, n2) :: seen))%Z
      | None => lb_loop g ns order seen
      end
  end.
Definition lower_bound (g : graph) (t ns : list A) : Z := lb_loop g ns (ord t ns) [].
(** the order of the entries (bound, -len(tour), tour) of q and of (distance, tour) of q2 *)
Definition qlt (x y : ext * list A) : bool :=
  ext_ltb (fst x) (fst y) || (if eq_dec (fst x) (fst y) then (length (snd y) <? length (snd x)) || ((length (snd x) =? length (snd y)) && ltt (snd x) (snd y)) else false).
Definition q2lt (x y : ext * list A) : bool := ext_ltb (fst x) (fst y) || (if eq_dec (fst x) (fst y) then ltt (snd x) (snd y) else false).
(** tsp.py:75-90 one branch of the tour *)
Definition bnb_child (fuel : nat) (g : graph) (tour remaining : list A) (q : list (ext * list A)) (n2 : A) : res (list (ext * list A)) :=
  let nt := tour ++ [n2] in
  match lremove n2 remaining with
  | [] => Err BadLogic
  | [l] => let nt := nt ++ [l; hd n2 tour] in d <- distance_from_path fuel g nt ;; Ok (insort qlt (d, nt) q)
  | lb_set => d <- distance_from_path fuel g nt ;; Ok (insort qlt (ext_add d (Fin (lower_bound g nt lb_set)), nt) q)
  end.
(** tsp.py:59-90 one iteration of the search; state (q, q2), and hit is the length of q2 *)
Definition bnb_step (fuel : nat) (g : graph) (glb : Z) (st : list (ext * list A) * list (ext * list A)) : (list (ext * list A) * list (ext * list A)) + res (ext * list A) :=
  let '(q, q2) := st in
  match q with
  | [] => inr (Ok (Inf, []))
  | (d, tour) :: q =>
      if forallb (fun x => mem x tour) (nodes g) then
        if length q2 <? length (nodes g) then inl (q, insort q2lt (d, tour) q2)
        else match q2 with
             | [] => inr (Err IndexError)
             | (d, tour) :: _ => if ext_leb (Fin glb) d then inr (Ok (d, removelast tour)) else inr (Err AssertionError)
             end
      else
        let remaining := filter (fun x => negb (mem x tour)) (nodes g) in
        match foldM (bnb_child fuel g tour remaining) (ord tour remaining) q with
        | Ok q => inl (q, q2) | Err e => inr (Err e) | OutOfFuel => inr OutOfFuel
        end
  end.
(** tsp.py:39-57 the initial tree *)
Definition bnb_init (g : graph) (start : A) : list (ext * list A) :=
  fold_left (fun q e => let '(s, e, d) := e in insort qlt (Fin (d + lower_bound g [s; e] (lremove s (nodes g))), [s; e]) q) (edges_from g start) [].
Definition tsp_branch_and_bound (fuel : nat) (g : graph) : res (ext * list A) :=
  match nodes g with
  | [] => Err IndexError
  | start :: _ => loop fuel (bnb_step fuel g (lower_bound g [] (nodes g))) (bnb_init g start, [])
  end.
End Bnb.

(** core.py:154-169 solve_tsp; any other method is None, and calling None is a TypeError *)
Inductive tsp_method := MGreedy | MBnb | M2023 | MOther.
Definition solve_tsp {A O} {EA : EqDec A} srt3 first srt ord ltt (m : tsp_method) (fuel : nat) (g : graph A O Z) : res (ext * list A) :=
  match m with
  | MGreedy => r <- tsp_greedy srt3 fuel g ;; Ok (Fin (fst r), snd r)
  | M2023 => r <- tsp_2023 srt3 first fuel g ;; Ok (Fin (fst r), snd r)
  | MBnb => tsp_branch_and_bound srt ord ltt fuel g
  | MOther => Err TypeError
  end.
(** core.py:154 the default: method="2023" *)
Definition solve_tsp_default {A O} {EA : EqDec A} srt3 first srt ord ltt (fuel : nat) (g : graph A O Z) : res (ext * list A) := solve_tsp srt3 first srt ord ltt M2023 fuel g.
