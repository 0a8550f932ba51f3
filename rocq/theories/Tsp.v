(** Model of /repo/graph/tsp.py and BasicGraph.distance.  Edge values are integers. *)
From Verif Require Import Prelude Base Sp Perms Loop.

Section Tsp.
Context {A O : Type} {EA : EqDec A}.
Notation graph := (graph A O Z).
(** tsp.py:2 sys.maxsize *)
Definition maxsize : Z := 9223372036854775807.

(** [(tour[i - 1], tour[i]) for i in range(len(tour))] *)
Definition zipwalk (t : list A) : list (A * A) := match t with [] => [] | h :: r => (last t h, h) :: combine t r end.
(** sum(graph.edge(a, b) for ...): adding None is a TypeError *)
Definition esum (g : graph) (ps : list (A * A)) : res Z :=
  foldM (fun acc p => match edge g (fst p) (snd p) with Some d => Ok (acc + d)%Z | None => Err TypeError end) ps 0%Z.
(** base.py:364-368 distance *)
Definition distance (g : graph) (t : list A) : res Z := esum g (zipwalk t).
Definition distance_ret (g : graph) (t : list A) : res Z :=
  s <- esum g (zipwalk t) ;;
  match t with [] => Err IndexError | h :: _ => match edge g (last t h) h with Some d => Ok (s + d)%Z | None => Err TypeError end end.

(** tsp.py:317-328 brute_force, the loop over the permutations; state: d2 and p2 (None: still unbound) *)
Fixpoint bf_loop (fuel : nat) (g : graph) (h : A) (routes : list (list A)) (st : Z * option (list A)) : res (Z * option (list A)) :=
  match routes with
  | [] => Ok st
  | route :: rs =>
      match route with
      | [] => Err IndexError
      | x :: _ =>
          if eq_dec x h then
            d <- distance_from_path fuel g (route ++ [x]) ;;
            bf_loop fuel g h rs (if ext_ltb d (Fin (fst st)) then match d with Fin z => (z, Some route) | Inf => st end else st)
          else Ok st
      end
  end.
Definition brute_force (fuel : nat) (g : graph) : res (Z * list A) :=
  match nodes g with
  | [] => Err IndexError
  | h :: _ =>
      st <- bf_loop fuel g h (permutations (nodes g)) (maxsize, None) ;;
      match snd st with None => Err UnboundLocalError | Some p => Ok (fst st, p) end
  end.

(** itertools.combinations(l, 2) *)
Fixpoint pairs_of (l : list A) : list (A * A) := match l with [] => [] | x :: r => map (fun y => (x, y)) r ++ pairs_of r end.
(** tsp.py:120-136 _join_endpoints.  The lists are shared between the entries of both ends in the code; all entries that
    share a changed list are deleted or set to the joined list, so copies do. *)
Definition join_seg (sa sb : list A) (a b : A) : list A :=
  (if eq_dec (last sa a) a then sa else rev sa) ++ (if eq_dec (hd b sb) b then sb else rev sb).
Definition join (ep : dict A (list A)) (sa sb : list A) (a b : A) : dict A (list A) * list A :=
  let seg := join_seg sa sb a b in
  (dset (last seg a) seg (dset (hd a seg) seg (ddel b (ddel a ep))), seg).
(** tsp.py:146-150 the loop over the sorted distances, with its break *)
Fixpoint greedy_loop (n : nat) (ds : list (Z * (A * A))) (ep : dict A (list A)) (seg : list A) : list A :=
  match ds with
  | [] => seg
  | (_, (a, b)) :: ds =>
      match dget a ep, dget b ep with
      | Some sa, Some sb =>
          if list_eq_dec eq_dec sa sb then greedy_loop n ds ep seg
          else let '(ep, seg) := join ep sa sb a b in if length seg =? n then seg else greedy_loop n ds ep seg
      | _, _ => greedy_loop n ds ep seg
      end
  end.
(** tsp.py:139-154 _greedy; [srt]: list.sort() of (distance, a, b) triples *)
Definition greedy_pairs (g : graph) : list (Z * (A * A)) :=
  flat_map (fun p => match truthy (edge g (fst p) (snd p)) with Some d => [(d, p)] | None => [] end) (pairs_of (nodes g)).
Definition greedy (srt : list (Z * (A * A)) -> list (Z * (A * A))) (g : graph) : res (list A) :=
  let n := length (nodes g) in
  let seg := greedy_loop n (srt (greedy_pairs g)) (map (fun x => (x, [x])) (nodes g)) [] in
  if length seg =? n then Ok seg else Err ValueError.

(** tsp.py:157-171,195 _opt1: relocate element i to place j *)
Definition relocate (t : list A) (i j : nat) : list A :=
  match nth_error t i with None => t | Some x => let tmp := firstn i t ++ skipn (S i) t in firstn j tmp ++ [x] ++ skipn j tmp end.
Definition opt1 (g : graph) (t : list A) : res (list A) :=
  d <- distance_ret g t ;;
  b <- foldM (fun (best : Z * list A) ij =>
                let l2 := relocate t (fst ij) (snd ij) in
                d <- distance_ret g l2 ;; Ok (if (d <? fst best)%Z then (d, l2) else best))
             (list_prod (seq 0 (length t)) (seq 0 (length t))) (d, t) ;;
  Ok (snd b).

(** tour[i:j] = reversed(tour[i:j]) *)
Definition rev_seg (t : list A) (i j : nat) : list A := firstn i t ++ rev (firstn (j - i) (skipn i t)) ++ skipn j t.
(** tour[i - 1] *)
Definition prev (n i : nat) : nat := match i with 0 => n - 1 | S i => i end.
(** tsp.py:201-210 reverse_segment_if_improvement *)
Definition opt2_try (g : graph) (st : list A * bool) (ij : nat * nat) : list A * bool :=
  let '(t, any) := st in let '(i, j) := ij in
  match t with
  | [] => st
  | h :: _ =>
      let at_ k := nth k t h in
      let n := length t in
      let '(a, b, c, d) := (at_ (prev n i), at_ i, at_ (j - 1), at_ (j mod n)) in
      match truthy (edge g a b), truthy (edge g c d), truthy (edge g a c), truthy (edge g b d) with
      | Some ab, Some cd, Some ac, Some bd => if (ac + bd <? ab + cd)%Z then (rev_seg t i j, true) else st
      | _, _, _, _ => st
      end
  end.
(** tsp.py:217 the segments, longest first *)
Definition segments2 (n : nat) : list (nat * nat) :=
  flat_map (fun len => map (fun i => (i, i + len)) (rev (seq 0 (n - len + 1)))) (rev (seq 2 (n - 2))).
(** tsp.py:223-239 the loop; state (tour, p0, d0, counter, inc) *)
Definition opt2_step (g : graph) (st : list A * list A * Z * dict (list A) nat * nat) : (list A * list A * Z * dict (list A) nat * nat) + res (list A) :=
  let '(t, p0, d0, counter, inc) := st in
  let '(t, any) := fold_left (opt2_try g) (segments2 (length t)) (t, false) in
  match distance g t with
  | Ok d1 =>
      let '(d0, p0) := if (d1 <? d0)%Z then (d1, t) else (d0, p0) in
      if negb any then inr (Ok p0)
      else
        let counter := dset t (match dget t counter with Some k => S k | None => 1 end) counter in
        let inc := S inc in
        if (inc mod 100 =? 0) && existsb (fun x => 2 <? snd x) counter then inr (Ok p0) else inl (t, p0, d0, counter, inc)
  | Err e => inr (Err e) | OutOfFuel => inr OutOfFuel
  end.
(** tsp.py:198-240 _opt2 *)
Definition opt2 (fuel : nat) (g : graph) (t : list A) : res (list A) :=
  d0 <- distance g t ;; loop fuel (opt2_step g) (t, t, d0, [(t, 1)], 0).

(** tsp.py:252-288 reverse_segment_if_better: the best of five ways to connect A-B, C-D, E-F *)
Definition dmax (g : graph) (x y : A) : Z := match edge g x y with Some d => d | None => maxsize end.
Definition opt3_try (g : graph) (st : list A * Z) (ijk : nat * nat * nat) : list A * Z :=
  let '(t, delta) := st in let '(i, j, k) := ijk in
  match t with
  | [] => st
  | h :: _ =>
      let at_ k := nth k t h in
      let n := length t in
      let '(a, b, c, d, e, f) := (at_ (prev n i), at_ i, at_ (j - 1), at_ j, at_ (k - 1), at_ (k mod n)) in
      let d0 := (dmax g a b + dmax g c d + dmax g e f)%Z in
      let d1 := (dmax g a c + dmax g b d + dmax g e f)%Z in
      let d2 := (dmax g a b + dmax g c e + dmax g d f)%Z in
      let d3 := (dmax g a d + dmax g e b + dmax g c f)%Z in
      let d4 := (dmax g f b + dmax g c d + dmax g e a)%Z in
      let m := (d0, t) in
      let m := if (d1 <? fst m)%Z then (d1, rev_seg t i j) else m in
      let m := if (d2 <? fst m)%Z then (d2, rev_seg t j k) else m in
      let m := if (d3 <? fst m)%Z then (d3, firstn i t ++ (firstn (k - j) (skipn j t) ++ firstn (j - i) (skipn i t)) ++ skipn k t) else m in
      let m := if (d4 <? fst m)%Z then (d4, rev_seg t i k) else m in
      (snd m, (delta + (fst m - d0))%Z)
  end.
(** tsp.py:290-292 all_segments *)
Definition segments3 (n : nat) : list (nat * nat * nat) :=
  flat_map (fun i => flat_map (fun j => map (fun k => (i, j, k)) (seq (j + 2) (n + (if i =? 0 then 0 else 1) - (j + 2)))) (seq (i + 2) (n - (i + 2)))) (seq 0 n).
(** tsp.py:297-313 the loop; state (tour, p0, d0).  The counter is never changed in the code, so the check after every 100
    passes never leaves the loop. *)
Definition opt3_step (g : graph) (st : list A * list A * Z) : (list A * list A * Z) + res (list A) :=
  let '(t, p0, d0) := st in
  let '(t, delta) := fold_left (opt3_try g) (segments3 (length t)) (t, 0%Z) in
  match distance g t with
  | Ok d1 =>
      let '(d0, p0) := if (d1 <? d0)%Z then (d1, t) else (d0, p0) in
      if (0 <=? delta)%Z then inr (Ok p0) else inl (t, p0, d0)
  | Err e => inr (Err e) | OutOfFuel => inr OutOfFuel
  end.
(** tsp.py:243-314 _opt3 *)
Definition opt3 (fuel : nat) (g : graph) (t : list A) : res (list A) :=
  d0 <- distance g t ;; loop fuel (opt3_step g) (t, t, d0).

(** tsp.py:95-114 tsp_greedy *)
Definition tsp_greedy srt (fuel : nat) (g : graph) : res (Z * list A) :=
  t1 <- greedy srt g ;; d1 <- distance g t1 ;; t2 <- opt2 fuel g t1 ;; d2 <- distance g t2 ;;
  Ok (if (d2 <=? d1)%Z then (d2, t2) else (d1, t1)).
(** tsp.py:331-359 tsp_2023; [first]: the first element of the sorted list of (length, tour) pairs *)
Definition tsp_2023 srt (first : list (Z * list A) -> Z * list A) (fuel : nat) (g : graph) : res (Z * list A) :=
  if length (nodes g) <? 7 then brute_force fuel g
  else
    t <- greedy srt g ;; d <- distance g t ;;
    t1 <- opt1 g t ;; d1 <- distance g t1 ;;
    t2 <- opt2 fuel g t1 ;; d2 <- distance g t2 ;;
    t3 <- opt3 fuel g t2 ;; d3 <- distance g t3 ;;
    Ok (first [(d, t); (d1, t1); (d2, t2); (d3, t3)]).
End Tsp.
