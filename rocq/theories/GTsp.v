(** Model of /repo/graph/tsp.py (all but tsp_branch_and_bound) over edge values of any kind: the operations on numbers
    are a parameter, as in GSp.  [Tsp] is the case of Python's integers (GTspFacts shows that both models agree there); the
    case of floats is in PropsTspFloat.  Nothing is assumed about the operations: they may round, overflow or give NaN. *)
From Verif Require Import Prelude Base Loop Perms GSp Tsp.

(** the operations on edge values which tsp.py uses, besides those of [arith] *)
Record tsp_arith (W : Type) := mkTA {
  ta : arith W;                    (* 0, +, <, == *)
  ta_neg : W -> W;                 (* unary - *)
  ta_max : W;                      (* sys.maxsize, converted to the kind of the edge values *)
  ta_sum : list W -> W }.          (* sum(...): repeated addition to 0, or with compensation since Python 3.12 *)
Arguments ta {W}. Arguments ta_neg {W}. Arguments ta_max {W}. Arguments ta_sum {W}. Arguments mkTA {W}.

Section GTsp.
Context {A O W : Type} {EA : EqDec A} (tar : tsp_arith W).
Notation graph := (graph A O W).
Notation ar := (ta tar).
(** x <= y on numbers, and so y >= x *)
Definition g_leb (x y : W) : bool := a_ltb ar x y || a_eqb ar x y.

(** [graph.edge(a, b) for (a, b) in ...]; summing None is a TypeError *)
Fixpoint gvalues (g : graph) (ps : list (A * A)) : res (list W) :=
  match ps with
  | [] => Ok []
  | p :: r => match edge g (fst p) (snd p) with Some d => vs <- gvalues g r ;; Ok (d :: vs) | None => Err TypeError end
  end.
(** base.py:364-368 distance *)
Definition gdistance (g : graph) (t : list A) : res W := vs <- gvalues g (zipwalk t) ;; Ok (ta_sum tar vs).
Definition gdistance_ret (g : graph) (t : list A) : res W :=
  s <- gdistance g t ;;
  match t with [] => Err IndexError | h :: _ => match edge g (last t h) h with Some d => Ok (a_add ar s d) | None => Err TypeError end end.

(** tsp.py:317-328 brute_force *)
Fixpoint gbf_loop (fuel : nat) (g : graph) (h : A) (routes : list (list A)) (st : W * option (list A)) : res (W * option (list A)) :=
  match routes with
  | [] => Ok st
  | route :: rs =>
      match route with
      | [] => Err IndexError
      | x :: _ =>
          if eq_dec x h then
            d <- gdistance_from_path ar fuel g (route ++ [x]) ;;
            gbf_loop fuel g h rs (if a_ltb ar d (fst st) then (d, Some route) else st)
          else Ok st
      end
  end.
Definition gbrute_force (fuel : nat) (g : graph) : res (W * list A) :=
  match nodes g with
  | [] => Err IndexError
  | h :: _ =>
      st <- gbf_loop fuel g h (permutations (nodes g)) (ta_max tar, None) ;;
      match snd st with None => Err UnboundLocalError | Some p => Ok (fst st, p) end
  end.

(** tsp.py:146-150 the loop over the sorted distances, with its break *)
Fixpoint ggreedy_loop (n : nat) (ds : list (W * (A * A))) (ep : dict A (list A)) (seg : list A) : list A :=
  match ds with
  | [] => seg
  | (_, (a, b)) :: ds =>
      match dget a ep, dget b ep with
      | Some sa, Some sb =>
          if list_eq_dec eq_dec sa sb then ggreedy_loop n ds ep seg
          else let '(ep, seg) := join ep sa sb a b in if length seg =? n then seg else ggreedy_loop n ds ep seg
      | _, _ => ggreedy_loop n ds ep seg
      end
  end.
(** tsp.py:139-154 _greedy; [srt]: list.sort() of (distance, a, b) triples *)
Definition ggreedy_pairs (g : graph) : list (W * (A * A)) :=
  flat_map (fun p => match gtruthy ar (edge g (fst p) (snd p)) with Some d => [(d, p)] | None => [] end) (pairs_of (nodes g)).
Definition ggreedy (srt : list (W * (A * A)) -> list (W * (A * A))) (g : graph) : res (list A) :=
  let n := length (nodes g) in
  let seg := ggreedy_loop n (srt (ggreedy_pairs g)) (map (fun x => (x, [x])) (nodes g)) [] in
  if length seg =? n then Ok seg else Err ValueError.

(** tsp.py:157-171,195 _opt1 *)
Definition gopt1 (g : graph) (t : list A) : res (list A) :=
  d <- gdistance_ret g t ;;
  b <- foldM (fun (best : W * list A) ij =>
                let l2 := relocate t (fst ij) (snd ij) in
                d <- gdistance_ret g l2 ;; Ok (if a_ltb ar d (fst best) then (d, l2) else best))
             (list_prod (seq 0 (length t)) (seq 0 (length t))) (d, t) ;;
  Ok (snd b).

(** tsp.py:201-210 reverse_segment_if_improvement *)
Definition gopt2_try (g : graph) (st : list A * bool) (ij : nat * nat) : list A * bool :=
  let '(t, any) := st in let '(i, j) := ij in
  match t with
  | [] => st
  | h :: _ =>
      let at_ k := nth k t h in
      let n := length t in
      let '(a, b, c, d) := (at_ (prev n i), at_ i, at_ (j - 1), at_ (j mod n)) in
      match gtruthy ar (edge g a b), gtruthy ar (edge g c d), gtruthy ar (edge g a c), gtruthy ar (edge g b d) with
      | Some ab, Some cd, Some ac, Some bd => if a_ltb ar (a_add ar ac bd) (a_add ar ab cd) then (rev_seg t i j, true) else st
      | _, _, _, _ => st
      end
  end.
(** tsp.py:223-239 the loop; state (tour, p0, d0, counter, inc) *)
Definition gopt2_step (g : graph) (st : list A * list A * W * dict (list A) nat * nat) : (list A * list A * W * dict (list A) nat * nat) + res (list A) :=
  let '(t, p0, d0, counter, inc) := st in
  let '(t, any) := fold_left (gopt2_try g) (segments2 (length t)) (t, false) in
  match gdistance g t with
  | Ok d1 =>
      let '(d0, p0) := if a_ltb ar d1 d0 then (d1, t) else (d0, p0) in
      if negb any then inr (Ok p0)
      else
        let counter := dset t (match dget t counter with Some k => S k | None => 1 end) counter in
        let inc := S inc in
        if (inc mod 100 =? 0) && existsb (fun x => 2 <? snd x) counter then inr (Ok p0) else inl (t, p0, d0, counter, inc)
  | Err e => inr (Err e) | OutOfFuel => inr OutOfFuel
  end.
(** tsp.py:198-240 _opt2 *)
Definition gopt2 (fuel : nat) (g : graph) (t : list A) : res (list A) :=
  d0 <- gdistance g t ;; loop fuel (gopt2_step g) (t, t, d0, [(t, 1)], 0).

(** tsp.py:252-288 reverse_segment_if_better; the additions are written in the order of the code.
    delta += 0 when no way is better *)
Definition gdmax (g : graph) (x y : A) : W := match edge g x y with Some d => d | None => ta_max tar end.
Definition gopt3_try (g : graph) (st : list A * W) (ijk : nat * nat * nat) : list A * W :=
  let '(t, delta) := st in let '(i, j, k) := ijk in
  match t with
  | [] => st
  | h :: _ =>
      let at_ k := nth k t h in
      let n := length t in
      let '(a, b, c, d, e, f) := (at_ (prev n i), at_ i, at_ (j - 1), at_ j, at_ (k - 1), at_ (k mod n)) in
      let sum3 x y z := a_add ar (a_add ar x y) z in
      let d0 := sum3 (gdmax g a b) (gdmax g c d) (gdmax g e f) in
      let d1 := sum3 (gdmax g a c) (gdmax g b d) (gdmax g e f) in
      let d2 := sum3 (gdmax g a b) (gdmax g c e) (gdmax g d f) in
      let d3 := sum3 (gdmax g a d) (gdmax g e b) (gdmax g c f) in
      let d4 := sum3 (gdmax g f b) (gdmax g c d) (gdmax g e a) in
      let m := (d0, None) in
      let m := if a_ltb ar d1 (fst m) then (d1, Some (rev_seg t i j)) else m in
      let m := if a_ltb ar d2 (fst m) then (d2, Some (rev_seg t j k)) else m in
      let m := if a_ltb ar d3 (fst m) then (d3, Some (firstn i t ++ (firstn (k - j) (skipn j t) ++ firstn (j - i) (skipn i t)) ++ skipn k t)) else m in
      let m := if a_ltb ar d4 (fst m) then (d4, Some (rev_seg t i k)) else m in
      match snd m with
      | None => (t, a_add ar delta (a_zero ar))
      | Some t' => (t', a_add ar delta (a_add ar (ta_neg tar d0) (fst m)))
      end
  end.
(** tsp.py:297-313 the loop; state (tour, p0, d0) *)
Definition gopt3_step (g : graph) (st : list A * list A * W) : (list A * list A * W) + res (list A) :=
  let '(t, p0, d0) := st in
  let '(t, delta) := fold_left (gopt3_try g) (segments3 (length t)) (t, a_zero ar) in
  match gdistance g t with
  | Ok d1 =>
      let '(d0, p0) := if a_ltb ar d1 d0 then (d1, t) else (d0, p0) in
      if g_leb (a_zero ar) delta then inr (Ok p0) else inl (t, p0, d0)
  | Err e => inr (Err e) | OutOfFuel => inr OutOfFuel
  end.
(** tsp.py:243-314 _opt3 *)
Definition gopt3 (fuel : nat) (g : graph) (t : list A) : res (list A) :=
  d0 <- gdistance g t ;; loop fuel (gopt3_step g) (t, t, d0).

(** tsp.py:95-114 tsp_greedy *)
Definition gtsp_greedy srt (fuel : nat) (g : graph) : res (W * list A) :=
  t1 <- ggreedy srt g ;; d1 <- gdistance g t1 ;; t2 <- gopt2 fuel g t1 ;; d2 <- gdistance g t2 ;;
  Ok (if g_leb d2 d1 then (d2, t2) else (d1, t1)).
(** tsp.py:331-359 tsp_2023; [first]: the first element of the sorted list of (length, tour) pairs *)
Definition gtsp_2023 srt (first : list (W * list A) -> W * list A) (fuel : nat) (g : graph) : res (W * list A) :=
  if length (nodes g) <? 7 then gbrute_force fuel g
  else
    t <- ggreedy srt g ;; d <- gdistance g t ;;
    t1 <- gopt1 g t ;; d1 <- gdistance g t1 ;;
    t2 <- gopt2 fuel g t1 ;; d2 <- gdistance g t2 ;;
    t3 <- gopt3 fuel g t2 ;; d3 <- gdistance g t3 ;;
    Ok (first [(d, t); (d1, t1); (d2, t2); (d3, t3)]).
End GTsp.
