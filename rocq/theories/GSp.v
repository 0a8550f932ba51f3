(** Model of /repo/graph/shortest_path.py over numbers of any kind: [shortest_path] and
    [shortest_path_bidirectional] with the zero, the addition and the comparisons of the edge values as a
    parameter.  [Sp] is the case of (unbounded) integers; [Float64] is the case of Python's floats, whose
    addition rounds.  Nothing here assumes that addition is associative or that it is exact. *)
From Verif Require Import Prelude Base Loop.

(** the operations on edge values which the code uses *)
Record arith (W : Type) := mkArith {
  a_zero : W;                      (* 0 *)
  a_inf : W;                       (* float("inf") *)
  a_add : W -> W -> W;             (* + *)
  a_ltb : W -> W -> bool;          (* < *)
  a_eqb : W -> W -> bool }.        (* == *)
Arguments a_zero {W}. Arguments a_inf {W}. Arguments a_add {W}. Arguments a_ltb {W}. Arguments a_eqb {W}. Arguments mkArith {W}.

Section GHeap.
Context {W P : Type} (ar : arith W).
Notation entry := (W * nat * P)%type.
(** heapq on tuples (cost, counter, ...), as in Sp *)
Definition ghlt (x y : entry) : bool :=
  let '(c1, i1, _) := x in let '(c2, i2, _) := y in a_ltb ar c1 c2 || (a_eqb ar c1 c2 && (i1 <? i2)).
Fixpoint ghmin (x : entry) (q : list entry) : entry * list entry :=
  match q with
  | [] => (x, [])
  | y :: t => if ghlt y x then let '(m, r) := ghmin y t in (m, x :: r)
              else let '(m, r) := ghmin x t in (m, y :: r)
  end.
Definition gheappop (q : list entry) : option (entry * list entry) :=
  match q with [] => None | x :: t => Some (ghmin x t) end.
End GHeap.

Section GSp.
Context {A O W : Type} {EA : EqDec A} (ar : arith W).
Notation graph := (graph A O W).

(** shortest_path.py:49-57: the for loop over the outgoing edges *)
Definition gsp_relax (cost : W) (path : list A) (visited : list A)
  (s : list (W * nat * (A * list A)) * dict A W * nat) (e : A * A * W)
  : list (W * nat * (A * list A)) * dict A W * nat :=
  let '(q, minimums, i) := s in
  let '(_, v2, d) := e in
  if mem v2 visited then s else
  let next_node := a_add ar cost d in
  if match dget v2 minimums with None => true | Some prev => a_ltb ar next_node prev end
  then ((next_node, i, (v2, path)) :: q, dset v2 next_node minimums, S i)
  else s.
(** shortest_path.py:35-58 *)
Definition gsp_step (g : graph) (e : A)
  (s : list (W * nat * (A * list A)) * dict A W * nat * list A)
  : (list (W * nat * (A * list A)) * dict A W * nat * list A) + res (W * list A) :=
  let '(q, minimums, i, visited) := s in
  match gheappop ar q with
  | None => inr (Ok (a_inf ar, []))
  | Some ((cost, _, (v1, path)), q) =>
      if mem v1 visited then inl (q, minimums, i, visited) else
      let visited := sadd v1 visited in
      let path := v1 :: path in
      if eq_dec v1 e then inr (Ok (cost, rev path)) else
      let '(q, minimums, i) := fold_left (gsp_relax cost path visited) (edges_from g v1) (q, minimums, i) in
      inl (q, minimums, i, visited)
  end.
(** shortest_path.py:11-58 shortest_path; [avoids] is [] for None *)
Definition gshortest_path (fuel : nat) (g : graph) (s e : A) (avoids : list A) : res (W * list A) :=
  if negb (contains g s) then Err ValueError else
  if negb (contains g e) then Err ValueError else
  loop fuel (gsp_step g e) ([(a_zero ar, 0, (s, []))], [(s, a_zero ar)], 1, set_of avoids).

(** shortest_path.py:61-77 ScanThread: (cost, n1, path) *)
Definition gthread : Type := W * A * list A.
Definition gth_cost (t : gthread) : W := fst (fst t).
Definition gth_node (t : gthread) : A := snd (fst t).
Definition gth_path (t : gthread) : list A := snd t.
(** bisect.insort with ScanThread.__lt__: insert after all entries of equal cost *)
Fixpoint ginsort (t : gthread) (q : list gthread) : list gthread :=
  match q with
  | [] => [t]
  | x :: r => if a_ltb ar (gth_cost t) (gth_cost x) then t :: x :: r else x :: ginsort t r
  end.
(** shortest_path.py:91-119 the attributes of BiDirectionalSearch *)
Record gside := mkGSide {
  gb_q : list gthread; gb_boundary : list A; gb_mins : dict A W; gb_paths : dict A (list A);
  gb_sp : list A; gb_len : W }.
Definition gside0 (s : A) : gside := mkGSide [(a_zero ar, s, [])] [] [(s, a_zero ar)] [(s, [])] [] (a_inf ar).
(** shortest_path.py:121-125 update *)
Definition gside_update (x : gside) (sp : list A) (len : W) : res gside :=
  if a_ltb ar (gb_len x) len then Err ValueError
  else Ok (mkGSide (gb_q x) (gb_boundary x) (gb_mins x) (gb_paths x) sp len).
(** shortest_path.py:155-169: the for loop over the sorted edges (dist, n2).  State (q, mins, paths). *)
Definition gbi_relax (st : gthread) (len : W) (omins : dict A W)
  (s : list gthread * dict A W * dict A (list A)) (e : W * A) : list gthread * dict A W * dict A (list A) :=
  let '(q, mins, paths) := s in
  let '(d, n2) := e in
  let n2_dist := a_add ar (gth_cost st) d in
  if a_ltb ar len n2_dist then s else
  if match dget n2 omins with Some m => a_ltb ar len (a_add ar n2_dist m) | None => false end then s else
  if match dget n2 mins with None => true | Some prev => a_ltb ar n2_dist prev end
  then let path := gth_node st :: gth_path st in
       (ginsort (n2_dist, n2, path) q, dset n2 n2_dist mins, dset n2 path paths)
  else s.
(** shortest_path.py:127-172 search *)
Definition gbi_search (srt : list (W * A) -> list (W * A)) (g : graph) (avoids : list A) (forward : bool)
  (self other : gside) : res (gside * gside) :=
  match gb_q self with
  | [] => Ok (self, other)
  | st :: q =>
      if a_ltb ar (gb_len self) (gth_cost st) then Ok (mkGSide q (gb_boundary self) (gb_mins self) (gb_paths self) (gb_sp self) (gb_len self), other) else
      let boundary := sadd (gth_node st) (gb_boundary self) in
      r <- (if mem (gth_node st) (gb_boundary other) then
              match dget (gth_node st) (gb_mins other) with
              | None => Err KeyError
              | Some m =>
                  let total := a_add ar (gth_cost st) m in
                  if a_ltb ar total (gb_len self) then
                    match dget (gth_node st) (gb_paths other) with
                    | None => Err KeyError
                    | Some op =>
                        let sp := if forward then rev (gth_path st) ++ [gth_node st] ++ op
                                  else rev op ++ [gth_node st] ++ gth_path st in
                        Ok (sp, total, filter (fun a => a_ltb ar (gth_cost a) total) q)
                    end
                  else Ok (gb_sp self, gb_len self, q)
              end
            else Ok (gb_sp self, gb_len self, q)) ;;
      let '(sp, len, q) := r in
      let es := srt (if forward then map (fun e => (snd e, snd (fst e))) (filter (fun e => negb (mem (snd (fst e)) avoids)) (edges_from g (gth_node st)))
                     else map (fun e => (snd e, fst (fst e))) (filter (fun e => negb (mem (fst (fst e)) avoids)) (edges_to g (gth_node st)))) in
      let '(q, mins, paths) := fold_left (gbi_relax st (gb_len self) (gb_mins other)) es (q, gb_mins self, gb_paths self) in
      self' <- gside_update (mkGSide q boundary mins paths (gb_sp self) (gb_len self)) sp len ;;
      other' <- gside_update other sp len ;;
      Ok (self', other')
  end.
(** shortest_path.py:238-240 *)
Definition gbi_step (srt : list (W * A) -> list (W * A)) (g : graph) (avoids : list A) (s : gside * gside)
  : (gside * gside) + res (W * list A) :=
  let '(fw, bw) := s in
  if is_nil (gb_q fw) && is_nil (gb_q bw) then inr (Ok (gb_len fw, gb_sp fw)) else
  match (r1 <- gbi_search srt g avoids true fw bw ;;
         let '(fw, bw) := r1 in
         r2 <- gbi_search srt g avoids false bw fw ;;
         let '(bw, fw) := r2 in Ok (fw, bw)) with
  | Ok s' => inl s'
  | Err e => inr (Err e)
  | OutOfFuel => inr OutOfFuel
  end.
(** shortest_path.py:175-242 shortest_path_bidirectional *)
Definition gshortest_path_bidirectional (srt : list (W * A) -> list (W * A)) (fuel : nat) (g : graph) (s e : A) (avoids : list A)
  : res (W * list A) :=
  if negb (contains g s) then Err ValueError else
  if negb (contains g e) then Err ValueError else
  loop fuel (gbi_step srt g avoids) (gside0 s, gside0 e).

(** bool() of a number *)
Definition gtruthy (o : option W) : option W := match o with Some d => if a_eqb ar d (a_zero ar) then None else Some d | None => None end.
(** shortest_path.py:324-359 distance_from_path *)
Fixpoint gdfp_loop (fuel : nat) (g : graph) (n1 : A) (rest : list A) (cache : dict (A * A) W) (acc : W) : res W :=
  match rest with
  | [] => Ok acc
  | n2 :: t =>
      match gtruthy (edge g n1 n2) with
      | Some d => gdfp_loop fuel g n2 t cache (a_add ar acc d)
      | None =>
          match gtruthy (dget (n1, n2) cache) with
          | Some d => gdfp_loop fuel g n2 t cache (a_add ar acc d)
          | None =>
              r <- gshortest_path fuel g n1 n2 [] ;;
              if a_eqb ar (fst r) (a_inf ar) then Ok (a_inf ar)
              else gdfp_loop fuel g n2 t (dset (n1, n2) (fst r) cache) (a_add ar acc (fst r))
          end
      end
  end.
Definition gdistance_from_path (fuel : nat) (g : graph) (path : list A) : res W :=
  match path with [] => Ok (a_zero ar) | n1 :: t => gdfp_loop fuel g n1 t [] (a_zero ar) end.

(** adjacency_matrix.py:4-31 and all_pairs_shortest_path.py:31-38, as in Fw; min(a, b) is b if b < a else a *)
Definition gmget (m : dict A (dict A W)) (a b : A) : W := match eget m a b with Some e => e | None => a_inf ar end.
Definition gadjacency_matrix (g : graph) : dict A (dict A W) :=
  map (fun v1 => (v1, map (fun v2 => (v2, if eq_dec v1 v2 then a_zero ar else match edge g v1 v2 with Some w => w | None => a_inf ar end)) (nodes g))) (nodes g).
Definition gfw_round (vs : list A) (m : dict A (dict A W)) (v2 : A) : dict A (dict A W) :=
  map (fun v1 => (v1, map (fun v3 => (v3, let a := gmget m v1 v3 in let b := a_add ar (gmget m v1 v2) (gmget m v2 v3) in if a_ltb ar b a then b else a)) vs)) vs.
Definition gall_pairs_shortest_paths (g : graph) : dict A (dict A W) :=
  let m := gadjacency_matrix g in
  let vertices := dkeys m in
  fold_left (gfw_round vertices) vertices m.
End GSp.
