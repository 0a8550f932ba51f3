(** Model of /repo/graph/shortest_path.py: shortest_path, shortest_path_bidirectional,
    ShortestPathCache and distance_from_path.  Edge values are integers. *)
From Verif Require Import Prelude Base Loop.

(** heapq on tuples (cost, counter, ...): heappop removes the least tuple; the counter makes the
    comparison stop at the second component, so the payload is never compared. *)
Section Heap.
Context {P : Type}.
Notation entry := (Z * nat * P)%type.
Definition hlt (x y : entry) : bool :=
  let '(c1, i1, _) := x in let '(c2, i2, _) := y in ((c1 <? c2) || ((c1 =? c2) && (i1 <? i2)%nat))%Z.
Fixpoint hmin (x : entry) (q : list entry) : entry * list entry :=
  match q with
  | [] => (x, [])
  | y :: t => if hlt y x then let '(m, r) := hmin y t in (m, x :: r)
              else let '(m, r) := hmin x t in (m, y :: r)
  end.
Definition heappop (q : list entry) : option (entry * list entry) :=
  match q with [] => None | x :: t => Some (hmin x t) end.
End Heap.

Section Sp.
Context {A O : Type} {EA : EqDec A}.
Notation graph := (graph A O Z).

(** shortest_path.py:49-57: the for loop over the outgoing edges.  State (q, minimums, i). *)
Definition sp_relax (cost : Z) (path : list A) (visited : list A)
  (s : list (Z * nat * (A * list A)) * dict A Z * nat) (e : A * A * Z)
  : list (Z * nat * (A * list A)) * dict A Z * nat :=
  let '(q, minimums, i) := s in
  let '(_, v2, d) := e in
  if mem v2 visited then s else
  let next_node := (cost + d)%Z in
  if match dget v2 minimums with None => true | Some prev => (next_node <? prev)%Z end
  then ((next_node, i, (v2, path)) :: q, dset v2 next_node minimums, S i)
  else s.
(** shortest_path.py:35-58; state (q, minimums, i, visited).  The nested tuples `path` are a list. *)
Definition sp_step (g : graph) (e : A)
  (s : list (Z * nat * (A * list A)) * dict A Z * nat * list A)
  : (list (Z * nat * (A * list A)) * dict A Z * nat * list A) + res (ext * list A) :=
  let '(q, minimums, i, visited) := s in
  match heappop q with
  | None => inr (Ok (Inf, []))
  | Some ((cost, _, (v1, path)), q) =>
      if mem v1 visited then inl (q, minimums, i, visited) else
      let visited := sadd v1 visited in
      let path := v1 :: path in
      if eq_dec v1 e then inr (Ok (Fin cost, rev path)) else
      let '(q, minimums, i) := fold_left (sp_relax cost path visited) (edges_from g v1) (q, minimums, i) in
      inl (q, minimums, i, visited)
  end.
(** shortest_path.py:11-58 shortest_path; [avoids] is [] for None *)
Definition shortest_path (fuel : nat) (g : graph) (s e : A) (avoids : list A) : res (ext * list A) :=
  if negb (contains g s) then Err ValueError else
  if negb (contains g e) then Err ValueError else
  loop fuel (sp_step g e) ([(0%Z, 0, (s, []))], [(s, 0%Z)], 1, set_of avoids).

(** shortest_path.py:61-77 ScanThread: (cost, n1, path) *)
Definition thread : Type := Z * A * list A.
Definition th_cost (t : thread) : Z := fst (fst t).
Definition th_node (t : thread) : A := snd (fst t).
Definition th_path (t : thread) : list A := snd t.
(** bisect.insort with ScanThread.__lt__: insert after all entries of equal cost *)
Fixpoint insort (t : thread) (q : list thread) : list thread :=
  match q with
  | [] => [t]
  | x :: r => if (th_cost t <? th_cost x)%Z then t :: x :: r else x :: insort t r
  end.

(** shortest_path.py:91-119 the attributes of BiDirectionalSearch *)
Record side := mkSide {
  b_q : list thread; b_boundary : list A; b_mins : dict A Z; b_paths : dict A (list A);
  b_sp : list A; b_len : ext }.
Definition side0 (s : A) : side := mkSide [(0%Z, s, [])] [] [(s, 0%Z)] [(s, [])] [] Inf.
(** shortest_path.py:121-125 update *)
Definition side_update (x : side) (sp : list A) (len : ext) : res side :=
  if ext_ltb (b_len x) len then Err ValueError
  else Ok (mkSide (b_q x) (b_boundary x) (b_mins x) (b_paths x) sp len).
(** shortest_path.py:155-169: the for loop over the sorted edges (dist, n2).  State (q, mins, paths). *)
Definition bi_relax (st : thread) (len : ext) (omins : dict A Z)
  (s : list thread * dict A Z * dict A (list A)) (e : Z * A) : list thread * dict A Z * dict A (list A) :=
  let '(q, mins, paths) := s in
  let '(d, n2) := e in
  let n2_dist := (th_cost st + d)%Z in
  if ext_ltb len (Fin n2_dist) then s else
  if match dget n2 omins with Some m => ext_ltb len (Fin (n2_dist + m)) | None => false end then s else
  if match dget n2 mins with None => true | Some prev => (n2_dist <? prev)%Z end
  then let path := th_node st :: th_path st in
       (insort (n2_dist, n2, path) q, dset n2 n2_dist mins, dset n2 path paths)
  else s.
(** shortest_path.py:127-172 search.  [srt] is sorted() on (distance, node) pairs; comparing nodes of
    equal distance is assumed to be defined.  A missing key of other.mins / other.paths is a KeyError. *)
Definition bi_search (srt : list (Z * A) -> list (Z * A)) (g : graph) (avoids : list A) (forward : bool)
  (self other : side) : res (side * side) :=
  match b_q self with
  | [] => Ok (self, other)
  | st :: q =>
      if ext_ltb (b_len self) (Fin (th_cost st)) then Ok (mkSide q (b_boundary self) (b_mins self) (b_paths self) (b_sp self) (b_len self), other) else
      let boundary := sadd (th_node st) (b_boundary self) in
      r <- (if mem (th_node st) (b_boundary other) then
              match dget (th_node st) (b_mins other) with
              | None => Err KeyError
              | Some m =>
                  let total := (th_cost st + m)%Z in
                  if ext_ltb (Fin total) (b_len self) then
                    match dget (th_node st) (b_paths other) with
                    | None => Err KeyError
                    | Some op =>
                        let sp := if forward then rev (th_path st) ++ [th_node st] ++ op
                                  else rev op ++ [th_node st] ++ th_path st in
                        Ok (sp, Fin total, filter (fun a => (th_cost a <? total)%Z) q)
                    end
                  else Ok (b_sp self, b_len self, q)
              end
            else Ok (b_sp self, b_len self, q)) ;;
      let '(sp, len, q) := r in
      let es := srt (if forward then map (fun e => (snd e, snd (fst e))) (filter (fun e => negb (mem (snd (fst e)) avoids)) (edges_from g (th_node st)))
                     else map (fun e => (snd e, fst (fst e))) (filter (fun e => negb (mem (fst (fst e)) avoids)) (edges_to g (th_node st)))) in
      let '(q, mins, paths) := fold_left (bi_relax st (b_len self) (b_mins other)) es (q, b_mins self, b_paths self) in
      self' <- side_update (mkSide q boundary mins paths (b_sp self) (b_len self)) sp len ;;
      other' <- side_update other sp len ;;
      Ok (self', other')
  end.
(** shortest_path.py:238-240 *)
Definition bi_step (srt : list (Z * A) -> list (Z * A)) (g : graph) (avoids : list A) (s : side * side)
  : (side * side) + res (ext * list A) :=
  let '(fw, bw) := s in
  if is_nil (b_q fw) && is_nil (b_q bw) then inr (Ok (b_len fw, b_sp fw)) else
  match (r1 <- bi_search srt g avoids true fw bw ;;
         let '(fw, bw) := r1 in
         r2 <- bi_search srt g avoids false bw fw ;;
         let '(bw, fw) := r2 in Ok (fw, bw)) with
  | Ok s' => inl s'
  | Err e => inr (Err e)
  | OutOfFuel => inr OutOfFuel
  end.
(** shortest_path.py:175-242 shortest_path_bidirectional *)
Definition shortest_path_bidirectional (srt : list (Z * A) -> list (Z * A)) (fuel : nat) (g : graph) (s e : A) (avoids : list A)
  : res (ext * list A) :=
  if negb (contains g s) then Err ValueError else
  if negb (contains g e) then Err ValueError else
  loop fuel (bi_step srt g avoids) (side0 s, side0 e).

(** shortest_path.py:324-359 distance_from_path.  [cache] maps pairs to distances.  A cached or stored
    distance of 0 is falsy, so the search is done again. *)
Definition truthy (o : option Z) : option Z := match o with Some d => if (d =? 0)%Z then None else Some d | None => None end.
Fixpoint dfp_loop (fuel : nat) (g : graph) (n1 : A) (rest : list A) (cache : dict (A * A) Z) (acc : Z) : res ext :=
  match rest with
  | [] => Ok (Fin acc)
  | n2 :: t =>
      match truthy (edge g n1 n2) with
      | Some d => dfp_loop fuel g n2 t cache (acc + d)
      | None =>
          match truthy (dget (n1, n2) cache) with
          | Some d => dfp_loop fuel g n2 t cache (acc + d)
          | None =>
              r <- shortest_path fuel g n1 n2 [] ;;
              match fst r with
              | Inf => Ok Inf
              | Fin d => dfp_loop fuel g n2 t (dset (n1, n2) d cache) (acc + d)
              end
          end
      end
  end.
Definition distance_from_path (fuel : nat) (g : graph) (path : list A) : res ext :=
  match path with [] => Ok (Fin 0) | n1 :: t => dfp_loop fuel g n1 t [] 0 end.

(** shortest_path.py:245-316 ShortestPathCache.  [cache]: (start,end) -> (distance, path). *)
Definition cache_t : Type := dict (A * A) (ext * list A).
(** shortest_path.py:271-276: for a, _ in enumerate(path): section = path[a : b - a]; break if shorter
    than 3.  [n] is the number of iterations left. *)
Fixpoint cache_inner (fuel : nat) (g : graph) (path : list A) (a n : nat) (c : cache_t) : res cache_t :=
  match n with
  | 0 => Ok c
  | S n' =>
      let section := skipn a (firstn (length path - a) path) in
      if length section <? 3 then Ok c else
      match section with
      | [] => Ok c
      | h :: _ =>
          d <- distance_from_path fuel g section ;;
          cache_inner fuel g path (S a) n' (dset (h, last section h) (d, section) c)
      end
  end.
(** shortest_path.py:278-281: for ix in range(len(path[1:-1])): section = path[ix:] *)
Fixpoint cache_tails (fuel : nat) (g : graph) (path : list A) (n : nat) (c : cache_t) {struct n} : res cache_t :=
  match n with
  | 0 => Ok c
  | S n' =>
      match path with
      | [] => Ok c
      | h :: t =>
          d <- distance_from_path fuel g path ;;
          cache_tails fuel g t n' (dset (h, last path h) (d, path) c)
      end
  end.
(** shortest_path.py:258-281 _update_cache; path[0] of an empty path is an IndexError *)
Definition update_cache (fuel : nat) (g : graph) (path : list A) (c : cache_t) : res cache_t :=
  match path with
  | [] => Err IndexError
  | h :: _ =>
      c1 <- (if length path <=? 2 then d <- distance_from_path fuel g path ;; Ok (dset (h, last path h) (d, path) c) else Ok c) ;;
      c2 <- cache_inner fuel g path 0 (length path) c1 ;;
      cache_tails fuel g path (length path - 2) c2
  end.
(** shortest_path.py:283-316 ShortestPathCache.shortest_path.  State (cache, repeated_cache);
    [hash] is hash() of a frozenset. *)
Definition cached_sp {H} {EH : EqDec H} (hash : list A -> H) (srt : list (Z * A) -> list (Z * A)) (fuel : nat) (g : graph)
  (st : cache_t * dict (A * A * H) (ext * list A)) (s e : A) (avoids : option (list A))
  : res ((ext * list A) * (cache_t * dict (A * A * H) (ext * list A))) :=
  let '(c, rc) := st in
  if negb (contains g s) then Err ValueError else
  if negb (contains g e) then Err ValueError else
  match avoids with
  | Some av =>
      match dget (s, e, hash av) rc with
      | Some r => Ok (r, st)
      | None => r <- shortest_path_bidirectional srt fuel g s e av ;; Ok (r, (c, dset (s, e, hash av) r rc))
      end
  | None =>
      match dget (s, e) c with
      | Some r => Ok (r, st)
      | None =>
          r <- shortest_path_bidirectional srt fuel g s e [] ;;
          c' <- (if is_nil (snd r) then Ok (dset (s, e) (Inf, []) c) else update_cache fuel g (snd r) c) ;;
          match dget (s, e) c' with
          | None => Err KeyError
          | Some r' => Ok (r', (c', rc))
          end
      end
  end.
(** core.py:48-61 a sequence of shortest_path(s, e, memoize=True, avoids) calls on one Graph that is not
    modified in between: the cache object is created by the first call and kept. *)
Fixpoint cached_seq {H} {EH : EqDec H} (hash : list A -> H) (srt : list (Z * A) -> list (Z * A)) (fuel : nat) (g : graph)
  (st : cache_t * dict (A * A * H) (ext * list A)) (qs : list (A * A * option (list A))) : res (list (ext * list A)) :=
  match qs with
  | [] => Ok []
  | (s, e, av) :: t =>
      r <- cached_sp hash srt fuel g st s e av ;;
      let '(ans, st') := r in
      rest <- cached_seq hash srt fuel g st' t ;; Ok (ans :: rest)
  end.
End Sp.
Arguments thread : clear implicits.
Arguments cache_t : clear implicits.
Arguments side : clear implicits.
