(** A second model of /repo/graph/base.py, with object identity: dicts are cells of a heap, a graph is a record of
    references to its five dicts and its counter, and every statement of a method is executed on the heap, so that what a
    call leaves behind when it raises, and whether two objects share a dict, can be expressed.  HeapFacts.v relates it to
    the model in Base.v.
    Simplifications: lists returned by methods are values (they are new objects in the code); the temporary copies made
    in del_node are values; while from_dict iterates over a dict the items are those the dict had at the start of that
    loop. *)
From Verif Require Import Prelude Base.

Section Heap.
Context {A O V : Type} {EA : EqDec A}.
(** [is_coll v]: isinstance(v, (dict, list, tuple)) *)
Context (is_coll : V -> bool).

(** The dicts: {node: object}, {node: reference to a dict}, {node: value}, {node: degree}; and an int attribute. *)
Inductive cell :=
| CNodes (d : dict A (option O))
| COuter (d : dict A nat)
| CInner (d : dict A V)
| CDeg (d : dict A Z)
| CCount (z : Z).
Record heap := mkHeap { h_next : nat; h_get : nat -> option cell }.
Definition empty_heap : heap := mkHeap 0 (fun _ => None).
Definition hput (l : nat) (c : cell) (h : heap) : heap := mkHeap (h_next h) (fun x => if x =? l then Some c else h_get h x).

(** Statements: they change the heap, and return or raise. *)
Definition prog (X : Type) : Type := heap -> heap * res X.
Definition ret {X} (x : X) : prog X := fun h => (h, Ok x).
Definition raise {X} (e : exn) : prog X := fun h => (h, Err e).
Definition andthen {X Y} (m : prog X) (k : X -> prog Y) : prog Y :=
  fun h => match m h with (h, Ok x) => k x h | (h, Err e) => (h, Err e) | (h, OutOfFuel) => (h, OutOfFuel) end.
Notation "x <~ m ; k" := (andthen m (fun x => k)) (at level 61, m at next level, right associativity).
Fixpoint iter {X} (f : X -> prog unit) (l : list X) : prog unit :=
  match l with [] => ret tt | x :: t => _ <~ f x ; iter f t end.
(** a new object *)
Definition alloc (c : cell) : prog nat := fun h => (mkHeap (S (h_next h)) (h_get (hput (h_next h) c h)), Ok (h_next h)).
Definition write (l : nat) (c : cell) : prog unit := fun h => (hput l c h, Ok tt).
(** reading a cell; another kind of cell would be a TypeError (HeapFacts: does not happen) *)
Definition rd_nodes (l : nat) : prog (dict A (option O)) := fun h => (h, match h_get h l with Some (CNodes d) => Ok d | _ => Err TypeError end).
Definition rd_outer (l : nat) : prog (dict A nat) := fun h => (h, match h_get h l with Some (COuter d) => Ok d | _ => Err TypeError end).
Definition rd_inner (l : nat) : prog (dict A V) := fun h => (h, match h_get h l with Some (CInner d) => Ok d | _ => Err TypeError end).
Definition rd_deg (l : nat) : prog (dict A Z) := fun h => (h, match h_get h l with Some (CDeg d) => Ok d | _ => Err TypeError end).
Definition rd_count (l : nat) : prog Z := fun h => (h, match h_get h l with Some (CCount z) => Ok z | _ => Err TypeError end).

(** base.py:13-24: the attributes of a graph object *)
Record gobj := mkObj { o_nodes : nat; o_edges : nat; o_count : nat; o_rev : nat; o_indeg : nat; o_outdeg : nat }.
(** base.py:13-24 __init__() *)
Definition hnew : prog gobj :=
  n <~ alloc (CNodes []) ; e <~ alloc (COuter []) ; c <~ alloc (CCount 0) ; r <~ alloc (COuter []) ;
  i <~ alloc (CDeg []) ; o <~ alloc (CDeg []) ; ret (mkObj n e c r i o).

(** base.py:152-163 add_node *)
Definition hadd_node (g : gobj) (n : A) (o : option O) : prog unit :=
  ns <~ rd_nodes (o_nodes g) ;
  if dmem n ns then write (o_nodes g) (CNodes (dset n o ns))
  else
    _ <~ write (o_nodes g) (CNodes (dset n o ns)) ;
    d <~ rd_deg (o_indeg g) ; _ <~ write (o_indeg g) (CDeg (dset n 0%Z d)) ;
    d <~ rd_deg (o_outdeg g) ; write (o_outdeg g) (CDeg (dset n 0%Z d)).
(** d[k1][k2] = v on an outer dict that has the key k1, KeyError otherwise *)
Definition hset2 (l : nat) (k1 k2 : A) (v : V) : prog unit :=
  d <~ rd_outer l ;
  match dget k1 d with
  | None => raise KeyError
  | Some i => x <~ rd_inner i ; write i (CInner (dset k2 v x))
  end.
(** base.py:90-101: the two halves of adding a new edge: d.get(k1), then {k2: v} or d[k1][k2] = v *)
Definition hput2 (l : nat) (k1 k2 : A) (v : V) : prog unit :=
  d <~ rd_outer l ;
  match dget k1 d with
  | None => i <~ alloc (CInner [(k2, v)]) ; write l (COuter (dset k1 i d))
  | Some i => x <~ rd_inner i ; write i (CInner (dset k2 v x))
  end.
(** d[k] += z on a defaultdict(int) *)
Definition hdeg (l : nat) (k : A) (z : Z) : prog unit := d <~ rd_deg l ; write l (CDeg (dset k (deg d k + z)%Z d)).
(** self._edge_count += z *)
Definition hcount (l : nat) (z : Z) : prog unit := c <~ rd_count l ; write l (CCount (c + z)).
(** base.py:74-106 add_edge without the last two lines *)
Definition hadd_edge1 (g : gobj) (a b : A) (v : V) : prog unit :=
  if is_coll v then raise ValueError else
  ns <~ rd_nodes (o_nodes g) ; _ <~ (if dmem a ns then ret tt else hadd_node g a None) ;
  ns <~ rd_nodes (o_nodes g) ; _ <~ (if dmem b ns then ret tt else hadd_node g b None) ;
  d <~ rd_outer (o_edges g) ;
  present <~ (match dget a d with None => ret false | Some i => x <~ rd_inner i ; ret (dmem b x) end) ;
  if present : bool then _ <~ hset2 (o_edges g) a b v ; hset2 (o_rev g) b a v
  else
    _ <~ hput2 (o_edges g) a b v ; _ <~ hput2 (o_rev g) b a v ;
    _ <~ hdeg (o_outdeg g) a 1 ; _ <~ hdeg (o_indeg g) b 1 ; hcount (o_count g) 1.
(** base.py:74-109 add_edge *)
Definition hadd_edge (g : gobj) (a b : A) (v : V) (bidirectional : bool) : prog unit :=
  _ <~ hadd_edge1 g a b v ; if bidirectional then hadd_edge1 g b a v else ret tt.
(** del d[k1][k2]: KeyError if there is none *)
Definition hdel2 (l : nat) (k1 k2 : A) : prog unit :=
  d <~ rd_outer l ;
  match dget k1 d with
  | None => raise KeyError
  | Some i => x <~ rd_inner i ; if dmem k2 x then write i (CInner (ddel k2 x)) else raise KeyError
  end.
(** if not d[k]: del d[k] *)
Definition hprune (l : nat) (k : A) : prog unit :=
  d <~ rd_outer l ;
  match dget k d with
  | None => raise KeyError
  | Some i => x <~ rd_inner i ; if is_nil x then write l (COuter (ddel k d)) else ret tt
  end.
(** base.py:131-150 del_edge *)
Definition hdel_edge (g : gobj) (a b : A) : prog unit :=
  fun h => match hdel2 (o_edges g) a b h with
           | (h, Err KeyError) => (h, Ok tt)
           | (h, Err e) => (h, Err e)
           | (h, OutOfFuel) => (h, OutOfFuel)
           | (h, Ok _) =>
               (_ <~ hprune (o_edges g) a ; _ <~ hdel2 (o_rev g) b a ; _ <~ hprune (o_rev g) b ;
                _ <~ hdeg (o_outdeg g) a (-1) ; _ <~ hdeg (o_indeg g) b (-1) ; hcount (o_count g) (-1)) h
           end.
(** the keys of d[k], KeyError if there is none *)
Definition hkeys2 (l : nat) (k : A) : prog (list A) :=
  d <~ rd_outer l ; match dget k d with None => raise KeyError | Some i => x <~ rd_inner i ; ret (dkeys x) end.
(** base.py:173-202 del_node *)
Definition hdel_node (g : gobj) (n : A) : prog unit :=
  ns <~ rd_nodes (o_nodes g) ;
  if negb (dmem n ns) then ret tt else
  d <~ rd_deg (o_outdeg g) ;
  _ <~ (if Z.eqb (deg d n) 0 then ret tt else ks <~ hkeys2 (o_edges g) n ; iter (fun b => hdel_edge g n b) ks) ;
  d <~ rd_deg (o_indeg g) ;
  _ <~ (if Z.eqb (deg d n) 0 then ret tt else ks <~ hkeys2 (o_rev g) n ; iter (fun a => hdel_edge g a n) ks) ;
  x <~ rd_outer (o_edges g) ; _ <~ write (o_edges g) (COuter (ddel n x)) ;
  x <~ rd_outer (o_rev g) ; _ <~ write (o_rev g) (COuter (ddel n x)) ;
  x <~ rd_nodes (o_nodes g) ; _ <~ write (o_nodes g) (CNodes (ddel n x)) ;
  x <~ rd_deg (o_indeg g) ; _ <~ write (o_indeg g) (CDeg (ddel n x)) ;
  x <~ rd_deg (o_outdeg g) ; write (o_outdeg g) (CDeg (ddel n x)).
(** base.py:356-362 in_degree / out_degree on a defaultdict *)
Definition hread_deg (l : nat) (n : A) : prog Z :=
  d <~ rd_deg l ; match dget n d with Some z => ret z | None => _ <~ write l (CDeg (dset n 0%Z d)) ; ret 0%Z end.
(** base.py:280 edges() *)
Fixpoint hedges_of (d : dict A nat) : prog (list (A * A * V)) :=
  match d with
  | [] => ret []
  | (a, i) :: t => x <~ rd_inner i ; r <~ hedges_of t ; ret (map (fun q => (a, fst q, snd q)) x ++ r)
  end.
Definition hedges (g : gobj) : prog (list (A * A * V)) := d <~ rd_outer (o_edges g) ; hedges_of d.
(** base.py:65-72 copy *)
Definition hcopy (g : gobj) : prog gobj :=
  c <~ hnew ;
  ns <~ rd_nodes (o_nodes g) ; _ <~ iter (fun p => hadd_node c (fst p) (snd p)) ns ;
  es <~ hedges g ; _ <~ iter (fun e => hadd_edge c (fst (fst e)) (snd (fst e)) (snd e) false) es ;
  ret c.
(** base.py:303-310 to_dict: a new dict of new dicts *)
Fixpoint hinners (ns : list A) : prog (dict A nat) :=
  match ns with [] => ret [] | n :: t => i <~ alloc (CInner []) ; r <~ hinners t ; ret ((n, i) :: r) end.
Definition hto_dict (g : gobj) : prog nat :=
  ns <~ rd_nodes (o_nodes g) ; d <~ hinners (dkeys ns) ; l <~ alloc (COuter d) ;
  es <~ hedges g ; _ <~ iter (fun e => hset2 l (fst (fst e)) (snd (fst e)) (snd e)) es ;
  ret l.
(** base.py:282-301 from_dict; [l]: the dict passed in *)
Definition hfrom_dict (g : gobj) (l : nat) : prog unit :=
  d <~ rd_outer l ;
  iter (fun p => x <~ rd_inner (snd p) ;
                 if is_nil x then hadd_node g (fst p) None
                 else iter (fun q => hadd_edge g (fst p) (fst q) (snd q) false) x) d.
(** base.py:312-332 from_list; an item is (n1, n2, value), (n1, n2, value, bidirectional), (node,), or something that
    raises: not a list or tuple AssertionError, () IndexError, too long TypeError *)
Inductive item := Item (x : link A V) | BadItem (e : exn).
Definition hadd_item (g : gobj) (x : item) : prog unit :=
  match x with
  | Item (LEdge a b v) => hadd_edge g a b v false
  | Item (LEdgeBi a b v bi) => hadd_edge g a b v bi
  | Item (LNode n) => hadd_node g n None
  | BadItem e => raise e
  end.
Definition hfrom_list (g : gobj) (xs : list item) : prog unit := iter (hadd_item g) xs.

(** ** A user's program: variables for graphs, for dicts of dicts and for dicts *)
Record world := mkWorld { w_heap : heap; w_graphs : list gobj; w_outers : list nat; w_inners : list nat }.
Definition empty_world : world := mkWorld empty_heap [] [] [].
Inductive call :=                     (* a method called on a graph *)
| AddNode (n : A) (o : option O) | AddEdge (a b : A) (v : V) (bi : bool) | DelEdge (a b : A) | DelNode (n : A)
| FromList (xs : list item) | InDegree (n : A) | OutDegree (n : A).
Inductive stmt :=
| NewGraph                            (* gs += [Graph()] *)
| Copy (i : nat)                      (* gs += [gs[i].copy()] *)
| Call (i : nat) (c : call)           (* gs[i].c *)
| ToDict (i : nat)                    (* ds += [gs[i].to_dict()] *)
| FromDict (i j : nat)                (* gs[i].from_dict(ds[j]) *)
| NewOuter                            (* ds += [{}] *)
| NewInner                            (* es += [{}] *)
| GetInner (j : nat) (a : A)          (* es += [ds[j][a]] *)
| SetOuter (j : nat) (a : A) (k : nat)(* ds[j][a] = es[k] *)
| DelOuter (j : nat) (a : A)          (* del ds[j][a] *)
| SetInner (k : nat) (b : A) (v : V)  (* es[k][b] = v *)
| DelInner (k : nat) (b : A).         (* del es[k][b] *)
Definition hcall (g : gobj) (c : call) : prog unit :=
  match c with
  | AddNode n o => hadd_node g n o
  | AddEdge a b v bi => hadd_edge g a b v bi
  | DelEdge a b => hdel_edge g a b
  | DelNode n => hdel_node g n
  | FromList xs => hfrom_list g xs
  | InDegree n => _ <~ hread_deg (o_indeg g) n ; ret tt
  | OutDegree n => _ <~ hread_deg (o_outdeg g) n ; ret tt
  end.
Definition to_unit {X} (r : res X) : res unit := match r with Ok _ => Ok tt | Err e => Err e | OutOfFuel => OutOfFuel end.
(** One statement: the world afterwards, and how it ended (exceptions are caught by the user).  A variable that does
    not exist is an IndexError and nothing happens. *)
Definition exec (w : world) (s : stmt) : world * res unit :=
  let h := w_heap w in
  let var {X} (l : list X) (i : nat) (k : X -> world * res unit) := match nth_error l i with Some x => k x | None => (w, Err IndexError) end in
  let with_heap h := mkWorld h (w_graphs w) (w_outers w) (w_inners w) in
  let push_graph (r : heap * res gobj) := match r with (h, Ok g) => (mkWorld h (w_graphs w ++ [g]) (w_outers w) (w_inners w), Ok tt) | (h, r) => (with_heap h, to_unit r) end in
  let push_outer (r : heap * res nat) := match r with (h, Ok l) => (mkWorld h (w_graphs w) (w_outers w ++ [l]) (w_inners w), Ok tt) | (h, r) => (with_heap h, to_unit r) end in
  let push_inner (r : heap * res nat) := match r with (h, Ok l) => (mkWorld h (w_graphs w) (w_outers w) (w_inners w ++ [l]), Ok tt) | (h, r) => (with_heap h, to_unit r) end in
  let just (r : heap * res unit) := (with_heap (fst r), snd r) in
  match s with
  | NewGraph => push_graph (hnew h)
  | Copy i => var (w_graphs w) i (fun g => push_graph (hcopy g h))
  | Call i c => var (w_graphs w) i (fun g => just (hcall g c h))
  | ToDict i => var (w_graphs w) i (fun g => push_outer (hto_dict g h))
  | FromDict i j => var (w_graphs w) i (fun g => var (w_outers w) j (fun l => just (hfrom_dict g l h)))
  | NewOuter => push_outer (alloc (COuter []) h)
  | NewInner => push_inner (alloc (CInner []) h)
  | GetInner j a => var (w_outers w) j (fun l => push_inner ((d <~ rd_outer l ; match dget a d with Some i => ret i | None => raise KeyError end) h))
  | SetOuter j a k => var (w_outers w) j (fun l => var (w_inners w) k (fun i => just ((d <~ rd_outer l ; write l (COuter (dset a i d))) h)))
  | DelOuter j a => var (w_outers w) j (fun l => just ((d <~ rd_outer l ; if dmem a d then write l (COuter (ddel a d)) else raise KeyError) h))
  | SetInner k b v => var (w_inners w) k (fun i => just ((x <~ rd_inner i ; write i (CInner (dset b v x))) h))
  | DelInner k b => var (w_inners w) k (fun i => just ((x <~ rd_inner i ; if dmem b x then write i (CInner (ddel b x)) else raise KeyError) h))
  end.
Definition exec_all (ss : list stmt) : world := fold_left (fun w s => fst (exec w s)) ss empty_world.
End Heap.
Arguments cell : clear implicits.
Arguments heap : clear implicits.
Arguments item : clear implicits.
Arguments stmt : clear implicits.
Arguments call : clear implicits.
Arguments world : clear implicits.
Notation "x <~ m ; k" := (andthen m (fun x => k)) (at level 61, m at next level, right associativity).
