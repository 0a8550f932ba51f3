(** Model of /repo/graph/hash_methods.py.  sha3_256 is an arbitrary function. *)
From Verif Require Import Prelude Base Loop Dfs.

Section Merkle.
(** [H] is sha3_256 of a byte string (as hex digits), [enc] is bytes(digest, 'utf-8') *)
Context {Byte D : Type} {ED : EqDec D} (H : list Byte -> D) (enc : D -> list Byte).
Notation graph := (graph D unit Z).
(** hash_methods.py:119-132 one iteration; [Ok (Some g)] is `return g`, [Ok None] the end of the function *)
Definition merkle_step (st : list D * graph) : (list D * graph) + res (option graph) :=
  let '(leaves, g) := st in
  match leaves with
  | [] => inr (Ok None)
  | [_] => inr (Ok (Some g))
  | c1 :: c2 :: rest =>
      let u := H (enc c1 ++ enc c2) in
      match (g <- add_edge (add_node g u None) c1 u 1%Z false ;; add_edge g c2 u 1%Z false) with
      | Ok g => inl (rest ++ [u], g)
      | Err e => inr (Err e)
      | OutOfFuel => inr OutOfFuel
      end
  end.
(** hash_methods.py:78-132 merkle_tree *)
Definition merkle_tree (fuel : nat) (blocks : list (list Byte)) : res (option graph) :=
  loop fuel merkle_step (map H blocks, fold_left (fun g b => add_node g (H b) None) blocks empty_graph).
End Merkle.

Section GraphHash.
(** [srtN]/[srtE] are sorted() on nodes / edges; [strN], [strE] are "|".join(str(..)) as bytes *)
Context {A O V B D : Type} {EA : EqDec A} (H : list B -> D) (srtN : list A -> list A) (srtE : list (A * A * V) -> list (A * A * V))
  (strN : list A -> list B) (strE : list (A * A * V) -> list B).
(** hash_methods.py:6-16 graph_hash *)
Definition graph_hash (g : graph A O V) : D := H (strN (srtN (nodes g)) ++ strE (srtE (edges g))).
End GraphHash.

Section FlowHash.
(** [hashf x hs] is sha3_256 over str(x) followed by the digests hs *)
Context {A O V D : Type} {EA : EqDec A} (hashf : A -> list D -> D).
Notation graph := (graph A O V).
(** the hash graph; its node objects are the dicts {original hash, new_hash} *)
Notation hgraph := (Base.graph A (A * option D) Z).

(** hash_methods.py:42-47: the digests of the suppliers, in order *)
Definition fgh_supply (fuel : nat) (g : graph) (hg : hgraph) (source : A) (hs : list D) (supplier : A) : res (list D) :=
  r <- depth_first_search fuel g source supplier ;;
  match r with
  | Some _ => Ok hs                                       (* it's a cycle: continue *)
  | None => match node hg supplier with
            | Some (_, Some h) => Ok (hs ++ [h])
            | _ => Err TypeError                          (* None[..] or bytes(None, ..) *)
            end
  end.
(** hash_methods.py:58-68; state (sources, hash_graph, visited) *)
Definition fgh_receive (source : A) (st : list A * hgraph * list A) (receiver : A) : res (list A * hgraph * list A) :=
  let '(sources, hg, visited) := st in
  if mem receiver visited then Ok st else
  let visited := sadd receiver visited in
  let hg := if contains hg receiver then hg else add_node hg receiver (Some (receiver, None)) in
  hg <- add_edge hg source receiver 1%Z false ;;
  Ok (if mem receiver sources then sources else sources ++ [receiver], hg, visited).
(** hash_methods.py:34-68 one iteration of the while loop and 70-74 the final check of the sinks.
    Mutating the dict of an existing node is modelled by add_node with the new dict. *)
Definition fgh_step (fuel : nat) (g : graph) (st : list A * hgraph * list A) : (list A * hgraph * list A) + res hgraph :=
  let '(sources, hg, visited) := st in
  match sources with
  | [] => inr (foldM (fun hg sink => match node hg sink with
                                     | None => Err TypeError
                                     | Some (_, None) => Err AssertionError
                                     | Some (_, Some _) => Ok hg
                                     end) (nodes_out_degree g 0) hg)
  | source :: sources =>
      match (hs <- foldM (fgh_supply fuel g hg source) (nodes_to g source) [] ;;
             let hg := add_node hg source (Some (source, Some (hashf source hs))) in
             foldM (fgh_receive source) (nodes_from g source) (sources, hg, visited)) with
      | Ok st => inl st
      | Err e => inr (Err e)
      | OutOfFuel => inr OutOfFuel
      end
  end.
(** hash_methods.py:19-75 flow_graph_hash *)
Definition flow_graph_hash (fuel : nat) (g : graph) : res hgraph :=
  loop fuel (fgh_step fuel g) (nodes_in_degree g 0, empty_graph, []).
End FlowHash.
