(** Specification vocabulary for minimum cost flow: plain sums over the nodes of the cost graph. *)
From Coq Require Import Sorted.
From Verif Require Import Prelude Base Spec FlowSpec.
Local Open Scope Z_scope.

Section S.
Context {A O : Type} {EA : EqDec A}.
Implicit Types (costs : graph A O Z) (capacity : option (graph A O ext)) (f : A -> A -> Z) (stock : A -> Z).
(** the stock of a node, 0 if the inventory does not mention it *)
Definition stock_of (inventory : dict A Z) (x : A) : Z := match dget x inventory with Some v => v | None => 0 end.
(** how much may be shipped over x -> y: nothing if there is no such link, any amount if no capacities are given *)
Definition room costs capacity (x y : A) : ext :=
  match edge costs x y, capacity with
  | None, _ => Fin 0
  | Some _, None => Inf
  | Some _, Some c => match edge c x y with Some v => v | None => Fin 0 end
  end.
(** what x sends out more than it receives *)
Definition net costs f (x : A) : Z := outflow costs f x - inflow costs f x.
(** a shipment: within the room on each link; a node sends out at most its stock if that is positive, receives at most
    its demand if the stock is negative, and passes on exactly what it receives otherwise *)
Definition shipment costs capacity stock f : Prop :=
  (forall x y, 0 <= f x y /\ ext_le (Fin (f x y)) (room costs capacity x y)) /\
  (forall x, contains costs x = true -> 0 <= net costs f x <= stock x \/ stock x <= net costs f x <= 0).
(** the costs of a shipment *)
Definition cost_of costs f : Z := sumZ (nodes costs) (fun x => sumZ (nodes costs) (fun y => f x y * amount costs x y)).
(** a link with room left *)
Definition open_link costs capacity f (x y : A) : Prop := has_edge costs x y /\ Fin (f x y) <> room costs capacity x y.
(** what is accepted as capacity *)
Definition capacity_ok costs capacity : Prop :=
  match capacity with
  | None => True
  | Some c => reachable c /\ (forall x y, has_edge c x y <-> has_edge costs x y) /\ forall x y v, edge c x y = Some v -> ext_le (Fin 0) v
  end.
End S.
(** list.sort on (stock, node) pairs: by stock first *)
Definition sorts_by_stock {A} (srt : list (Z * A) -> list (Z * A)) : Prop :=
  forall l, Permutation (srt l) l /\ StronglySorted (fun x y => fst x <= fst y) (srt l).
(** the first of the sorted list of (distance, stock, node): one with the least distance *)
Definition picks_nearest {A} (near : list (ext * (Z * A)) -> ext * (Z * A)) : Prop :=
  forall l, l <> [] -> In (near l) l /\ forall y, In y l -> ext_le (fst (near l)) (fst y).
