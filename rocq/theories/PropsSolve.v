(** C49, C50, C51, C90 at the entry point Graph.solve_tsp. *)
From Verif Require Import Prelude PreludeFacts Base BaseFacts BaseFacts3 Spec SpecFacts Loop Sp Tsp TspSpec TspFacts Bnb BnbFacts PropsTsp PropsBnb PropsTspLocal.
Local Open Scope Z_scope.
Section Solve.
Context {A O : Type} {EA : EqDec A} (srt3 : list (Z * (A * A)) -> list (Z * (A * A))) (first : list (Z * list A) -> Z * list A) (srt : list (Z * A) -> list (Z * A)) (ord : list A -> list A -> list A) (ltt : list A -> list A -> bool).
Notation graph := (graph A O Z).
Implicit Types (g : graph).
Notation solve_tsp := (solve_tsp srt3 first srt ord ltt).
Lemma returns_pair (f : nat -> res (Z * list A)) d t : returns f (Ok (d, t)) -> returns (fun n => r <- f n ;; Ok (Fin (fst r), snd r)) (Ok (Fin d, t)).
Proof. intros H. refine (returns_bind _ (fun n r => _) (d, t) _ H _). apply returns_const. discriminate. Qed.
(** solve_tsp() without arguments, and with method="2023": an optimal tour below 7 nodes *)
Theorem C49_solve_tsp g m : m = (fun n => solve_tsp_default srt3 first srt ord ltt n g) \/ m = (fun n => solve_tsp M2023 n g) ->
  reachable g -> nonneg g -> nodes g <> [] -> (length (nodes g) < 7)%nat -> (exists t z, hamiltonian g t /\ travel_length g t (Fin z) /\ z < maxsize) ->
  exists d t, returns m (Ok (Fin d, t)) /\ hamiltonian g t /\ travel_length g t (Fin d) /\ forall t' e, hamiltonian g t' -> travel_length g t' e -> ext_le (Fin d) e.
Proof. intros Hm R N Hne Hl Hex. destruct (C49_small_optimal srt3 first g R N Hne Hl Hex) as (d & t & Hr & H). exists d, t. split; [|exact H]. destruct Hm as [-> | ->]; apply (returns_pair _ _ _ Hr). Qed.
(** solve_tsp(method="greedy") *)
Theorem C50_solve_tsp_greedy g : reorders srt3 -> reachable g -> complete g -> (2 <= length (nodes g))%nat ->
  exists d t, returns (fun n => solve_tsp MGreedy n g) (Ok (Fin d, t)) /\ hamiltonian g t /\ tour_length g t = Some d /\
    (exists t0 d0, greedy srt3 g = Ok t0 /\ tour_length g t0 = Some d0 /\ d <= d0) /\ (symmetric g -> no_shorter_reversal g t d).
Proof. intros Hs R HC Hn. destruct (C50_greedy srt3 g Hs R HC Hn) as (d & t & t0 & d0 & Hr & H1 & H2 & H3 & H4 & H5 & H6). exists d, t. splits; auto.
  - apply (returns_pair _ _ _ Hr).
  - exists t0, d0. auto.
  - intros Hsym. destruct (C90_greedy srt3 g Hs R HC Hsym Hn) as (d' & t' & Hr' & _ & _ & H). pose proof (returns_fun _ _ _ Hr Hr') as E. injection E as <- <-. exact H. Qed.
(** solve_tsp(method="2023") on 7 nodes or more *)
Theorem C50_solve_tsp_2023_partial g m : m = (fun n => solve_tsp_default srt3 first srt ord ltt n g) \/ m = (fun n => solve_tsp M2023 n g) ->
  reorders srt3 -> picks_least first -> reachable g -> complete g -> symmetric g -> (7 <= length (nodes g))%nat ->
  exists d t, returns m (Ok (Fin d, t)) /\ hamiltonian g t /\ tour_length g t = Some d /\ exists t0 d0, greedy srt3 g = Ok t0 /\ tour_length g t0 = Some d0 /\ d <= d0.
Proof. intros Hm Hs Hf R HC Hsym Hn. destruct (C50_2023_partial srt3 first g Hs Hf R HC Hsym Hn) as (d & t & t0 & d0 & Hr & H1 & H2 & H3 & H4 & H5). exists d, t. splits; auto; [destruct Hm as [-> | ->]; apply (returns_pair _ _ _ Hr)|]. exists t0, d0. auto. Qed.
(** solve_tsp(method="bnb") *)
Theorem C51_solve_tsp_partial g : set_order ord -> reachable g -> complete g -> (forall x, edge g x x = None) -> (4 <= length (nodes g))%nat ->
  exists r, returns (fun n => solve_tsp MBnb n g) r /\ (r = Err AssertionError \/ exists d t, r = Ok (Fin d, t) /\ hamiltonian g t /\ tour_length g t = Some d).
Proof. intros Ho R HC HL Hn. exact (C51_bnb_partial srt ord ltt g Ho R HC HL Hn). Qed.
(** any other method *)
Theorem C50_solve_tsp_unknown g n : solve_tsp MOther n g = Err TypeError.
Proof. reflexivity. Qed.
End Solve.
(** the three methods differ on one graph: 7 nodes, see C90 *)
Example ex_solve : returns (fun n => solve_tsp_default sort3 least sort2 ord0 lex n g_loc) (Ok (Fin 55, [3; 4; 6; 5; 1; 2; 0]%nat)) /\
  solve_tsp sort3 least sort2 ord0 lex MGreedy 100 g_loc <> Ok (Fin 55, [3; 4; 6; 5; 1; 2; 0]%nat).
Proof. destruct C90_2023_refuted as (_ & _ & _ & _ & H & _). split; [apply (returns_pair _ _ _ (H least least_picks))|].
  assert (match solve_tsp sort3 least sort2 ord0 lex MGreedy 100 g_loc with Ok (Fin d, _) => d <? 55 | _ => false end = true) as E by (vm_compute; reflexivity). intros C. rewrite C in E. clear - E. vm_compute in E. discriminate E. Qed.
