(** critical_path on floats: proofs. *)
From Coq Require Import ZArith SpecFloat.
From Verif Require Import Prelude PreludeFacts Base BaseFacts BaseFacts2 BaseFacts3 Spec SpecFacts Loop SearchFacts BaseAlgFacts DagFacts Topo TopoFacts Cpm CpmFacts GSp GSpec Float64 FloatExact FloatSigned GCpm GCpmSpec GCpmFacts.
Open Scope nat_scope.

(** ** the early half, for every arithmetic that keeps the order *)
Section Early.
Context {A W V : Type} {EA : EqDec A} (ar : arith W) (sub : W -> W -> W) (good : W -> Prop) (LW : lawful ar good).
Notation graph := (graph A W V).
Implicit Types (g : graph) (d : dict A (gtask W)) (order : list A).
Definition esd d x : W := match dget x d with Some t => gt_es t | None => a_zero ar end.
Definition lfd d x : W := match dget x d with Some t => gt_lf t | None => a_zero ar end.
Lemma early_laws : chain_laws (a_ltb ar) (a_add ar) (a_zero ar) good good.
Proof. constructor; apply LW. Qed.
Lemma gplan_dur g x : gplan good g -> In x (nodes g) -> node g x = Some (gduration (a_zero ar) g x) /\ good (gduration (a_zero ar) g x).
Proof. intros H Hx. apply contains_In in Hx. destruct (H x Hx) as (dd & E & G). unfold gduration. rewrite E. auto. Qed.
Definition early_post g d x : Prop :=
  chain_post (a_ltb ar) (a_add ar) (a_zero ar) good (has_edge g) (efd ar d) (esd d) (gduration (a_zero ar) g) x.
Lemma early_all g order cpl d : wf g -> gplan good g -> eqs ar sub g order cpl d -> Permutation order (nodes g) -> preds_first (has_edge g) order ->
  forall x, In x (nodes g) -> early_post g d x.
Proof. intros W0 HP (K1 & K2 & _) Hperm Hpf x Hx. assert (forall x, In x order <-> In x (nodes g)) as Ho by (intros y; split; apply Permutation_in; [|symmetry]; exact Hperm).
  assert (forall y, In y order -> exists t, dget y d = Some t /\ early ar g d y t) as HT by (intros y Hy; destruct (dget_key y d) as (t & Et); [rewrite K1; exact Hy|]; exists t; split; [exact Et|apply (K2 _ _ Et)]).
  apply (chain_all (a_ltb ar) (a_add ar) (a_zero ar) good good early_laws (has_edge g) order (nodes_to g)); [| | | | |apply Ho, Hx].
  - intros a b. symmetry. rewrite (In_to g b a W0). reflexivity.
  - exact Hpf.
  - intros y Hy. destruct (HT y Hy) as (t & Et & _ & Ees & _). unfold esd. rewrite Et, Ees. reflexivity.
  - intros y Hy. destruct (HT y Hy) as (t & Et & En & _ & Eef). unfold esd, efd, gduration. rewrite Et, Eef, En. reflexivity.
  - intros y Hy. apply gplan_dur; [exact HP|apply Ho, Hy]. Qed.
(** the length is the largest earliest_finish *)
Lemma cpl_spec d : forall order, (forall x, In x order -> good (efd ar d x) /\ a_ltb ar (efd ar d x) (a_zero ar) = false) ->
  good (cpl_of ar d order) /\ (order = [] /\ cpl_of ar d order = a_zero ar \/ exists x, In x order /\ cpl_of ar d order = efd ar d x) /\ forall x, In x order -> a_ltb ar (cpl_of ar d order) (efd ar d x) = false.
Proof. induction order as [|x l IH] using rev_ind; intros H; [splits; [apply LW|left; auto|intros x []]|].
  destruct IH as (G & A1 & A2); [intros; apply H, in_app_iff; auto|]. destruct (H x) as [Gx Zx]; [apply in_app_iff; cbn; auto|].
  unfold cpl_of in *. rewrite fold_left_app. cbn [fold_left]. set (c := fold_left _ l _) in *. destruct (a_ltb ar (efd ar d x) c) eqn:E.
  - splits; [exact G| |].
    + destruct A1 as [[-> Ec]|(y & Hy & Ey)]; [|right; exists y; split; [apply in_app_iff; auto|exact Ey]]. rewrite Ec in E. congruence.
    + intros y Hy. apply in_app_iff in Hy. destruct Hy as [Hy|[<-|[]]]; [auto|]. apply (l_asym _ _ LW); auto.
  - splits; [exact Gx|right; exists x; split; [apply in_app_iff; cbn; auto|reflexivity]|]. intros y Hy. apply in_app_iff in Hy. destruct Hy as [Hy|[<-|[]]].
    + apply (l_trans _ _ LW) with c; auto. apply H, in_app_iff; auto.
    + destruct (a_ltb ar (efd ar d x) (efd ar d x)) eqn:E2; [|reflexivity]. pose proof (l_asym _ _ LW _ _ Gx Gx E2). congruence. Qed.
End Early.

(** ** the late half, for floats *)
Notation fsub := (SFsub 53 1024).
Notation f0 := (S754_zero false).
Notation num := (number 53 1024).
Notation val := (xv 53 1024).
Lemma good_num x : f64_good x -> num x.
Proof. intros [V G]. split; [exact V|]. intros ->. exact G. Qed.
Lemma fd_units w : finite_duration w -> valid_binary 53 1024 w = true /\ sval 53 1024 w = Some (units w) /\ (0 <= units w)%Z /\ val w = units w.
Proof. intros [[V G] (z & Ez)]. unfold units. rewrite Ez. splits; auto; [|apply sval_xv; exact Ez]. destruct w as [s|s| |s m e]; cbn [sval] in Ez; try discriminate; apply some_inj in Ez; subst z; [lia|]. rewrite G. cbn [cond_Zopp]. apply Z.mul_nonneg_nonneg; [lia|apply Z.pow_nonneg; lia]. Qed.
Lemma fsub_num x w : num x -> finite_duration w -> num (fsub x w).
Proof. intros Nx Hw. destruct (fd_units w Hw) as (V & E & _). apply (sub_spec 53 1024 ltac:(lia) ltac:(lia) x w _ Nx V E). Qed.
Lemma num_cases x : num x -> (exists a, sval 53 1024 x = Some a /\ val x = a /\ (Z.abs a < 2 ^ (1024 - SpecFloat.emin 53 1024))%Z) \/ (sval 53 1024 x = None /\ (val x = 2 ^ (1024 - SpecFloat.emin 53 1024) \/ val x = - 2 ^ (1024 - SpecFloat.emin 53 1024)))%Z.
Proof. intros [V N]. destruct (sval 53 1024 x) as [a|] eqn:E; [left; exists a; splits; auto; [apply sval_xv, E|eapply sval_lt; eauto; lia]|right]. split; [reflexivity|]. destruct x as [s|s| |s m e]; try discriminate; [|congruence]. destruct s; [right|left]; reflexivity. Qed.
Lemma fsub_mono x y w : num x -> num y -> finite_duration w -> (val y <= val x)%Z -> (val (fsub y w) <= val (fsub x w))%Z.
Proof. intros Nx Ny Hw H. destruct (fd_units w Hw) as (V & E & Hb & _).
  destruct (sub_spec 53 1024 ltac:(lia) ltac:(lia) x w _ Nx V E) as [_ ->]. destruct (sub_spec 53 1024 ltac:(lia) ltac:(lia) y w _ Ny V E) as [_ ->].
  pose proof (num_cases x Nx) as Cx. pose proof (num_cases y Ny) as Cy. pose proof (BIG_pos 53 1024 ltac:(lia) ltac:(lia)) as BP. pose proof (clamp_bound 53 1024 ltac:(lia) ltac:(lia)) as CB. set (BIG := (2 ^ (1024 - SpecFloat.emin 53 1024))%Z) in *. clearbody BIG.
  destruct Cx as [(a & Ea & Va & Ba)|[Ea Va]], Cy as [(b & Eb & Vb & Bb)|[Eb Vb]]; rewrite Ea, Eb.
  - apply clamp_mono; try lia. apply srnd_mono; lia.
  - specialize (CB (srnd 53 (a - units w))). lia.
  - specialize (CB (srnd 53 (b - units w))). lia.
  - exact H. Qed.
Lemma fsub_infl x w : num x -> finite_duration w -> (val (fsub x w) <= val x)%Z.
Proof. intros Nx Hw. destruct (fd_units w Hw) as (V & E & Hb & _). destruct (sub_spec 53 1024 ltac:(lia) ltac:(lia) x w _ Nx V E) as [_ ->].
  destruct (num_cases x Nx) as [(a & Ea & Va & Ba)|[Ea Va]]; rewrite Ea; [|lia]. rewrite Va. assert (clamp 53 1024 (srnd 53 a) = a) as Ec by (rewrite (srnd_xv 53 1024 ltac:(lia) ltac:(lia) x a (proj1 Nx) Ea); apply clamp_id; lia).
  rewrite <- Ec at 2. apply clamp_mono; try lia. apply srnd_mono; lia. Qed.
Lemma lt_val x y : num x -> num y -> SFltb x y = (val x <? val y)%Z.
Proof. apply lt_spec; lia. Qed.
Lemma late_laws cpl : num cpl -> chain_laws (fun a b => SFltb b a) fsub cpl num finite_duration.
Proof. intros Nc. constructor.
  - exact Nc.
  - apply fsub_num.
  - intros x y Nx Ny. rewrite !lt_val by auto. rewrite Z.ltb_lt, Z.ltb_ge. lia.
  - intros x y z Nx Ny Nz. rewrite !lt_val by auto. rewrite !Z.ltb_ge. lia.
  - intros x y w Nx Ny Hw. rewrite !lt_val by auto using fsub_num. rewrite !Z.ltb_ge. apply fsub_mono; auto.
  - intros x w Nx Hw. rewrite lt_val by auto using fsub_num. rewrite Z.ltb_ge. apply fsub_infl; auto. Qed.
Lemma lfgood : forall x, finite_duration x -> f64_good x. Proof. intros x H. apply H. Qed.
Section Late.
Context {A V : Type} {EA : EqDec A}.
Notation graph := (graph A spec_float V).
Implicit Types (g : graph) (d : dict A (gtask spec_float)) (order : list A).
Notation rdep g := (fun y x => has_edge g x y).
Definition late_post g cpl d x : Prop :=
  chain_post (fun a b => SFltb b a) fsub cpl num (rdep g) (lsd f64 d) (lfd f64 d) (gduration f0 g) x.
Lemma late_all g order cpl d : wf g -> gplan finite_duration g -> eqs f64 fsub g order cpl d -> NoDup order -> Permutation order (nodes g) -> preds_first (has_edge g) order -> num cpl ->
  forall x, In x (nodes g) -> late_post g cpl d x.
Proof. intros W0 HP (K1 & K2 & _) Hnd Hperm Hpf Nc x Hx. assert (forall x, In x order <-> In x (nodes g)) as Ho by (intros y; split; apply Permutation_in; [|symmetry]; exact Hperm).
  assert (forall y, In y (rev order) -> exists t, dget y d = Some t /\ node g y = Some (gt_dur t) /\ late f64 fsub g cpl d y t) as HT.
  { intros y Hy. apply in_rev in Hy. destruct (dget_key y d) as (t & Et); [rewrite K1; exact Hy|]. exists t. destruct (K2 _ _ Et) as [Q1 Q2]. splits; [exact Et|apply Q1|exact Q2]. }
  apply (chain_all (fun a b => SFltb b a) fsub cpl num finite_duration (late_laws cpl Nc) (rdep g) (rev order) (nodes_from g)).
  - intros a b. symmetry. rewrite (In_from g a b W0). reflexivity.
  - intros l1 y l2 E z Hz. eapply (succs_later (has_edge g) order l1 y l2 Hnd Hpf); [|exact E|exact Hz]. intros a b Hab. apply Ho, (has_edge_nodes g a b W0 Hab).
  - intros y Hy. destruct (HT y Hy) as (t & Et & _ & Ees & _). unfold lfd. rewrite Et, Ees. reflexivity.
  - intros y Hy. destruct (HT y Hy) as (t & Et & En & _ & Eef). unfold lfd, lsd, gduration. rewrite Et, Eef, En. reflexivity.
  - intros y Hy. apply in_rev in Hy. apply Ho in Hy. apply contains_In in Hy. destruct (HP y Hy) as (dd & E & G). unfold gduration. rewrite E. exact G.
  - apply -> in_rev. apply Ho, Hx. Qed.
Lemma back_csum g cpl p : csum fsub cpl (gduration f0 g) (rev p) = chain_back f0 fsub g cpl p.
Proof. unfold csum, chain_back. rewrite <- (rev_involutive p) at 2. rewrite fold_left_rev_right. reflexivity. Qed.
End Late.

(** ** the exact plan *)
Section Exact.
Context {A V : Type} {EA : EqDec A} (g : graph A spec_float V) (W0 : wf g) (HP : gplan finite_duration g) (Hac : acyclic (has_edge g)).
Notation gz := (exact_plan g).
Lemma dkeys_with {Y} (f : spec_float -> Y) : nodes (with_durations f g) = nodes g.
Proof. unfold nodes, with_durations, dkeys. cbn [g_nodes]. rewrite map_map. reflexivity. Qed.
Lemma node_with {Y} (f : spec_float -> Y) x : node (with_durations f g) x = option_map f (node g x).
Proof. unfold node, with_durations. cbn [g_nodes]. induction (g_nodes g) as [|[k o] l IH]; cbn [map dget fst snd]; [reflexivity|]. destruct (eq_dec x k); [reflexivity|exact IH]. Qed.
Lemma wf_exact : wf gz.
Proof. destruct W0. split; auto; cbn [exact_plan with_durations g_edges g_rev g_outdeg g_indeg g_count]; unfold exact_plan; rewrite ?dkeys_with; auto. Qed.
Lemma fd_zero : finite_duration f0. Proof. split; [split; [reflexivity|exact Logic.I]|exists 0%Z; reflexivity]. Qed.
Lemma dur_fd x : finite_duration (gduration f0 g x).
Proof. unfold gduration. destruct (node g x) as [w|] eqn:E; [|exact fd_zero]. assert (contains g x = true) as C. { unfold node in E. destruct (dget x (g_nodes g)) as [o|] eqn:E2; [|discriminate]. apply contains_In. unfold nodes. eapply dget_Some_key; eauto. }
  destruct (HP x C) as (w' & E' & Hw). rewrite E' in E. injection E as <-. exact Hw. Qed.
Lemma duration_exact x : duration gz x = units (gduration f0 g x).
Proof. unfold duration, exact_plan. rewrite node_with. unfold gduration. destruct (node g x); reflexivity. Qed.
Lemma plan_exact : plan gz.
Proof. intros x Hx. unfold exact_plan in *. assert (contains g x = true) as C by (apply contains_In; rewrite <- (dkeys_with units); apply contains_In, Hx). destruct (HP x C) as (w & E & Hw). rewrite node_with, E. exists (units w). split; [reflexivity|apply (fd_units w Hw)]. Qed.
Lemma dur_nonneg x : (0 <= duration gz x)%Z.
Proof. rewrite duration_exact. apply (fd_units _ (dur_fd x)). Qed.
Lemma total_nonneg p : (0 <= total_duration gz p)%Z.
Proof. induction p as [|x p IH]; cbn [total_duration]; [lia|]. pose proof (dur_nonneg x). lia. Qed.

Context (cpl : spec_float) (d : dict A (gtask spec_float)) (order : list A) (Heq : eqs f64 fsub g order cpl d) (Hnd : NoDup order) (Hperm : Permutation order (nodes g)) (Hpf : preds_first (has_edge g) order).
Context (C : Z) (D : dict A task) (HS : schedule_ok gz C D).
Notation back := (chain_back f0 fsub g cpl).
Notation csum64 := (chain_sum f64 g).
Lemma gp_good : gplan f64_good g.
Proof. intros x Hx. destruct (HP x Hx) as (w & E & Hw). exists w. split; [exact E|apply Hw]. Qed.
Lemma order_In x : In x order <-> In x (nodes g).
Proof. split; apply Permutation_in; [|symmetry]; exact Hperm. Qed.
Lemma early_x x : In x (nodes g) -> early_post f64 f64_good g d x.
Proof. apply (early_all f64 fsub f64_good f64_lawful g order cpl d); auto. exact gp_good. Qed.
Lemma num_zero : num f0. Proof. split; [reflexivity|discriminate]. Qed.
Lemma ge_val x y : num x -> num y -> SFltb y x = false -> (val x <= val y)%Z.
Proof. intros Nx Ny. rewrite lt_val by auto. apply Z.ltb_ge. Qed.
Lemma ef_pos x : In x (nodes g) -> f64_good (efd f64 d x) /\ a_ltb f64 (efd f64 d x) f0 = false.
Proof. intros Hx. destruct (early_x x Hx) as (G1 & G2 & G3 & _). split; [exact G2|]. cbn [a_ltb f64 float_arith a_zero] in *.
  assert (efd f64 d x = a_add f64 (esd f64 d x) (gduration f0 g x)) as E. { destruct Heq as (K1 & K2 & _). destruct (dget_key x d) as (t & Et); [rewrite K1; apply order_In, Hx|]. unfold efd, esd. rewrite Et. destruct (K2 _ _ Et) as [(En & _ & ->) _]. unfold gduration. rewrite En. reflexivity. }
  rewrite E. apply (l_trans _ _ f64_lawful) with (esd f64 d x); auto; [split; [reflexivity|exact Logic.I]|apply (l_add _ _ f64_lawful); [exact G1|apply (dur_fd x)]|apply (l_infl _ _ f64_lawful); [exact G1|apply (dur_fd x)]]. Qed.
Lemma cpl_facts : f64_good cpl /\ (order = [] /\ cpl = f0 \/ exists x, In x order /\ cpl = efd f64 d x) /\ forall x, In x order -> SFltb cpl (efd f64 d x) = false.
Proof. pose proof (proj2 (proj2 Heq)) as E. rewrite E. apply (cpl_spec f64 f64_good f64_lawful). intros x Hx. apply ef_pos, order_In, Hx. Qed.
Lemma num_cpl : num cpl. Proof. apply good_num, cpl_facts. Qed.
Lemma late_x x : In x (nodes g) -> late_post g cpl d x.
Proof. apply (late_all g order cpl d); auto. exact num_cpl. Qed.
Lemma late_chain x : In x (nodes g) -> (exists b p, path (has_edge g) x p b /\ lsd f64 d x = back p) /\ forall b p, path (has_edge g) x p b -> SFltb (back p) (lsd f64 d x) = false.
Proof. intros Hx. destruct (late_x x Hx) as (_ & _ & _ & _ & _ & (b & p & Hp & E) & H2). split.
  - exists b, (rev p). split; [apply path_rev in Hp; exact Hp|]. rewrite E, <- back_csum, rev_involutive. reflexivity.
  - intros c q Hq. rewrite <- back_csum. apply (H2 c). apply path_rev in Hq. exact Hq. Qed.
Lemma path_in a p b : In a (nodes g) -> path (has_edge g) a p b -> forall z, In z p -> In z (nodes g).
Proof. intros Ha. apply (path_nodes (fun z => In z (nodes g))); [exact Ha|]. intros x y Hxy. apply (has_edge_nodes g x y W0 Hxy). Qed.
Lemma path_in_end a p b : In b (nodes g) -> path (has_edge g) a p b -> In a (nodes g).
Proof. intros Hb Hp. inversion Hp as [u|u v q w Huv Hq]; subst; [exact Hb|]. apply (has_edge_nodes g a v W0 Huv). Qed.
Lemma csum_num p : num (csum64 p).
Proof. apply good_num. unfold chain_sum. assert (forall q s, f64_good s -> f64_good (fold_left (fun s x => a_add f64 s (gduration (a_zero f64) g x)) q s)) as K.
  { induction q as [|x q IH]; intros s G; cbn [fold_left]; [exact G|]. apply IH. apply (l_add _ _ f64_lawful); [exact G|apply (dur_fd x)]. } apply K. split; [reflexivity|exact Logic.I]. Qed.
Lemma back_num p : num (back p).
Proof. induction p as [|x p IH]; cbn [chain_back fold_right]; [exact num_cpl|]. apply fsub_num; [exact IH|apply dur_fd]. Qed.

(** the rounding errors of the chains *)
Notation sv := (sval 53 1024).
Notation BIGZ := (2 ^ (1024 - SpecFloat.emin 53 1024))%Z.
Lemma sval_num x : num x -> (Z.abs (val x) < BIGZ)%Z -> sv x = Some (val x).
Proof. intros Nx H. destruct (num_cases x Nx) as [(a & E & Ea & _)|[_ [E|E]]]; [rewrite E, Ea; reflexivity| |]; rewrite E in H; exfalso; pose proof (BIG_pos 53 1024 ltac:(lia) ltac:(lia)) as BP; set (B := BIGZ) in *; clearbody B; clear - H BP; lia. Qed.
Lemma good_pos x : f64_good x -> (0 <= val x)%Z.
Proof. intros G. pose proof (good_num x G) as N. destruct G as [Vx G]. pose proof (BIG_pos 53 1024 ltac:(lia) ltac:(lia)) as BP. destruct x as [s|s| |s m e]; cbn [xv]; [lia| |lia|].
  - rewrite G. cbn [cond_Zopp]. set (B := BIGZ) in *. clearbody B. clear - BP. lia.
  - rewrite G. cbn [cond_Zopp]. apply Z.mul_nonneg_nonneg; [lia|apply Z.pow_nonneg; lia]. Qed.
Lemma path_short a p b : In a (nodes g) -> path (has_edge g) a p b -> length p <= length (nodes g).
Proof. intros Ha Hp. apply NoDup_incl_length; [|intros z Hz; eapply path_in; eauto]. destruct (ListDec.NoDup_dec eq_dec p) as [h|h]; [exact h|]. destruct (path_dup_behind _ _ _ _ Hp h) as (x & Hx & _). destruct (Hac x Hx). Qed.
Lemma csum_le_cpl a p b : In b (nodes g) -> path (has_edge g) a p b -> (val (csum64 p) <= val cpl)%Z.
Proof. intros Hb Hp. destruct cpl_facts as (Gc & _ & Hmax). destruct (early_x b Hb) as (_ & G2 & _ & _ & _ & _ & Hm). specialize (Hm _ _ Hp). change (csum (a_add f64) (a_zero f64) (gduration (a_zero f64) g) p) with (csum64 p) in Hm.
  apply ge_val in Hm; [|apply csum_num|apply good_num, G2]. specialize (Hmax b (proj2 (order_In b) Hb)). apply ge_val in Hmax; [|apply good_num, G2|apply good_num, Gc]. clear - Hm Hmax. lia. Qed.
Lemma csum_good64 p : f64_good (csum64 p).
Proof. unfold chain_sum. assert (forall q s, f64_good s -> f64_good (fold_left (fun s x => a_add f64 s (gduration (a_zero f64) g x)) q s)) as K.
  { induction q as [|x q IH]; intros s G; cbn [fold_left]; [exact G|]. apply IH. apply (l_add _ _ f64_lawful); [exact G|apply (dur_fd x)]. } apply K. split; [reflexivity|exact Logic.I]. Qed.
Lemma csum_step p z : csum64 (p ++ [z]) = SFadd 53 1024 (csum64 p) (gduration f0 g z).
Proof. unfold chain_sum. rewrite fold_left_app. reflexivity. Qed.
Lemma total_snoc p z : total_duration gz (p ++ [z]) = (total_duration gz p + duration gz z)%Z.
Proof. induction p as [|x p IH]; cbn [app total_duration]; [lia|]. rewrite IH. lia. Qed.
Lemma path_snoc_or a p b : path (has_edge g) a p b -> p = [b] \/ exists q u, p = q ++ [b] /\ path (has_edge g) a q u /\ has_edge g u b.
Proof. intros Hp. destruct (exists_last (l := p)) as (q & c & ->); [destruct (path_head _ _ _ _ Hp) as (t & ->); discriminate|]. destruct q as [|h q].
  - left. apply path_inv1 in Hp. destruct Hp as [_ <-]. reflexivity.
  - right. apply path_snoc_inv in Hp; [|discriminate]. destruct Hp as [-> (y & Hp & Hy)]. exists (h :: q), y. auto. Qed.

Section Err.
Context (cz : Z) (Hcz : sv cpl = Some cz).
Lemma cz_val : val cpl = cz. Proof. apply sval_xv, Hcz. Qed.
Lemma cz_range : (0 <= cz < BIGZ)%Z.
Proof. rewrite <- cz_val. split; [apply good_pos, cpl_facts|]. pose proof (sval_lt 53 1024 ltac:(lia) ltac:(lia) cpl cz (proj1 (proj1 cpl_facts)) Hcz) as H. rewrite cz_val. set (B := BIGZ) in *. clearbody B. clear - H. lia. Qed.
(** a rounded sum of two finite floats whose rounded value is not larger than cpl *)
Lemma add_step x w b : num x -> finite_duration w -> (0 <= val x <= cz)%Z -> (val (SFadd 53 1024 x w) <= cz)%Z -> units w = b ->
  val (SFadd 53 1024 x w) = srnd 53 (val x + b) /\ (2 ^ 53 * Z.abs (val (SFadd 53 1024 x w) - (val x + b)) <= cz)%Z.
Proof. intros Nx Hw Bx Br Eb. pose proof cz_range as CR. destruct (fd_units w Hw) as (V0 & E & Hb & _). assert (sv x = Some (val x)) as Sx. { apply sval_num; [exact Nx|]. set (B := BIGZ) in *. clearbody B. clear - CR Bx. lia. }
  destruct (add_finite 53 1024 ltac:(lia) ltac:(lia) x w _ _ (proj1 Nx) V0 Sx E) as [_ Ea]. rewrite Eb in *. rewrite Ea in *.
  assert (0 <= srnd 53 (val x + b))%Z as R0. { assert (srnd 53 0 = 0%Z) as Z0 by reflexivity. rewrite <- Z0. apply srnd_mono; [lia|]. clear - Bx Hb. lia. }
  assert (clamp 53 1024 (srnd 53 (val x + b)) = srnd 53 (val x + b))%Z as Ec. { revert Br. unfold clamp. set (B := BIGZ) in *. clearbody B. set (r := srnd 53 (val x + b)%Z) in *. clearbody r. clear - CR R0. destruct (Z.ltb_spec r (- B)), (Z.ltb_spec B r); lia. }
  rewrite Ec in *. split; [reflexivity|]. pose proof (srnd_error2 53 ltac:(lia) (val x + b)%Z) as SE. set (r := srnd 53 (val x + b)%Z) in *. clearbody r. clear - SE R0 Br. lia. Qed.
Notation near_to e a b := (2 ^ 53 * Z.abs (a - b) <= e)%Z.
Lemma forward_error p : forall a b, In b (nodes g) -> path (has_edge g) a p b -> near_to (Z.of_nat (length p) * cz) (val (csum64 p)) (total_duration gz p).
Proof. induction p as [|z p IH] using rev_ind; intros a b Hb Hp; [inversion Hp|]. pose proof cz_range as CR. pose proof (csum_le_cpl a _ b Hb Hp) as L. rewrite cz_val in L. rewrite csum_step in *. rewrite total_snoc, app_length, duration_exact. cbn [length].
  assert ((0 <= val (csum64 p) <= cz)%Z /\ near_to (Z.of_nat (length p) * cz) (val (csum64 p)) (total_duration gz p)) as [Bp Np].
  { destruct (path_snoc_or _ _ _ Hp) as [E|(q & u & E & Hq & Hu)].
    - destruct p as [|h p]; [|exfalso; apply (f_equal (@length A)) in E; cbn in E; rewrite app_length in E; cbn in E; lia]. cbn. clear - CR. lia.
    - apply app_inj_tail in E. destruct E as [-> _]. assert (In u (nodes g)) as Hun by apply (has_edge_nodes g u b W0 Hu). split; [|apply (IH a u); auto]. pose proof (csum_le_cpl a q u Hun Hq) as L2. rewrite cz_val in L2. split; [apply good_pos, csum_good64|exact L2]. }
  destruct (add_step (csum64 p) (gduration f0 g z) _ (csum_num p) (dur_fd z) Bp L eq_refl) as [_ SE]. set (u := units (gduration f0 g z)) in *. clearbody u. set (v := val (SFadd 53 1024 (csum64 p) (gduration f0 g z))) in *. clearbody v. set (v' := val (csum64 p)) in *. clearbody v'. set (t := total_duration gz p) in *. clearbody t. clear - SE Np. nia. Qed.
Lemma forward_error_n a p b : In b (nodes g) -> path (has_edge g) a p b -> near_to (Z.of_nat (length (nodes g)) * cz) (val (csum64 p)) (total_duration gz p).
Proof. intros Hb Hp. pose proof (forward_error p a b Hb Hp) as H. pose proof (path_short a p b (path_in_end _ _ _ Hb Hp) Hp) as L. pose proof cz_range as CR. eapply Z.le_trans; [exact H|]. apply Z.mul_le_mono_nonneg_r; [apply CR|lia]. Qed.
(** a rounded difference of two finite floats of at most the size of cpl *)
Lemma sub_step x w b : num x -> finite_duration w -> (Z.abs (val x) <= cz)%Z -> units w = b -> (- cz <= val x - b)%Z ->
  (Z.abs (val (fsub x w)) <= cz)%Z /\ val (fsub x w) = srnd 53 (val x - b) /\ (2 ^ 53 * Z.abs (val (fsub x w) - (val x - b)) <= cz)%Z.
Proof. intros Nx Hw Bx Eb Lo. pose proof cz_range as CR. destruct (fd_units w Hw) as (V0 & E & Hb & _). assert (sv x = Some (val x)) as Sx. { apply sval_num; [exact Nx|]. set (B := BIGZ) in *. clearbody B. clear - CR Bx. lia. }
  destruct (sub_spec 53 1024 ltac:(lia) ltac:(lia) x w _ Nx V0 E) as [_ Ea]. rewrite Sx in Ea. rewrite Eb in *. rewrite Ea.
  assert (srnd 53 cz = cz) as RC by (apply (srnd_xv 53 1024 ltac:(lia) ltac:(lia) cpl); [apply cpl_facts|exact Hcz]).
  assert (srnd 53 (- cz) = - cz)%Z as RN. { revert RC. unfold srnd. clear - CR. destruct (Z.ltb_spec cz 0), (Z.ltb_spec (- cz) 0); try lia; [rewrite Z.opp_involutive; lia|]. assert (cz = 0)%Z as -> by lia. auto. }
  pose proof (srnd_mono 53 ltac:(lia) (- cz)%Z (val x - b)%Z Lo) as R1. pose proof (srnd_mono 53 ltac:(lia) (val x - b)%Z cz ltac:(clear - Bx Hb; lia)) as R2. rewrite RC, RN in *.
  set (r := srnd 53 (val x - b)%Z) in *. assert (clamp 53 1024 r = r)%Z as Ec. { apply clamp_id. set (B := BIGZ) in *. clearbody B. clearbody r. clear - CR R1 R2. lia. }
  rewrite Ec. pose proof (srnd_error2 53 ltac:(lia) (val x - b)%Z) as SE. fold r in SE. clearbody r. splits; [clear - R1 R2; lia|reflexivity|clear - SE R1 R2; lia]. Qed.
Lemma path_last_in (R : A -> A -> Prop) a p b : path R a p b -> In b p.
Proof. induction 1; cbn; auto. Qed.
Lemma total_le_C a p b : In a (nodes g) -> path (has_edge g) a p b -> (total_duration gz p <= C)%Z.
Proof. intros Ha Hp. destruct HS as (_ & _ & S3 & _). apply (S3 a p b); [|exact Hp]. unfold exact_plan. rewrite dkeys_with. apply (path_in a p b Ha Hp). apply (path_last_in _ _ _ _ Hp). Qed.
Notation nn := (Z.of_nat (length (nodes g))).
Context (Hn : (3 * nn <= 2 ^ 53)%Z) (HC : near_to (nn * cz) cz C).
Lemma backward_error a p b : path (has_edge g) a p b -> In a (nodes g) -> length p <= length (nodes g) -> (Z.abs (val (back p)) <= cz)%Z /\ near_to ((nn + Z.of_nat (length p)) * cz) (val (back p)) (C - total_duration gz p).
Proof. pose proof cz_range as CR.
  assert (forall x p, (total_duration gz (x :: p) <= C)%Z -> length (x :: p) <= length (nodes g) -> (Z.abs (val (back p)) <= cz)%Z -> near_to ((nn + Z.of_nat (length p)) * cz) (val (back p)) (C - total_duration gz p) ->
     (Z.abs (val (back (x :: p))) <= cz)%Z /\ near_to ((nn + Z.of_nat (length (x :: p))) * cz) (val (back (x :: p))) (C - total_duration gz (x :: p))) as K.
  { intros x q LT LL Bq Nq. cbn [chain_back fold_right total_duration length] in *. rewrite duration_exact in *. fold (back q). set (w := gduration f0 g x) in *. set (t := total_duration gz q) in *. clearbody t.
    assert (- cz <= val (back q) - units w)%Z as Lo. { set (v := val (back q)) in *. clearbody v. set (u := units w) in *. clearbody u. assert (nn + Z.of_nat (length q) <= 2 ^ 53)%Z as N2 by (clear - LL Hn; lia). set (m := (nn + Z.of_nat (length q))%Z) in *. clearbody m. clear - LT Nq N2 CR. assert (m * cz <= 2 ^ 53 * cz)%Z by (apply Z.mul_le_mono_nonneg_r; lia). lia. }
    destruct (sub_step (back q) w _ (back_num q) (dur_fd x) Bq eq_refl Lo) as (S1 & _ & S3). split; [exact S1|]. set (v' := val (fsub (back q) w)) in *. clearbody v'. set (v := val (back q)) in *. clearbody v. set (u := units w) in *. clearbody u. set (m := length q) in *. clearbody m. clear - Nq S3. 
    rewrite Nat2Z.inj_succ. replace ((nn + Z.succ (Z.of_nat m)) * cz)%Z with ((nn + Z.of_nat m) * cz + cz)%Z by ring. set (e := ((nn + Z.of_nat m) * cz)%Z) in *. clearbody e. lia. }
  assert ((Z.abs (val (back [])) <= cz)%Z /\ near_to ((nn + Z.of_nat (length (@nil A))) * cz) (val (back [])) (C - total_duration gz [])) as K0.
  { cbn [chain_back fold_right total_duration length]. rewrite cz_val. rewrite Z.sub_0_r. cbn [Z.of_nat]. rewrite Z.add_0_r. split; [clear - CR; lia|exact HC]. }
  induction 1 as [a|a v p b Hav Hp IH]; intros Ha L.
  - apply K; try apply K0; [|exact L]. apply (total_le_C a _ a Ha). constructor.
  - destruct IH as [I1 I2]; [exact (proj2 (has_edge_nodes g a v W0 Hav))|cbn [length] in L; lia|]. apply K; auto. apply (total_le_C a _ b Ha). exact (path_cons _ a v p b Hav Hp). Qed.
Lemma backward_error_n a p b : In a (nodes g) -> path (has_edge g) a p b -> near_to (2 * nn * cz) (val (back p)) (C - total_duration gz p).
Proof. intros Ha Hp. pose proof (path_short a p b Ha Hp) as L. destruct (backward_error a p b Hp Ha L) as [_ H]. pose proof cz_range as CR. eapply Z.le_trans; [exact H|]. apply Z.mul_le_mono_nonneg_r; [apply CR|lia]. Qed.
End Err.

(** if every chain is computed up to e1 (forwards) and e2 (backwards), so are the fields of every task *)
Context (e1 e2 : Z) (He : (0 <= e1 <= e2)%Z).
Notation near_by e a b := (2 ^ 53 * Z.abs (a - b) <= e)%Z.
Context (H1 : forall a p b, In b (nodes g) -> path (has_edge g) a p b -> near_by e1 (val (csum64 p)) (total_duration gz p)).
Lemma ef_near x T : In x (nodes g) -> dget x D = Some T -> near_by e1 (val (efd f64 d x)) (t_ef T).
Proof. intros Hx ET. destruct HS as (_ & _ & _ & S4 & _). destruct (S4 _ _ ET) as [((_ & _ & _ & [(b & q & Hq & <-) Hm] & _) & _) _].
  destruct (early_x x Hx) as (_ & G2 & _ & _ & _ & (a & p & Hp & E) & Hmax). pose proof (H1 _ _ _ Hx Hp) as N1. pose proof (H1 _ _ _ Hx Hq) as N2. specialize (Hm _ _ Hp).
  specialize (Hmax _ _ Hq). apply ge_val in Hmax; [|apply csum_num|apply good_num, G2]. rewrite E in *. change (csum (a_add f64) (a_zero f64) (gduration (a_zero f64) g) p) with (csum64 p) in *. change (csum (a_add f64) (a_zero f64) (gduration (a_zero f64) g) q) with (csum64 q) in *. clear - Hm Hmax N1 N2. lia. Qed.
Lemma es_near x T : In x (nodes g) -> dget x D = Some T -> near_by e1 (val (esd f64 d x)) (t_es T).
Proof. intros Hx ET. pose proof HS as (S1 & _ & _ & S4 & _). destruct (S4 _ _ ET) as [((_ & _ & Z0 & _ & Hle & Hat) & _) _].
  destruct (early_x x Hx) as (G1 & _ & G3 & Hpre & Hmax & _).
  assert (forall y, has_edge g y x -> In y (nodes g) /\ exists Ty, dget y D = Some Ty /\ (t_ef Ty <= t_es T)%Z) as HY.
  { intros y Hy. pose proof (proj1 (has_edge_nodes g y x W0 Hy)) as Hyn. split; [exact Hyn|]. destruct (dget_key y D) as (Ty & ETy); [apply (Permutation_in _ (Permutation_sym S1)); unfold exact_plan; rewrite dkeys_with; exact Hyn|]. exists Ty. split; [exact ETy|].
    destruct (S4 _ _ ETy) as [((_ & _ & _ & [(b & q & Hq & <-) _] & _) & _) _]. eapply Hle; eauto. }
  assert (0 <= val (esd f64 d x))%Z as P0 by (apply ge_val in G3; [exact G3|exact num_zero|apply good_num, G1]).
  assert (forall y Ty, has_edge g y x -> dget y D = Some Ty -> near_by e1 (val (efd f64 d y)) (t_ef Ty)) as NY by (intros y Ty Hy ETy; apply ef_near; [apply (HY y Hy)|exact ETy]).
  destruct Hpre as [[No E]|(y & Hy & E)].
  - rewrite E. cbn [f64 float_arith a_zero xv]. destruct Hat as [[_ ->]|(z & a & p & Hz & _)]; [clear - He; cbn; lia|destruct (No z Hz)].
  - destruct Hat as [[No _]|(z & a & p & Hz & Hp & Ep)]; [destruct (No y Hy)|]. destruct (HY y Hy) as (Hyn & Ty & ETy & L1). destruct (HY z Hz) as (Hzn & Tz & ETz & L2).
    assert (t_ef Tz = t_es T) as L3. { destruct (S4 _ _ ETz) as [((_ & _ & _ & [_ Hm] & _) & _) _]. specialize (Hm _ _ Hp). lia. }
    pose proof (NY y Ty Hy ETy) as N1. pose proof (NY z Tz Hz ETz) as N2. specialize (Hmax z Hz). apply ge_val in Hmax; [|apply good_num, (ef_pos z Hzn)|apply good_num, G1]. rewrite E in *. clear - L1 L2 L3 N1 N2 Hmax. lia. Qed.
Lemma cpl_near : near_by e1 (val cpl) C.
Proof. destruct HS as (S1 & S2 & S3 & S4 & _). unfold exact_plan in *. rewrite dkeys_with in *. fold (exact_plan g) in *. destruct cpl_facts as (Gc & Hc & Hmax).
  destruct Hc as [[E ->]|(x & Hx & E)].
  - destruct S2 as [[_ ->]|(a & p & b & _ & Hb & _)]; [cbn [xv]; clear - He; cbn; lia|]. apply order_In in Hb. rewrite E in Hb. destruct Hb.
  - pose proof (proj1 (order_In x) Hx) as Hxn. destruct S2 as [[E0 _]|(a & p & b & Hp & Hb & Ep)]; [rewrite E0 in Hxn; destruct Hxn|].
    destruct (early_x x Hxn) as (_ & _ & _ & _ & _ & (a' & p' & Hp' & E') & _). rewrite E, E'. change (csum (a_add f64) (a_zero f64) (gduration (a_zero f64) g) p') with (csum64 p').
    pose proof (H1 _ _ _ Hxn Hp') as N1. pose proof (H1 _ _ _ Hb Hp) as N2. pose proof (S3 _ _ _ Hxn Hp') as L1.
    destruct (early_x b Hb) as (_ & G2 & _ & _ & _ & _ & Hm). specialize (Hm _ _ Hp). apply ge_val in Hm; [|apply csum_num|apply good_num, G2]. change (csum (a_add f64) (a_zero f64) (gduration (a_zero f64) g) p) with (csum64 p) in *.
    specialize (Hmax b (proj2 (order_In b) Hb)). apply ge_val in Hmax; [|apply good_num, G2|apply good_num, Gc]. rewrite E, E' in Hmax. change (csum (a_add f64) (a_zero f64) (gduration (a_zero f64) g) p') with (csum64 p') in Hmax. clear - N1 N2 L1 Hm Hmax Ep. lia. Qed.
Context (H2 : forall a p b, In a (nodes g) -> path (has_edge g) a p b -> near_by e2 (val (back p)) (C - total_duration gz p)).
Lemma ls_near x T : In x (nodes g) -> dget x D = Some T -> near_by e2 (val (lsd f64 d x)) (t_ls T).
Proof. intros Hx ET. destruct HS as (_ & _ & _ & S4 & _). destruct (S4 _ _ ET) as [(_ & _ & [(b & q & Hq & Eq) Hm]) _].
  destruct (late_chain x Hx) as [(a & p & Hp & E) Hmin]. pose proof (H2 _ _ _ Hx Hp) as N1. pose proof (H2 _ _ _ Hx Hq) as N2. specialize (Hm _ _ Hp).
  specialize (Hmin _ _ Hq). rewrite E in *. apply ge_val in Hmin; [|apply back_num|apply back_num]. clear - Hm Hmin N1 N2 Eq. lia. Qed.
Lemma lf_near x T : In x (nodes g) -> dget x D = Some T -> near_by e2 (val (lfd f64 d x)) (t_lf T).
Proof. intros Hx ET. pose proof HS as (S1 & _ & _ & S4 & _). destruct (S4 _ _ ET) as [((Td & _) & TL & [(b & q & Hq & Eq) Hm]) _].
  destruct (late_x x Hx) as (G1 & _ & G3 & Hpre & Hmax & _). pose proof cpl_near as NC. apply ge_val in G3; [|exact G1|exact num_cpl].
  assert (forall y, has_edge g x y -> In y (nodes g) /\ exists Ty, dget y D = Some Ty /\ (t_lf T <= t_ls Ty)%Z) as HY.
  { intros y Hy. pose proof (proj2 (has_edge_nodes g x y W0 Hy)) as Hyn. split; [exact Hyn|]. destruct (dget_key y D) as (Ty & ETy); [apply (Permutation_in _ (Permutation_sym S1)); unfold exact_plan; rewrite dkeys_with; exact Hyn|]. exists Ty. split; [exact ETy|].
    destruct (S4 _ _ ETy) as [(_ & _ & [(c & r & Hr & Er) _]) _]. specialize (Hm c (x :: r) (path_cons _ x y r c Hy Hr)). cbn [total_duration] in Hm. lia. }
  assert (t_lf T <= C)%Z as LC. { specialize (Hm x [x] (path_one _ x)). cbn [total_duration] in Hm. lia. }
  (* upper bound *)
  assert (2 ^ 53 * (val (lfd f64 d x) - t_lf T) <= e2)%Z as U.
  { inversion Hq as [u Eu Eu2|u v q' w Huv Hq' Eu]; subst.
    - cbn [total_duration] in Eq. assert (t_lf T = C) as -> by lia. clear - G3 NC He. lia.
    - cbn [total_duration] in Eq. destruct (HY v Huv) as (Hvn & Tv & ETv & Lv). specialize (Hmax v Huv). destruct (late_x v Hvn) as (_ & Gv & _). apply ge_val in Hmax; [|exact G1|exact Gv].
      assert (t_ls Tv = t_lf T) as Ev. { destruct (S4 _ _ ETv) as [(_ & _ & [_ Hmv]) _]. specialize (Hmv _ _ Hq'). lia. }
      pose proof (ls_near v Tv Hvn ETv) as Nv. clear - Hmax Ev Nv. lia. }
  (* lower bound *)
  assert (2 ^ 53 * (t_lf T - val (lfd f64 d x)) <= e2)%Z as L.
  { destruct Hpre as [[No E]|(y & Hy & E)].
    - rewrite E. clear - LC NC He. lia.
    - destruct (HY y Hy) as (Hyn & Ty & ETy & Ly). pose proof (ls_near y Ty Hyn ETy) as Ny. rewrite E. clear - Ly Ny. lia. }
  clear - U L. lia. Qed.
End Exact.

(** ** the fields of every task, compared with the exact schedule *)
Section Final.
Context {A V : Type} {EA : EqDec A} (g : graph A spec_float V) (W0 : wf g) (HP : gplan finite_duration g) (Hac : acyclic (has_edge g)).
Context (cpl : spec_float) (d : dict A (gtask spec_float)) (order : list A) (Heq : eqs f64 fsub g order cpl d) (Hnd : NoDup order) (Hperm : Permutation order (nodes g)) (Hpf : preds_first (has_edge g) order).
Context (C : Z) (D : dict A task) (HS : schedule_ok (exact_plan g) C D).
Notation sv := (sval 53 1024).
Notation nn := (Z.of_nat (length (nodes g))).
(** x is a finite float at most (k / 2^53) c from the exact value z *)
Definition off_by (k c : Z) (x : spec_float) (z : Z) : Prop := exists u, sv x = Some u /\ (2 ^ 53 * Z.abs (u - z) <= k * c)%Z.
Lemma field_of_d x t : In x (nodes g) -> dget x d = Some t -> esd f64 d x = gt_es t /\ efd f64 d x = gt_ef t /\ lsd f64 d x = gt_ls t /\ lfd f64 d x = gt_lf t.
Proof. intros _ E. unfold esd, efd, lsd, lfd. rewrite E. auto. Qed.
Lemma lf_is x : In x (nodes g) -> lfd f64 d x = cpl \/ exists y b p, In y (nodes g) /\ path (has_edge g) y p b /\ lfd f64 d x = chain_back f0 fsub g cpl p.
Proof. intros Hx. destruct (late_x g W0 HP cpl d order Heq Hnd Hperm Hpf x Hx) as (_ & _ & _ & Hpre & _). destruct Hpre as [[_ E]|(y & Hy & E)]; [left; exact E|right].
  assert (In y (nodes g)) as Hyn by exact (proj2 (has_edge_nodes g x y W0 Hy)). destruct (late_chain g W0 HP cpl d order Heq Hnd Hperm Hpf y Hyn) as [(b & p & Hp & Ep) _]. exists y, b, p. splits; auto. congruence. Qed.
Lemma es_le_cpl x : In x (nodes g) -> (0 <= val (esd f64 d x) <= val cpl)%Z /\ (0 <= val (efd f64 d x) <= val cpl)%Z.
Proof. intros Hx. destruct (cpl_facts g W0 HP cpl d order Heq Hperm Hpf) as (Gc & _ & Hmax). specialize (Hmax x (proj2 (order_In g order Hperm x) Hx)). destruct (early_x g W0 HP cpl d order Heq Hperm Hpf x Hx) as (G1 & G2 & _ & Hpre & _).
  apply ge_val in Hmax; [|apply good_num, G2|apply good_num, Gc]. assert (forall y, In y (nodes g) -> (val (efd f64 d y) <= val cpl)%Z) as K.
  { intros y Hy. destruct (cpl_facts g W0 HP cpl d order Heq Hperm Hpf) as (_ & _ & Hm). specialize (Hm y (proj2 (order_In g order Hperm y) Hy)). destruct (early_x g W0 HP cpl d order Heq Hperm Hpf y Hy) as (_ & Gy & _). apply ge_val in Hm; [exact Hm|apply good_num, Gy|apply good_num, Gc]. }
  splits; [apply good_pos, G1| |apply good_pos, G2|apply K, Hx]. destruct Hpre as [[_ ->]|(y & Hy & ->)]; [cbn [a_zero f64 float_arith xv]; apply good_pos, Gc|apply K, (has_edge_nodes g y x W0 Hy)]. Qed.

Theorem error_bounds cz : (3 * nn <= 2 ^ 53)%Z -> sv cpl = Some cz ->
  off_by nn cz cpl C /\
  forall x t T, dget x d = Some t -> dget x D = Some T ->
    off_by nn cz (gt_es t) (t_es T) /\ off_by nn cz (gt_ef t) (t_ef T) /\ off_by (2 * nn) cz (gt_ls t) (t_ls T) /\ off_by (2 * nn) cz (gt_lf t) (t_lf T) /\ off_by (3 * nn + 1) cz (gt_slack fsub t) (t_slack T).
Proof. intros Hn Hcz. pose proof (cz_range g W0 HP cpl d order Heq Hperm Hpf cz Hcz) as CR. pose proof (sval_xv 53 1024 cpl cz Hcz) as CV. set (B := (2 ^ (1024 - SpecFloat.emin 53 1024))%Z) in *.
  pose proof (forward_error_n g W0 HP Hac cpl d order Heq Hperm Hpf cz Hcz) as H1. assert (0 <= nn * cz <= 2 * nn * cz)%Z as He by (clear - CR; nia).
  pose proof (cpl_near g W0 HP cpl d order Heq Hperm Hpf C D HS _ _ He H1) as NC. rewrite CV in NC.
  pose proof (backward_error_n g W0 HP Hac cpl d order Heq Hperm Hpf C D HS cz Hcz Hn NC) as H2.
  split; [exists cz; split; auto|]. intros x t T Et ET. assert (In x (nodes g)) as Hx. { apply (order_In g order Hperm). rewrite <- (proj1 Heq). eapply dget_Some_key; eauto. }
  destruct (field_of_d x t Hx Et) as (E1 & E2 & E3 & E4).
  pose proof (es_near g W0 HP cpl d order Heq Hperm Hpf C D HS _ _ He H1 x T Hx ET) as N1. pose proof (ef_near g W0 HP cpl d order Heq Hperm Hpf C D HS _ H1 x T Hx ET) as N2.
  pose proof (ls_near g W0 HP cpl d order Heq Hnd Hperm Hpf C D HS _ H2 x T Hx ET) as N3. pose proof (lf_near g W0 HP cpl d order Heq Hnd Hperm Hpf C D HS _ _ He H1 H2 x T Hx ET) as N4.
  destruct (es_le_cpl x Hx) as [B1 B2]. rewrite CV in B1, B2.
  destruct (early_x g W0 HP cpl d order Heq Hperm Hpf x Hx) as (G1 & G2 & _). destruct (late_x g W0 HP cpl d order Heq Hnd Hperm Hpf x Hx) as (G4 & G3 & _).
  assert (forall y b p, In y (nodes g) -> path (has_edge g) y p b -> (Z.abs (val (chain_back f0 fsub g cpl p)) <= cz)%Z) as HB.
  { intros y b p Hy Hp. apply (backward_error g W0 HP cpl d order Heq Hperm Hpf C D HS cz Hcz Hn NC y p b Hp Hy). apply (path_short g W0 Hac y p b Hy Hp). }
  assert (Z.abs (val (lsd f64 d x)) <= cz)%Z as B3. { destruct (late_chain g W0 HP cpl d order Heq Hnd Hperm Hpf x Hx) as [(b & p & Hp & ->) _]. eapply HB; eauto. }
  assert (Z.abs (val (lfd f64 d x)) <= cz)%Z as B4. { destruct (lf_is x Hx) as [->|(y & b & p & Hy & Hp & ->)]; [rewrite CV; clear - CR; lia|eapply HB; eauto]. }
  rewrite E1, E2, E3, E4 in *. clear E1 E2 E3 E4.
  assert (forall w, num w -> (Z.abs (val w) <= cz)%Z -> sv w = Some (val w)) as SV by (intros w Nw Bw; apply sval_num; [exact Nw|]; fold B; clearbody B; clear - Bw CR; lia).
  assert (finite_duration (gt_ef t)) as FD by (split; [exact G2|]; exists (val (gt_ef t)); apply SV; [apply good_num, G2|clear - B2; lia]).
  assert (units (gt_ef t) = val (gt_ef t)) as EU by (symmetry; apply fd_units, FD).
  destruct HS as (_ & _ & _ & S4 & _). destruct (S4 _ _ ET) as [_ Hsl]. unfold t_slack in *.
  destruct (sub_step g W0 HP cpl d order Heq Hperm Hpf cz Hcz (gt_lf t) (gt_ef t) _ G4 FD B4 EU) as (SB & _ & SE).
  { set (u := val (gt_lf t)) in *. set (v := val (gt_ef t)) in *. clearbody u v. assert (3 * nn * cz <= 2 ^ 53 * cz)%Z by (apply Z.mul_le_mono_nonneg_r; [apply CR|exact Hn]). clear - N2 N4 Hsl H CR. lia. }
  splits.
  - exists (val (gt_es t)). split; [apply SV; [apply good_num, G1|clear - B1; lia]|exact N1].
  - exists (val (gt_ef t)). split; [apply SV; [apply good_num, G2|clear - B2; lia]|exact N2].
  - exists (val (gt_ls t)). split; [apply SV; [exact G3|exact B3]|exact N3].
  - exists (val (gt_lf t)). split; [apply SV; [exact G4|exact B4]|exact N4].
  - exists (val (fsub (gt_lf t) (gt_ef t))). split; [apply SV; [apply fsub_num; [exact G4|exact FD]|exact SB]|].
    set (r := val (fsub (gt_lf t) (gt_ef t))) in *. set (u := val (gt_lf t)) in *. set (v := val (gt_ef t)) in *. clearbody r u v. replace ((3 * nn + 1) * cz)%Z with (nn * cz + 2 * nn * cz + cz)%Z by ring. set (e1 := (nn * cz)%Z) in *. set (e2 := (2 * nn * cz)%Z) in *. clearbody e1 e2. clear - N2 N4 SE. lia. Qed.

(** multiples of a power of two, as long as the sum fits in the 53 bits: no error *)
Lemma mult_small j z : (0 <= j)%Z -> (2 ^ j | z)%Z -> (Z.abs z < 2 ^ (53 + j))%Z -> exists k, z = (k * 2 ^ j)%Z /\ (Z.abs k < 2 ^ 53)%Z.
Proof. intros Hj [k ->] H. exists k. split; [reflexivity|]. assert (0 < 2 ^ j)%Z as Hp by (apply Z.pow_pos_nonneg; lia). rewrite Z.abs_mul, (Z.abs_eq (2 ^ j)), Z.pow_add_r in H by lia. set (P := (2 ^ j)%Z) in *. clearbody P. apply (Z.mul_lt_mono_pos_r P); [exact Hp|]. exact H. Qed.
Lemma mult_fits j z : (0 <= j)%Z -> (j + 53 <= 1024 - SpecFloat.emin 53 1024)%Z -> (2 ^ j | z)%Z -> (Z.abs z < 2 ^ (53 + j))%Z -> fits 53 1024 z.
Proof. intros Hj Hje Hd Hz. destruct (mult_small j z Hj Hd Hz) as (k & -> & Hk). apply multiple_fits; auto; lia. Qed.
Lemma fsub_fits x w a b : valid_binary 53 1024 x = true -> valid_binary 53 1024 w = true -> sv x = Some a -> sv w = Some b -> fits 53 1024 (a - b) -> valid_binary 53 1024 (fsub x w) = true /\ sv (fsub x w) = Some (a - b)%Z.
Proof. intros Vx Vw Sx Sw F. rewrite sub_opp. apply (sadd_spec 53 1024 ltac:(lia) ltac:(lia) x (SFopp w) a (- b)%Z); auto; [rewrite valid_opp; exact Vw|rewrite sval_opp, Sw; reflexivity]. Qed.
Theorem multiples_bounds j : (0 <= j)%Z -> (j + 53 <= 1024 - SpecFloat.emin 53 1024)%Z -> (forall x w, node g x = Some w -> (2 ^ j | units w)%Z) -> (C < 2 ^ (53 + j))%Z ->
  sv cpl = Some C /\
  forall x t T, dget x d = Some t -> dget x D = Some T ->
    sv (gt_es t) = Some (t_es T) /\ sv (gt_ef t) = Some (t_ef T) /\ sv (gt_ls t) = Some (t_ls T) /\ sv (gt_lf t) = Some (t_lf T) /\ sv (gt_slack fsub t) = Some (t_slack T).
Proof. intros Hj Hje Hdiv HC. set (M := (2 ^ (53 + j))%Z) in *.
  assert (forall x, (2 ^ j | duration (exact_plan g) x)%Z) as Dd. { intros x. rewrite (duration_exact g). unfold gduration. destruct (node g x) as [w|] eqn:E; [eapply Hdiv; eauto|exists 0%Z; reflexivity]. }
  assert (forall p, (2 ^ j | total_duration (exact_plan g) p)%Z) as Dt by (induction p as [|x p IH]; cbn [total_duration]; [exists 0%Z; reflexivity|apply Z.divide_add_r; auto]).
  assert ((2 ^ j | C)%Z /\ (0 <= C)%Z) as [DC C0]. { destruct HS as (_ & [[_ ->]|(a & p & b & _ & _ & <-)] & _); [split; [exists 0%Z; reflexivity|lia]|split; [apply Dt|apply (total_nonneg g HP)]]. }
  assert (forall z, (2 ^ j | z)%Z -> (- C <= z <= C)%Z -> fits 53 1024 z) as FT. { intros z Hd Hz. apply (mult_fits j); auto. fold M. clearbody M. clear - Hz HC. lia. }
  assert (forall p a b, In b (nodes g) -> path (has_edge g) a p b -> valid_binary 53 1024 (chain_sum f64 g p) = true /\ sv (chain_sum f64 g p) = Some (total_duration (exact_plan g) p)) as F1.
  { induction p as [|z p IH] using rev_ind; intros a b Hb Hp; [inversion Hp|]. pose proof (total_le_C g W0 C D HS a _ b (path_in_end g W0 _ _ _ Hb Hp) Hp) as L. pose proof (total_nonneg g HP (p ++ [z])) as L0. pose proof (Dt (p ++ [z])) as Dz. rewrite (csum_step g). rewrite (total_snoc g) in *. rewrite (duration_exact g) in *.
    destruct (fd_units _ (dur_fd g HP z)) as (V1 & S1 & _).
    assert (valid_binary 53 1024 (chain_sum f64 g p) = true /\ sv (chain_sum f64 g p) = Some (total_duration (exact_plan g) p)) as [V2 S2].
    { destruct (path_snoc_or g a _ b Hp) as [E|(q & u & E & Hq & Hu)].
      - destruct p as [|h p]; [split; reflexivity|exfalso; apply (f_equal (@length A)) in E; cbn in E; rewrite app_length in E; cbn in E; lia].
      - apply app_inj_tail in E. destruct E as [-> _]. apply (IH a u); [apply (has_edge_nodes g u b W0 Hu)|exact Hq]. }
    apply (sadd_spec 53 1024 ltac:(lia) ltac:(lia)); auto. apply FT; [exact Dz|]. clear - L L0 C0. lia. }
  assert (forall a p b, In b (nodes g) -> path (has_edge g) a p b -> (2 ^ 53 * Z.abs (val (chain_sum f64 g p) - total_duration (exact_plan g) p) <= 0)%Z) as H1.
  { intros a p b Hb Hp. rewrite (sval_xv 53 1024 _ _ (proj2 (F1 p a b Hb Hp))), Z.sub_diag. cbn [Z.abs]. lia. }
  assert (0 <= 0 <= 0)%Z as He by (split; reflexivity). pose proof (cpl_near g W0 HP cpl d order Heq Hperm Hpf C D HS _ _ He H1) as NC.
  destruct (cpl_facts g W0 HP cpl d order Heq Hperm Hpf) as (Gc & _).
  assert (val cpl = C) as CV by (clear - NC; lia).
  assert (M <= 2 ^ (1024 - SpecFloat.emin 53 1024))%Z as MB by (apply Z.pow_le_mono_r; [lia|clear - Hje; lia]).
  assert (forall w, num w -> (Z.abs (val w) <= C)%Z -> sv w = Some (val w)) as SV. { intros w Nw Bw. apply sval_num; [exact Nw|]. set (B := (2 ^ (1024 - SpecFloat.emin 53 1024))%Z) in *. clearbody B M. clear - Bw HC MB. lia. }
  assert (sv cpl = Some C) as SC by (rewrite <- CV at 1; apply SV; [apply good_num, Gc|rewrite CV; clear - C0; lia]).
  split; [exact SC|].
  assert (forall a p b, path (has_edge g) a p b -> In a (nodes g) -> valid_binary 53 1024 (chain_back f0 fsub g cpl p) = true /\ sv (chain_back f0 fsub g cpl p) = Some (C - total_duration (exact_plan g) p)%Z) as F2.
  { assert (forall x p, (total_duration (exact_plan g) (x :: p) <= C)%Z -> valid_binary 53 1024 (chain_back f0 fsub g cpl p) = true /\ sv (chain_back f0 fsub g cpl p) = Some (C - total_duration (exact_plan g) p)%Z ->
       valid_binary 53 1024 (chain_back f0 fsub g cpl (x :: p)) = true /\ sv (chain_back f0 fsub g cpl (x :: p)) = Some (C - total_duration (exact_plan g) (x :: p))%Z) as K.
    { intros x p L [V1 S1]. pose proof (total_nonneg g HP (x :: p)) as L0. pose proof (Dt (x :: p)) as Dx. cbn [chain_back fold_right total_duration] in *. fold (chain_back f0 fsub g cpl p). destruct (fd_units _ (dur_fd g HP x)) as (V2 & S2 & _). rewrite <- (duration_exact g) in S2.
      replace (C - (duration (exact_plan g) x + total_duration (exact_plan g) p))%Z with (C - total_duration (exact_plan g) p - duration (exact_plan g) x)%Z by (clear; lia). apply fsub_fits; auto. apply FT.
      - replace (C - total_duration (exact_plan g) p - duration (exact_plan g) x)%Z with (C - (duration (exact_plan g) x + total_duration (exact_plan g) p))%Z by (clear; lia). apply Z.divide_sub_r; auto.
      - clear - L L0 C0. lia. }
    induction 1 as [a|a v p b Hav Hp IH]; intros Ha.
    - apply K; [apply (total_le_C g W0 C D HS a _ a Ha); constructor|]. cbn [chain_back fold_right total_duration]. rewrite Z.sub_0_r. split; [apply Gc|exact SC].
    - apply K; [apply (total_le_C g W0 C D HS a _ b Ha); exact (path_cons _ a v p b Hav Hp)|]. apply IH. exact (proj2 (has_edge_nodes g a v W0 Hav)). }
  assert (forall a p b, In a (nodes g) -> path (has_edge g) a p b -> (2 ^ 53 * Z.abs (val (chain_back f0 fsub g cpl p) - (C - total_duration (exact_plan g) p)) <= 0)%Z) as H2.
  { intros a p b Ha Hp. rewrite (sval_xv 53 1024 _ _ (proj2 (F2 a p b Hp Ha))), Z.sub_diag. cbn [Z.abs]. lia. }
  intros x t T Et ET. assert (In x (nodes g)) as Hx. { apply (order_In g order Hperm). rewrite <- (proj1 Heq). eapply dget_Some_key; eauto. }
  destruct (field_of_d x t Hx Et) as (E1 & E2 & E3 & E4).
  pose proof (es_near g W0 HP cpl d order Heq Hperm Hpf C D HS _ _ He H1 x T Hx ET) as N1. pose proof (ef_near g W0 HP cpl d order Heq Hperm Hpf C D HS _ H1 x T Hx ET) as N2.
  pose proof (ls_near g W0 HP cpl d order Heq Hnd Hperm Hpf C D HS _ H2 x T Hx ET) as N3. pose proof (lf_near g W0 HP cpl d order Heq Hnd Hperm Hpf C D HS _ _ He H1 H2 x T Hx ET) as N4.
  destruct (es_le_cpl x Hx) as [B1 B2]. rewrite CV in B1, B2.
  destruct (early_x g W0 HP cpl d order Heq Hperm Hpf x Hx) as (G1 & G2 & _ & _ & _ & (ae & pe & Hpe & Epe) & _). destruct (late_x g W0 HP cpl d order Heq Hnd Hperm Hpf x Hx) as (G4 & G3 & _).
  assert (exists z, sv (lsd f64 d x) = Some z) as B3. { destruct (late_chain g W0 HP cpl d order Heq Hnd Hperm Hpf x Hx) as [(b & p & Hp & ->) _]. eexists. eapply F2; eauto. }
  assert (exists z, sv (lfd f64 d x) = Some z /\ (2 ^ j | z)%Z /\ (0 <= z <= C)%Z) as B4.
  { destruct (lf_is x Hx) as [->|(y & b & p & Hy & Hp & ->)]; [exists C; splits; auto; clear - C0; lia|]. exists (C - total_duration (exact_plan g) p)%Z. splits; [eapply F2; eauto|apply Z.divide_sub_r; auto|pose proof (total_le_C g W0 C D HS y p b Hy Hp) as L; clear - L; lia|pose proof (total_nonneg g HP p) as L; clear - L; lia]. }
  assert (2 ^ j | t_ef T)%Z as De. { replace (t_ef T) with (total_duration (exact_plan g) pe); [apply Dt|]. change (csum (a_add f64) (a_zero f64) (gduration (a_zero f64) g) pe) with (chain_sum f64 g pe) in Epe. rewrite Epe in N2. rewrite (sval_xv 53 1024 _ _ (proj2 (F1 pe ae x Hx Hpe))) in N2. clear - N2. lia. }
  rewrite E1, E2, E3, E4 in *. clear E1 E2 E3 E4.
  assert (val (gt_es t) = t_es T) as X1 by (clear - N1; lia). assert (val (gt_ef t) = t_ef T) as X2 by (clear - N2; lia). assert (val (gt_ls t) = t_ls T) as X3 by (clear - N3; lia). assert (val (gt_lf t) = t_lf T) as X4 by (clear - N4; lia).
  assert (sv (gt_ef t) = Some (t_ef T)) as S2 by (rewrite <- X2; apply SV; [apply good_num, G2|clear - B2; lia]).
  assert (sv (gt_ls t) = Some (t_ls T)) as S3 by (destruct B3 as (z & Ez); rewrite <- X3, (sval_xv 53 1024 _ _ Ez); exact Ez).
  assert (sv (gt_lf t) = Some (t_lf T) /\ (2 ^ j | t_lf T)%Z /\ (0 <= t_lf T <= C)%Z) as (S4 & Dl & Bl) by (destruct B4 as (z & Ez & Dz & Bz); pose proof (sval_xv 53 1024 _ _ Ez) as Xz; rewrite X4 in Xz; subst z; auto).
  splits; auto.
  - rewrite <- X1. apply SV; [apply good_num, G1|clear - B1; lia].
  - unfold gt_slack, t_slack. apply fsub_fits; auto; [apply G4|apply G2|]. apply FT; [apply Z.divide_sub_r; auto|]. rewrite X2 in B2. clear - Bl B2. lia. Qed.
End Final.
