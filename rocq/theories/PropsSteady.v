(* C69: the Chapman-Enskog analysis of steady states. *)
From Coq Require Import String List ZArith Bool Arith Reals Lra Lia.
From Verif Require Import StencilModel RealLib LinLib EqModel EqSpec SteadyModel SteadySpec SteadyProofs SteadyProofs2 SteadyProofs3 SteadyProofs4 SteadyProofs5.
Import ListNotations.
Local Open Scope R_scope.

(* the derivatives of polynomial fields are the derivatives *)
Theorem C69_derivatives : forall a p x, derivable_pt_lim (fun h => val p (moved x a h)) 0 (val (pd a p) x).
Proof. exact pd_lim. Qed.
Print Assumptions C69_derivatives.

(* whatever the equilibrium, the force, and their derivatives: the populations written by the analysis up to an order solve the
   Taylor expanded equation up to this power of eps *)
Theorem C69_orders : forall S A Ainv f0 force N q idx x, is_inverse (length S) A Ainv -> (q < length S)%nat -> (1 <= N)%nat ->
  exists r : nat -> R, forall eps,
    taylor_expanded_equation S f0 force N A eps (jsum (map (fun i => jscal (eps ^ i) (pdf_order S Ainv f0 force i)) (seq 0 (Datatypes.S N)))) q idx x =
    rsum (map (fun k => r k * eps ^ k) (seq (N + 1) N)).
Proof. intros S A Ainv f0 force N q idx x HI Hq HN. exact (residual_orders S A Ainv f0 force HI N q idx x Hq HN). Qed.
Print Assumptions C69_orders.

(* and they are the only ones that satisfy the equation of every order *)
Theorem C69_unique_orders : forall S A Ainv f0 force N (g : nat -> jets), let n := length S in
  is_inverse n A Ainv -> same_fields n (g 0%nat) f0 ->
  (forall i q idx x, (1 <= i <= N)%nat -> (q < n)%nat ->
     jsum (map (fun k => taylor_term S k (g (i - k)%nat)) (seq 1 i)) q idx x + apply_matrix S A (g i) q idx x - (if Nat.eqb i 1 then force else jzero) q idx x = 0) ->
  forall i, (i <= N)%nat -> same_fields n (g i) (pdf_order S Ainv f0 force i).
Proof. intros S A Ainv f0 force N g n HI H0 H. exact (orders_unique S A Ainv f0 force HI N g H0 H). Qed.
Print Assumptions C69_unique_orders.

(* the equations of single orders are the coefficients of the equations *)
Theorem C69_orders_of_equations : forall S Ainv f0 force shift N eps h x, (1 <= N)%nat ->
  continuity_equation S Ainv f0 force N eps x = rsum (map (fun k => eps ^ k * continuity_of_order S Ainv f0 force k x) (seq 0 N)) /\
  momentum_equation S Ainv f0 force shift N eps h x = rsum (map (fun k => eps ^ k * momentum_of_order S Ainv f0 force shift k h x) (seq 0 N)).
Proof. intros. split; [apply continuity_orders|apply momentum_orders; assumption]. Qed.
Print Assumptions C69_orders_of_equations.

(* leading order: divergence of the momentum flux of the equilibrium, minus the momentum of the force, over the rate of the
   momentum, plus the shift *)
Theorem C69_leading_order : forall S Ainv f0 force shift h v x, let n := length S in
  (forall g : nat -> R, rsum (map (fun q => comp (nth q S []) h * dot (nth q Ainv []) (map g (seq 0 n))) (seq 0 n)) = v * rsum (map (fun q => comp (nth q S []) h * g q) (seq 0 n))) ->
  momentum_of_order S Ainv f0 force shift 0 h x =
  - v * (rsum (map (fun a => rsum (map (fun q => comp (nth q S []) h * comp (nth q S []) a * f0 q [a] x) (seq 0 n))) (seq 0 (dimD S))) - rsum (map (fun q => comp (nth q S []) h * force q [] x) (seq 0 n))) + shift h x.
Proof. intros S Ainv f0 force shift h v x n H. exact (leading_order S Ainv f0 force shift h v H x). Qed.
Print Assumptions C69_leading_order.

(* for polynomial equilibria and forces the populations of the analysis do not change under collision and streaming, and no
   other polynomial populations (of this degree) do that *)
Theorem C69_steady_states : forall S A Ainv f0 force N, let n := length S in
  Forall (fun c => length c = dimD S) S -> is_inverse n A Ainv -> (1 <= N)%nat ->
  polynomial_fields n f0 -> polynomial_fields n force -> degree_at_most n N f0 -> degree_at_most n (N - 1) force ->
  let f := jsum (map (pdf_order S Ainv f0 force) (seq 0 (Datatypes.S N))) in
  polynomial_fields n f /\ degree_at_most n N f /\ steady_for S A f0 force f /\
  forall g, polynomial_fields n g -> degree_at_most n N g -> steady_for S A f0 force g -> same_fields n g f.
Proof.
  intros S A Ainv f0 force N n HS HI HN P0 PF D0 DF f.
  assert (E : same_fields n (series S Ainv f0 force N 1) f) by (intros q idx x _; unfold series, f, jsum; rewrite !map_map; apply rsum_ext; intros i _; unfold jscal; rewrite pow1; ring).
  assert (HP := polys_sol S Ainv f0 force N HN P0 PF). assert (HV := van_sol S Ainv f0 force N HN D0 DF). assert (HT := sol_steady S A Ainv f0 force N HS HI HN P0 PF D0 DF).
  split; [intros q Hq; destruct (HP q Hq) as (p & Hp); exists p; intros; rewrite <- E by exact Hq; apply Hp|].
  split; [intros q idx x Hq Hl; rewrite <- E by exact Hq; apply HV; [exact Hq|lia]|]. split.
  - intros q x Hq. rewrite <- !E by exact Hq. rewrite (HT q x Hq). f_equal. f_equal. f_equal. f_equal. unfold populations. apply map_ext_in. intros r Hr. apply in_seq in Hr. apply E. unfold n. lia.
  - intros g Pg Dg Sg q idx x Hq. rewrite <- E by exact Hq. apply (steady_unique S A Ainv f0 force N HS HI HN P0 PF D0 DF g); try assumption. intros r idx' x' Hr Hl. apply Dg; [exact Hr|lia].
Qed.
Print Assumptions C69_steady_states.

(* the equations decide which flows are steady: with an equilibrium of density rho and momentum u, the flow is held by some
   populations if and only if the equations of the incompressible method hold *)
Theorem C69_flows : forall S A Ainv f0 force N rho u F, let n := length S in
  Forall (fun c => length c = dimD S) S -> is_inverse n A Ainv -> (1 <= N)%nat ->
  polynomial_fields n f0 -> polynomial_fields n force -> degree_at_most n N f0 -> degree_at_most n (N - 1) force ->
  (forall x, pop_density n f0 x = rho x) -> (forall a x, (a < dimD S)%nat -> pop_momentum S f0 a x = 1 * u a x) ->
  (exists f, steady_flow S A N f0 force rho u F (fun _ => 1) f) <->
  (forall x, continuity_equation S Ainv f0 force N 1 x = 0) /\
  (forall a x, (a < dimD S)%nat -> momentum_equation S Ainv f0 force (default_velocity_shift false rho F) N 1 a x = 0).
Proof.
  intros S A Ainv f0 force N rho u F n HS HI HN P0 PF D0 DF HR HM. split.
  - intros (f & Hf). destruct (flow_equations S A Ainv f0 force N HS HI HN P0 PF D0 DF rho u F (fun _ => 1) HR HM (default_velocity_shift false rho F) f Hf) as [H1 H2].
    split; [exact H1|]. intros a x Ha. rewrite H2 by exact Ha. unfold default_velocity_shift. field.
  - intros [H1 H2]. exists (series S Ainv f0 force N 1). apply (equations_flow S A Ainv f0 force N HS HI HN P0 PF D0 DF rho u F (fun _ => 1) HR HM H1).
    intros a x Ha. rewrite <- (H2 a x Ha). unfold momentum_equation, default_velocity_shift. f_equal. field.
Qed.
Print Assumptions C69_flows.

(* without a force in both cases, compressible methods included *)
Theorem C69_flows_without_force : forall S A Ainv f0 N rho u carrier compressible, let n := length S in
  Forall (fun c => length c = dimD S) S -> is_inverse n A Ainv -> (1 <= N)%nat -> polynomial_fields n f0 -> degree_at_most n N f0 ->
  (forall x, pop_density n f0 x = rho x) -> (forall a x, (a < dimD S)%nat -> pop_momentum S f0 a x = carrier x * u a x) ->
  (exists f, steady_flow S A N f0 jzero rho u (fun _ _ => 0) carrier f) <->
  (forall x, continuity_equation S Ainv f0 jzero N 1 x = 0) /\
  (forall a x, (a < dimD S)%nat -> momentum_equation S Ainv f0 jzero (default_velocity_shift compressible rho (fun _ _ => 0)) N 1 a x = 0).
Proof.
  intros S A Ainv f0 N rho u carrier compressible n HS HI HN P0 D0 HR HM.
  assert (PF : polynomial_fields n jzero) by (intros q _; exact polyj_zero). assert (DF : degree_at_most n (N - 1) jzero) by (intros q idx x _ _; reflexivity). split.
  - intros (f & Hf). destruct (flow_equations S A Ainv f0 jzero N HS HI HN P0 PF D0 DF rho u _ carrier HR HM (default_velocity_shift compressible rho (fun _ _ => 0)) f Hf) as [H1 H2].
    split; [exact H1|]. intros a x Ha. rewrite H2 by exact Ha. unfold default_velocity_shift, Rdiv. rewrite !Rmult_0_l. ring.
  - intros [H1 H2]. exists (series S Ainv f0 jzero N 1). apply (equations_flow S A Ainv f0 jzero N HS HI HN P0 PF D0 DF rho u _ carrier HR HM H1).
    intros a x Ha. transitivity (momentum_equation S Ainv f0 jzero (default_velocity_shift compressible rho (fun _ _ => 0)) N 1 a x); [|exact (H2 a x Ha)]. unfold momentum_equation, default_velocity_shift, Rdiv. rewrite !Rmult_0_l. reflexivity.
Qed.
Print Assumptions C69_flows_without_force.

(* for compressible methods the momentum equation is wrong with a force: in every steady flow what it reports as zero is
   F (1/rho - 1) / 2 *)
Theorem C69_compressible_force_refuted : forall S A Ainv f0 force N rho u F f, let n := length S in
  Forall (fun c => length c = dimD S) S -> is_inverse n A Ainv -> (1 <= N)%nat ->
  polynomial_fields n f0 -> polynomial_fields n force -> degree_at_most n N f0 -> degree_at_most n (N - 1) force ->
  (forall x, pop_density n f0 x = rho x) -> (forall a x, (a < dimD S)%nat -> pop_momentum S f0 a x = rho x * u a x) ->
  steady_flow S A N f0 force rho u F rho f ->
  forall a x, (a < dimD S)%nat -> rho x <> 0 ->
    momentum_equation S Ainv f0 force (default_velocity_shift true rho F) N 1 a x = F a x * (1 / rho x - 1) / 2 /\
    (F a x <> 0 -> rho x <> 1 -> momentum_equation S Ainv f0 force (default_velocity_shift true rho F) N 1 a x <> 0).
Proof.
  intros S A Ainv f0 force N rho u F f n HS HI HN P0 PF D0 DF HR HM Hf a x Ha Hx.
  destruct (flow_equations S A Ainv f0 force N HS HI HN P0 PF D0 DF rho u F rho HR HM (default_velocity_shift true rho F) f Hf) as [_ H2].
  assert (E : momentum_equation S Ainv f0 force (default_velocity_shift true rho F) N 1 a x = F a x * (1 / rho x - 1) / 2) by (rewrite H2 by exact Ha; unfold default_velocity_shift; field; exact Hx).
  split; [exact E|]. intros HF H1 H0. rewrite E in H0. apply H1. assert (K : 1 / rho x - 1 = 0).
  { destruct (Rmult_integral (F a x) (1 / rho x - 1)) as [C|C]; [lra|contradiction|exact C]. }
  assert (K2 : 1 / rho x = 1) by lra. apply (f_equal (fun t => t * rho x)) in K2. field_simplify in K2; lra.
Qed.
Print Assumptions C69_compressible_force_refuted.

(* the analysis for methods with one rate returns the equations of the general analysis, times minus the rate, order by order *)
Theorem C69_single_rate : forall S f0 w N dt h x k, let Ainv := srt_matrix (length S) (1 / w) in w <> 0 -> dt <> 0 ->
  srt_continuity_of_order S f0 (1 / w) k x = - w * continuity_of_order S Ainv f0 jzero k x /\
  srt_momentum_of_order S f0 (1 / w) h k x = - w * momentum_of_order S Ainv f0 jzero no_velocity_shift k h x /\
  srt_continuity_equation S f0 dt (1 / w) N x = rsum (map (fun k => dt ^ k * srt_continuity_of_order S f0 (1 / w) k x) (seq 0 N)) /\
  srt_momentum_equation S f0 dt (1 / w) N h x = rsum (map (fun k => dt ^ k * srt_momentum_of_order S f0 (1 / w) h k x) (seq 0 N)).
Proof.
  intros S f0 w N dt h x k Ainv Hw Hd. assert (HB : 1 / w <> 0) by (unfold Rdiv; rewrite Rmult_1_l; apply Rinv_neq_0_compat; exact Hw). repeat split.
  - unfold srt_continuity_of_order, continuity_of_order. rewrite <- rsum_scal. apply rsum_ext. intros q Hq. apply in_seq in Hq. rewrite srt_pdf_one by lia. unfold Ainv. field. exact Hw.
  - unfold srt_momentum_of_order, momentum_of_order, no_velocity_shift. destruct (Nat.eqb k 0); rewrite Rplus_0_r, <- rsum_scal; apply rsum_ext; intros q Hq; apply in_seq in Hq; rewrite srt_pdf_one by lia; unfold Ainv; field; exact Hw.
  - unfold srt_continuity_equation, srt_continuity_of_order. rewrite (rsum_ext _ (fun q => rsum (map (fun k => dt ^ k * (- 1 / (1 / w) * srt_pdf S f0 1 (1 / w) (k + 1) q [] x)) (seq 0 N)))).
    + rewrite rsum_swap. apply rsum_ext. intros i _. rewrite rsum_scal. reflexivity.
    + intros q Hq. apply in_seq in Hq. rewrite srt_recombined_orders by (try assumption; lia). apply rsum_ext. intros i _. rewrite srt_pdf_one by lia. reflexivity.
  - unfold srt_momentum_equation, srt_momentum_of_order. rewrite (rsum_ext _ (fun q => rsum (map (fun k => dt ^ k * (comp (nth q S []) h * (- 1 / (1 / w) * srt_pdf S f0 1 (1 / w) (k + 1) q [] x))) (seq 0 N)))).
    + rewrite rsum_swap. apply rsum_ext. intros i _. rewrite rsum_scal. reflexivity.
    + intros q Hq. apply in_seq in Hq. rewrite srt_recombined_orders by (try assumption; lia). rewrite <- rsum_scal. apply rsum_ext. intros i _. rewrite srt_pdf_one by lia. ring.
Qed.
Print Assumptions C69_single_rate.

(* its first order momentum equation, and the only viscosities for which the reference has the same second derivatives: the
   shear viscosity c_s^2 (1/omega - 1/2), and 5/3 of it as bulk viscosity *)
Theorem C69_viscosities : forall S f0 w cs2, w <> 0 -> (2 <= dimD S)%nat -> forall a, (a < dimD S)%nat ->
  let nu := cs2 * (1 / w - 1 / 2) in
  (forall H x, (forall g b c, H g b c = H g c b) -> third_moments S f0 cs2 H x ->
     srt_momentum_of_order S f0 (1 / w) a 1 x = steady_navier_stokes_reference (dimD S) nu (5 / 3 * nu) H a) /\
  (forall eta eta_b, (forall H, (forall g b c, H g b c = H g c b) -> steady_navier_stokes_reference (dimD S) eta eta_b H a = steady_navier_stokes_reference (dimD S) nu (5 / 3 * nu) H a) ->
     eta = nu /\ eta_b = 5 / 3 * nu).
Proof.
  intros S f0 w cs2 Hw HD a Ha nu. assert (HB : 1 / w <> 0) by (unfold Rdiv; rewrite Rmult_1_l; apply Rinv_neq_0_compat; exact Hw).
  pose proof (proj2 (match_viscosities (dimD S) a nu nu (5 / 3 * nu) HD Ha) (conj eq_refl eq_refl)) as M. split.
  - intros H x HH HT. rewrite <- (M H HH). rewrite srt_first_order by exact HB.
    rewrite (rsum_ext _ (fun b => rsum (map (fun c => cs2 * (delta a b * H c b c + delta a c * H b b c + delta b c * H a b c)) (seq 0 (dimD S))))).
    + rewrite sum_third by assumption. unfold nu. ring.
    + intros b Hb. apply in_seq in Hb. apply rsum_ext. intros c Hc. apply in_seq in Hc. apply HT; lia.
  - intros eta eta_b HE. apply (proj1 (match_viscosities (dimD S) a nu eta eta_b HD Ha)). intros H HH. rewrite (HE H HH). apply M. exact HH.
Qed.
Print Assumptions C69_viscosities.

(* ---- examples on D2Q9 ---- *)
Definition weights_D2Q9 : list R := [4 / 9; 1 / 9; 1 / 9; 1 / 9; 1 / 9; 1 / 36; 1 / 36; 1 / 36; 1 / 36].
(* shear flow u = (y, 0) at density 1: the incompressible equilibrium *)
Definition couette (q : nat) : pf :=
  let c := comp (nth q D2Q9_walberla []) 0 in
  Scale (nth q weights_D2Q9 0) (Add (Const 1) (Add (Scale (3 * c) (Coord 1)) (Scale (9 / 2 * c ^ 2 - 3 / 2) (Mul (Coord 1) (Coord 1))))).
Lemma pds_zero_add idx : forall p, (forall x, val p x = 0) -> forall x, val (pds idx p) x = 0.
Proof. intros p H x. exact (val_jet p (Const 0) H idx x) || (transitivity (jet_of (Const 0) idx x); [exact (val_jet p (Const 0) H idx x)|unfold jet_of; apply pds_const]). Qed.

Example C69_couette : forall w, w <> 0 ->
  let S := D2Q9_walberla in let f0 := fun q => jet_of (couette q) in
  polynomial_fields 9 f0 /\ degree_at_most 9 2 f0 /\ (forall x, pop_density 9 f0 x = 1) /\ (forall a x, (a < 2)%nat -> pop_momentum S f0 a x = 1 * if Nat.eqb a 0 then x 1%nat else 0) /\
  exists f, steady_flow S (srt_matrix 9 w) 2 f0 jzero (fun _ => 1) (fun a x => if Nat.eqb a 0 then x 1%nat else 0) (fun _ _ => 0) (fun _ => 1) f.
Proof.
  intros w Hw S f0.
  assert (P0 : polynomial_fields 9 f0) by (intros q _; exists (couette q); reflexivity).
  assert (D0 : degree_at_most 9 2 f0).
  { intros q idx x _ Hl. destruct idx as [|a [|b [|c idx]]]; cbn [length] in Hl; try lia. unfold f0, jet_of.
    change (pds (a :: b :: c :: idx) (couette q)) with (pds idx (pd c (pd b (pd a (couette q))))). apply pds_zero_add. intros y. unfold couette. cbn [pd val]. ring. }
  assert (HR : forall x, pop_density 9 f0 x = 1).
  { intros x. unfold pop_density, populations, f0, jet_of, couette, pds. cbn [seq map rsum fold_right fold_left val]. unfold comp, D2Q9_walberla, weights_D2Q9. cbn [nth]. field. }
  assert (HM : forall a x, (a < 2)%nat -> pop_momentum S f0 a x = 1 * if Nat.eqb a 0 then x 1%nat else 0).
  { intros a x Ha. unfold pop_momentum. change (length S) with 9%nat. unfold f0, jet_of, couette, pds. destruct a as [|[|a]]; [| |lia]; cbn [Nat.eqb seq map rsum fold_right fold_left val]; unfold S, comp, D2Q9_walberla, weights_D2Q9; cbn [nth]; field. }
  split; [exact P0|]. split; [exact D0|]. split; [exact HR|]. split; [exact HM|].
  assert (HS : Forall (fun c => length c = dimD S) S) by (repeat constructor).
  apply (C69_flows_without_force S (srt_matrix 9 w) (srt_matrix 9 (1 / w)) f0 2 (fun _ => 1) _ (fun _ => 1) false HS (srt_inverse 9 w Hw) ltac:(lia) P0 D0 HR HM).
  assert (RC : forall q x, (q < 9)%nat -> recombined S (srt_matrix 9 (1 / w)) f0 jzero 2 1 q [] x = - (1 / w) * advect S f0 q [] x + ((1 / w) ^ 2 - 1 / w / 2) * advect S (advect S f0) q [] x).
  { intros q x Hq. unfold recombined, jsum. cbn [seq map rsum fold_right]. unfold jscal. change 9%nat with (length S). rewrite srt_first by exact Hq. rewrite srt_second by exact Hq. unfold jzero. cbn [Nat.sub pow]. ring. }
  split.
  - intros x. unfold continuity_equation. change (length S) with 9%nat. rewrite (rsum_ext _ (fun q => - (1 / w) * advect S f0 q [] x + ((1 / w) ^ 2 - 1 / w / 2) * advect S (advect S f0) q [] x)) by (intros q Hq; apply in_seq in Hq; apply RC; lia).
    generalize (1 / w). intros v. unfold advect, dirder. change (dimD S) with 2%nat. unfold f0, jet_of, couette, pds. cbn [seq map rsum fold_right fold_left pd val]. unfold delta. cbn [Nat.eqb]. unfold S, comp, D2Q9_walberla, weights_D2Q9. cbn [nth]. field.
  - intros a x Ha. unfold momentum_equation. change (length S) with 9%nat. rewrite (rsum_ext _ (fun q => comp (nth q S []) a * (- (1 / w) * advect S f0 q [] x + ((1 / w) ^ 2 - 1 / w / 2) * advect S (advect S f0) q [] x))) by (intros q Hq; apply in_seq in Hq; rewrite RC by lia; reflexivity).
    unfold default_velocity_shift. generalize (1 / w). intros v. unfold advect, dirder. change (dimD S) with 2%nat in *. unfold f0, jet_of, couette, pds.
    destruct a as [|[|a]]; [| |lia]; cbn [seq map rsum fold_right fold_left pd val]; unfold delta; cbn [Nat.eqb]; unfold S, comp, D2Q9_walberla, weights_D2Q9; cbn [nth]; field.
Qed.

(* fluid at rest under gravity g along y, density 1 + 3 g y, compressible, with the force of Guo *)
Definition resting (g : R) (q : nat) : pf := Scale (nth q weights_D2Q9 0) (Add (Const 1) (Scale (3 * g) (Coord 1))).
Definition guo_at_rest (w g : R) (q : nat) : pf := Const (nth q weights_D2Q9 0 * (1 - w / 2) * 3 * comp (nth q D2Q9_walberla []) 1 * g).
Example C69_atmosphere : forall w g, w <> 0 ->
  let S := D2Q9_walberla in let f0 := fun q => jet_of (resting g q) in let force := fun q => jet_of (guo_at_rest w g q) in
  let rho := fun x : pos => 1 + 3 * g * x 1%nat in let F := fun (a : nat) (_ : pos) => if Nat.eqb a 1 then g else 0 in
  polynomial_fields 9 f0 /\ polynomial_fields 9 force /\ degree_at_most 9 1 f0 /\ degree_at_most 9 0 force /\
  (forall x, pop_density 9 f0 x = rho x) /\ (forall a x, (a < 2)%nat -> pop_momentum S f0 a x = rho x * 0) /\
  exists f, steady_flow S (srt_matrix 9 w) 1 f0 force rho (fun _ _ => 0) F rho f.
Proof.
  intros w g Hw S f0 force rho F.
  assert (P0 : polynomial_fields 9 f0) by (intros q _; exists (resting g q); reflexivity).
  assert (PF : polynomial_fields 9 force) by (intros q _; exists (guo_at_rest w g q); reflexivity).
  assert (D0 : degree_at_most 9 1 f0).
  { intros q idx x _ Hl. destruct idx as [|a [|b idx]]; cbn [length] in Hl; try lia. unfold f0, jet_of. change (pds (a :: b :: idx) (resting g q)) with (pds idx (pd b (pd a (resting g q)))). apply pds_zero_add. intros y. unfold resting. cbn [pd val]. ring. }
  assert (DF : degree_at_most 9 0 force).
  { intros q idx x _ Hl. destruct idx as [|a idx]; cbn [length] in Hl; try lia. unfold force, jet_of. change (pds (a :: idx) (guo_at_rest w g q)) with (pds idx (pd a (guo_at_rest w g q))). apply pds_zero_add. intros y. reflexivity. }
  assert (HR : forall x, pop_density 9 f0 x = rho x).
  { intros x. unfold pop_density, populations, f0, jet_of, resting, pds, rho. cbn [seq map rsum fold_right fold_left val]. unfold weights_D2Q9. cbn [nth]. field. }
  assert (HM : forall a x, (a < 2)%nat -> pop_momentum S f0 a x = rho x * 0).
  { intros a x Ha. unfold pop_momentum. change (length S) with 9%nat. unfold f0, jet_of, resting, pds. destruct a as [|[|a]]; [| |lia]; cbn [Nat.eqb seq map rsum fold_right fold_left val]; unfold S, comp, D2Q9_walberla, weights_D2Q9; cbn [nth]; field. }
  split; [exact P0|]. split; [exact PF|]. split; [exact D0|]. split; [exact DF|]. split; [exact HR|]. split; [exact HM|].
  assert (HS : Forall (fun c => length c = dimD S) S) by (repeat constructor).
  exists (series S (srt_matrix 9 (1 / w)) f0 force 1 1).
  assert (RC : forall q x, (q < 9)%nat -> recombined S (srt_matrix 9 (1 / w)) f0 force 1 1 q [] x = - (1 / w) * (advect S f0 q [] x - force q [] x)).
  { intros q x Hq. unfold recombined, jsum. cbn [seq map rsum fold_right]. unfold jscal. change 9%nat with (length S). rewrite srt_first by exact Hq. cbn [Nat.sub pow]. ring. }
  apply (equations_flow S (srt_matrix 9 w) (srt_matrix 9 (1 / w)) f0 force 1 HS (srt_inverse 9 w Hw) (le_n 1) P0 PF D0 DF rho (fun _ _ => 0) F rho HR HM).
  - intros x. unfold continuity_equation. change (length S) with 9%nat. rewrite (rsum_ext _ (fun q => - (1 / w) * (advect S f0 q [] x - force q [] x))) by (intros q Hq; apply in_seq in Hq; apply RC; lia).
    unfold advect, dirder. change (dimD S) with 2%nat. unfold f0, force, jet_of, resting, guo_at_rest, pds. cbn [seq map rsum fold_right fold_left pd val]. unfold delta. cbn [Nat.eqb]. unfold S, comp, D2Q9_walberla, weights_D2Q9. cbn [nth]. field. exact Hw.
  - intros a x Ha. change (dimD S) with 2%nat in *. unfold momentum_equation. change (length S) with 9%nat. rewrite (rsum_ext _ (fun q => comp (nth q S []) a * (- (1 / w) * (advect S f0 q [] x - force q [] x)))) by (intros q Hq; apply in_seq in Hq; rewrite RC by lia; reflexivity).
    unfold advect, dirder. change (dimD S) with 2%nat. unfold F, f0, force, jet_of, resting, guo_at_rest, pds.
    destruct a as [|[|a]]; [| |lia]; cbn [seq map rsum fold_right fold_left pd val]; unfold delta; cbn [Nat.eqb]; unfold S, comp, D2Q9_walberla, weights_D2Q9; cbn [nth]; field; exact Hw.
Qed.

(* parabolic flow u = (y^2, 0), linear part of the equilibrium: its third moments *)
Example C69_third_moments : forall x,
  third_moments D2Q9_walberla (fun q => jet_of (Scale (nth q weights_D2Q9 0) (Add (Const 1) (Scale (3 * comp (nth q D2Q9_walberla []) 0) (Mul (Coord 1) (Coord 1)))))) (1 / 3)
    (fun g b c => if Nat.eqb g 0 && Nat.eqb b 1 && Nat.eqb c 1 then 2 else 0) x.
Proof.
  intros x a b c Ha Hb Hc. change (dimD D2Q9_walberla) with 2%nat in *. change (length D2Q9_walberla) with 9%nat.
  destruct a as [|[|a]]; [| |lia]; (destruct b as [|[|b]]; [| |lia]); (destruct c as [|[|c]]; [| |lia]);
  unfold jet_of, pds; cbn [seq map rsum fold_right fold_left pd val]; unfold delta; cbn [Nat.eqb andb]; unfold comp, D2Q9_walberla, weights_D2Q9; cbn [nth]; field.
Qed.
