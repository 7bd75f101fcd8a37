(* C46: wall shear stress from a velocity profile near the wall; C47: wall function bounce boundary. *)
From Coq Require Import String List ZArith Bool Arith Reals Lra Lia Psatz.
From Verif Require Import StencilModel StencilProofs2 RealLib LinLib AccessModel StreamModel BoundModel BoundSpec BoundProofs9 WallModel WallSpec WallProofs WallProofs2 WallProofs3.
Import ListNotations.
Local Open Scope R_scope.

(* ---------- C46: wall function models ---------- *)
(* the slope used in each step is the derivative of the equation that is solved *)
Theorem C46_derivative : forall nu kappa b d u t, 0 < nu -> 0 < kappa -> 0 < d -> 0 < u -> 0 < t ->
  let is_slope law diff := exists f l, (forall s, 0 < s -> law s = Some (f s)) /\ diff t = Some l /\ derivable_pt_lim f t l in
  is_slope (log_law nu kappa b d u) (log_diff kappa u) /\ is_slope (spalding_law nu kappa b d u) (spalding_diff nu kappa b d u) /\ is_slope (musker_law nu d u) (musker_diff nu d u).
Proof.
  intros nu kappa b d u t Hn Hk Hd Hu Ht. cbv zeta. repeat split.
  - exists (flog nu kappa b d u), (flog' kappa u t). split; [intros; now apply log_law_ok|]. split; [now apply log_diff_ok|now apply flog_deriv].
  - exists (mult_real_fct (-1) (fsp nu kappa b d u)), (-1 * fsp' nu kappa b d u t). split; [intros s Hs; apply spald_defined; auto|]. split; [apply spald_defined; auto|]. apply derivable_pt_lim_scal. now apply fsp_deriv.
  - exists (mult_real_fct 1 (fmu nu d u)), (1 * fmu' nu d u t). split; [intros s Hs; apply musk_defined; auto|]. split; [apply musk_defined; auto|]. apply derivable_pt_lim_scal. now apply fmu_deriv.
Qed.
(* each profile determines exactly one friction velocity *)
Theorem C46_friction_velocity : forall nu kappa b d u, 0 < nu -> 0 < kappa -> 0 < d -> 0 < u ->
  (exists! r, friction_velocity (log_profile kappa b) nu d u r) /\ (exists! r, friction_velocity (spalding_profile kappa b) nu d u r) /\ (exists! r, friction_velocity musker_profile nu d u r).
Proof.
  intros nu kappa b d u Hn Hk Hd Hu. repeat split.
  - destruct (flog_root nu kappa b d u) as (r & Hr & E); auto. exists r. split; [now apply flog_friction|]. intros r' H. apply flog_friction in H as [H1 H2]. symmetry.
    apply (root_unique (flog nu kappa b d u) (flog' kappa u) 0 r); auto; intros; [now apply flog'_pos|now apply flog_tangent].
  - destruct (fsp_root nu kappa b d u) as (r & Hr & E); auto. exists r. split; [now apply fsp_friction|]. intros r' H. apply fsp_friction in H as [H1 H2]. symmetry.
    apply (root_unique (fsp nu kappa b d u) (fsp' nu kappa b d u) 0 r); auto; intros; [now apply fsp'_pos|now apply fsp_tangent].
  - destruct (fmu_root nu d u) as (r & Hr & E); auto. exists r. split; [now apply fmu_friction|]. intros r' H. apply fmu_friction in H as [H1 H2].
    destruct (Rtotal_order r r') as [L|[L|L]]; auto; [pose proof (fmu_increasing nu d u Hn Hd Hu r r' Hr L)|pose proof (fmu_increasing nu d u Hn Hd Hu r' r H1 L)]; lra.
Qed.
(* Spalding: the stress converges to rho times the squared friction velocity from every positive start, in particular from the default *)
Theorem C46_spalding : forall nu kappa b d u target t0, 0 < nu -> 0 < kappa -> 0 < d -> 0 < u -> starts_at u target t0 -> 0 < t0 ->
  exists r T, friction_velocity (spalding_profile kappa b) nu d u r /\ T 0%nat = t0 /\ converges_from_below T r /\
    forall n rho, shear_stress (Spalding nu n kappa b) rho u d target = Some (rho * T n ^ 2).
Proof.
  intros nu kappa b d u target t0 Hn Hk Hd Hu Hs Ht. destruct (fsp_root nu kappa b d u) as (r & Hr & E); auto.
  destruct (newton_limit (fsp nu kappa b d u) (fsp' nu kappa b d u) 0 r Hr E) with (law := spalding_law nu kappa b d u) (diff := spalding_diff nu kappa b d u) (sg := -1) (t0 := t0) as [C D]; auto; try lra.
  - intros. now apply fsp'_pos.
  - intros. now apply fsp_tangent.
  - intros. now apply spald_defined.
  - now apply spald_step_pos.
  - exists r, (fun n => iterate (fsp nu kappa b d u) (fsp' nu kappa b d u) n t0). split; [now apply fsp_friction|]. split; [reflexivity|]. split; [exact C|].
    intros n rho. destruct (D n) as (l & Hl & El). rewrite <- El. cbn [shear_stress]. now apply implicit_ok with t0.
Qed.
(* logarithmic law: the same for starts that are not too far above the friction velocity *)
Theorem C46_log_law : forall nu kappa b d u target t0, 0 < nu -> 0 < kappa -> 0 < d -> 0 < u -> starts_at u target t0 -> 0 < t0 ->
  ln (d * t0 / nu) + kappa * b < 1 + 2 * kappa * (u / t0) ->
  exists r T, friction_velocity (log_profile kappa b) nu d u r /\ T 0%nat = t0 /\ converges_from_below T r /\
    forall n rho, shear_stress (LogLaw nu n kappa b) rho u d target = Some (rho * T n ^ 2).
Proof.
  intros nu kappa b d u target t0 Hn Hk Hd Hu Hs Ht Hc. destruct (flog_root nu kappa b d u) as (r & Hr & E); auto.
  destruct (newton_limit (flog nu kappa b d u) (flog' kappa u) 0 r Hr E) with (law := log_law nu kappa b d u) (diff := log_diff kappa u) (sg := 1) (t0 := t0) as [C D]; auto; try lra.
  - intros. now apply flog'_pos.
  - intros. now apply flog_tangent.
  - intros. now apply log_defined.
  - now apply log_step_pos.
  - exists r, (fun n => iterate (flog nu kappa b d u) (flog' kappa u) n t0). split; [now apply flog_friction|]. split; [reflexivity|]. split; [exact C|].
    intros n rho. destruct (D n) as (l & Hl & El). rewrite <- El. cbn [shear_stress]. now apply implicit_ok with t0.
Qed.
(* every start at or below the friction velocity is of that kind *)
Theorem C46_log_start_below : forall nu kappa b d u r t0, 0 < nu -> 0 < kappa -> 0 < d -> 0 < u -> friction_velocity (log_profile kappa b) nu d u r -> 0 < t0 -> t0 <= r ->
  ln (d * t0 / nu) + kappa * b < 1 + 2 * kappa * (u / t0).
Proof.
  intros nu kappa b d u r t0 Hn Hk Hd Hu Hf Ht Hle. apply flog_friction in Hf as [Hr E]. apply log_step_pos; auto.
  pose proof (step_up (flog nu kappa b d u) (flog' kappa u) 0 r Hr E) as U. apply Rlt_le_trans with t0; auto. apply U; auto; intros; [now apply flog'_pos|now apply flog_tangent].
Qed.
(* beyond that bound the second step evaluates the logarithm of a number that is not positive: no stress *)
Theorem C46_log_start_refuted : forall nu kappa b d u target t0, 0 < nu -> 0 < kappa -> 0 < d -> 0 < u -> starts_at u target t0 -> 0 < t0 ->
  1 + 2 * kappa * (u / t0) <= ln (d * t0 / nu) + kappa * b -> forall n rho, (2 <= n)%nat -> shear_stress (LogLaw nu n kappa b) rho u d target = None.
Proof.
  intros nu kappa b d u target t0 Hn Hk Hd Hu Hs Ht Hc n rho H. cbn [shear_stress]. apply implicit_none with t0; auto. replace n with (2 + (n - 2))%nat by lia. now apply log_undefined.
Qed.
(* the default start: only an extreme resolution violates the bound *)
Theorem C46_log_default : forall nu kappa b d u, 0 < nu -> 0 < kappa -> 0 < d -> 0 < u ->
  (forall n, (2 <= n)%nat -> exists tau, shear_stress (LogLaw nu n kappa b) 1 u d None = Some tau) <-> ln (d * u / nu) + kappa * b < 1 + 200 * kappa + ln 100.
Proof.
  intros nu kappa b d u Hn Hk Hd Hu. assert (P : 0 < d * u / nu) by (apply Rdiv_lt_0_compat; auto; now apply Rmult_lt_0_compat).
  assert (L : ln (d * (u / 100) / nu) = ln (d * u / nu) - ln 100). { replace (d * (u / 100) / nu) with (d * u / nu * / 100) by (field; lra). rewrite ln_mult, ln_Rinv by lra. ring. }
  assert (Q : u / (u / 100) = 100) by (field; lra). assert (P0 : 0 < u / 100) by lra. split.
  - intros H. destruct (H 2%nat (le_n _)) as (tau & Ht). apply Rnot_le_lt. intros N.
    rewrite (C46_log_start_refuted nu kappa b d u None (u / 100)) in Ht; auto; [discriminate|constructor|]. rewrite L, Q. lra.
  - intros H n _. destruct (C46_log_law nu kappa b d u None (u / 100)) as (r & T & _ & _ & _ & HT); auto; [constructor|rewrite L, Q; lra|]. eauto.
Qed.
(* Musker: shown for starts between y+ = 1/5 and the friction velocity.  Missing: starts above the friction velocity and y+ below 1/5,
   where the profile is not concave. *)
Theorem C46_musker_partial : forall nu d u target t0 r, 0 < nu -> 0 < d -> 0 < u -> starts_at u target t0 -> friction_velocity musker_profile nu d u r -> 1 / 5 < d * t0 / nu -> t0 <= r ->
  exists T, T 0%nat = t0 /\ converges_from_below T r /\ forall n rho, shear_stress (Musker nu n) rho u d target = Some (rho * T n ^ 2).
Proof.
  intros nu d u target t0 r Hn Hd Hu Hs Hf Hy Hle. apply fmu_friction in Hf as [Hr E]. pose proof (lo_pos nu d Hn Hd) as L0.
  assert (H0 : nu / (5 * d) < t0). { apply Rmult_lt_reg_r with (d / nu); [now apply Rdiv_lt_0_compat|]. replace (nu / (5 * d) * (d / nu)) with (1 / 5) by (field; lra). replace (t0 * (d / nu)) with (d * t0 / nu) by (field; lra). exact Hy. }
  assert (Hp : forall t, nu / (5 * d) < t -> 0 < fmu' nu d u t) by (intros; apply fmu'_pos; auto; lra). assert (Ht : forall s t, nu / (5 * d) < s -> nu / (5 * d) < t -> fmu nu d u s <= fmu nu d u t + fmu' nu d u t * (s - t)) by (intros; now apply fmu_tangent).
  destruct (newton_limit (fmu nu d u) (fmu' nu d u) (nu / (5 * d)) r) with (law := musker_law nu d u) (diff := musker_diff nu d u) (sg := 1) (t0 := t0) as [C D]; auto; try lra.
  - intros. apply musk_defined; auto; lra.
  - pose proof (step_up (fmu nu d u) (fmu' nu d u) (nu / (5 * d)) r ltac:(lra) E Hp Ht t0 H0 Hle). lra.
  - exists (fun n => iterate (fmu nu d u) (fmu' nu d u) n t0). split; [reflexivity|]. split; [exact C|].
    intros n rho. destruct (D n) as (l & Hl & El). rewrite <- El. cbn [shear_stress]. now apply implicit_ok with t0.
Qed.
(* Monin-Obukhov: explicit solution of u = u_tau / kappa * ln (d / z0 + phi) *)
Theorem C46_most : forall z0 kappa phi rho u d target, z0 <> 0 -> 0 < kappa -> 0 < d / z0 + phi -> d / z0 + phi <> 1 ->
  exists! ut, u = ut / kappa * ln (d / z0 + phi) /\ shear_stress (MOST z0 kappa phi) rho u d target = Some (rho * ut ^ 2).
Proof.
  intros z0 kappa phi rho u d target Hz Hk Hp H1. assert (L : ln (d / z0 + phi) <> 0) by now apply ln_neq_0. set (l := ln (d / z0 + phi)) in *. exists (u * kappa / l). split.
  - split; [field; split; lra|]. cbn [shear_stress]. unfold most_stress. rewrite rdiv_ok by auto. cbn [obind]. rewrite rln_ok by auto. cbn [obind]. fold l. rewrite rdiv_ok by auto. cbn [obind]. f_equal. ring.
  - intros ut [E _]. rewrite E. field. split; [lra|exact L].
Qed.
Theorem C46_most_undefined : forall z0 kappa phi rho u d target, z0 = 0 \/ d / z0 + phi <= 0 \/ d / z0 + phi = 1 -> shear_stress (MOST z0 kappa phi) rho u d target = None.
Proof.
  intros z0 kappa phi rho u d target H. cbn [shear_stress]. unfold most_stress. destruct (Req_EM_T z0 0) as [E|E]; [now rewrite E, rdiv_zero|]. rewrite rdiv_ok by auto. cbn [obind].
  destruct H as [H|[H|H]]; [contradiction|now rewrite rln_none|]. rewrite H, rln_ok, ln_1 by lra. cbn [obind]. now rewrite rdiv_zero.
Qed.
(* whatever the model, a stress that is computed is not negative *)
Theorem C46_nonnegative : forall m rho u d target tau, 0 <= rho -> shear_stress m rho u d target = Some tau -> 0 <= tau.
Proof. exact stress_nonneg. Qed.
(* fluid at rest: the default start is zero and the first step divides by it *)
Theorem C46_zero_velocity_refuted : forall m rho d target, target = None \/ target = Some 0 ->
  match m with MOST _ _ _ => False | LogLaw _ n _ _ | Spalding _ n _ _ | Musker _ n => (1 <= n)%nat end -> shear_stress m rho 0 d target = None.
Proof. exact zero_undefined. Qed.
(* a case that meets the hypotheses: u = 1/20 at distance 1/2, viscosity 1/1000 *)
Example C46_example : exists r T, friction_velocity (log_profile (2 / 5) (11 / 2)) (1 / 1000) (1 / 2) (1 / 20) r /\ converges_from_below T r /\
  forall n, shear_stress (LogLaw (1 / 1000) n (2 / 5) (11 / 2)) 1 (1 / 20) (1 / 2) None = Some (1 * T n ^ 2).
Proof.
  destruct (C46_log_law (1 / 1000) (2 / 5) (11 / 2) (1 / 2) (1 / 20) None (1 / 20 / 100)) as (r & T & H1 & _ & H2 & H3); try lra; [constructor| |exists r, T; auto].
  assert (ln (1 / 2 * (1 / 20 / 100) / (1 / 1000)) < ln 1) by (apply ln_increasing; lra). rewrite ln_1 in H. lra.
Qed.
(* a given start of 1 for the same flow is too large *)
Example C46_example_refuted : shear_stress (LogLaw (1 / 1000) 5 (2 / 5) (11 / 2)) 1 (1 / 20) (1 / 2) (Some 1) = None.
Proof.
  apply (C46_log_start_refuted (1 / 1000) (2 / 5) (11 / 2) (1 / 2) (1 / 20) (Some 1) 1); try lra; [constructor; lra| |lia].
  assert (ln 1 < ln (1 / 2 * 1 / (1 / 1000))) by (apply ln_increasing; lra). rewrite ln_1 in H. lra.
Qed.

(* ---------- C47: wall function bounce ---------- *)
Lemma wall_normal_axis normal axis : length normal = 3%nat -> free_slip_axis normal = Ok axis -> (axis < 3)%nat /\ exists sign, normal = wall_normal axis sign.
Proof.
  intros L H. apply free_slip_axis_inv in H as (s & Hs & Ha & E). rewrite L in *. split; [exact Ha|]. destruct Hs as [-> | ->]; [exists true|exists false]; exact E.
Qed.
(* a cell at a straight wall: compared with free slip no mass is exchanged, the normal momentum is unchanged and the wall takes
   dt / dy times the wall stress from the tangential momentum; both 3D stencils, all orderings, both weightings *)
Theorem C47_momentum : forall name ord S normal mean sampling maronga axis inv mirrored m dt dy stress rule values,
  predefined_stencils name ord = Ok S -> length normal = 3%nat -> wfb_create (sizeQ S) mean sampling maronga normal = Ok axis -> dy <> 0 -> length stress = 3%nat ->
  (forall i, wfb_rule S inv mirrored normal axis m dt dy stress i = Some (rule i)) ->
  let links := wall_links S normal in let wfb := fun i => b_fun (rule i) (values i) in let slip := fun i => b_fun (free_slip S inv mirrored normal i) (values i) in
  (forall i, b_reads (rule i) = b_reads (free_slip S inv mirrored normal i)) /\
  leaving_mass links wfb = leaving_mass links slip /\
  forall j, (j < 3)%nat -> leaving_momentum S links wfb j = leaving_momentum S links slip j + (if Nat.eqb j axis then 0 else dt / dy * nth j stress 0).
Proof.
  intros name ord S normal mean sampling maronga axis inv mirrored m dt dy stress rule values HS Ln HC Hdy Ls HR links wfb slip.
  assert (HQ : length S = 19%nat \/ length S = 27%nat).
  { unfold wfb_create, sizeQ in HC. destruct (Nat.eqb_spec (length S) 19), (Nat.eqb_spec (length S) 27); cbn [orb negb] in HC; auto; discriminate. }
  assert (HA : free_slip_axis normal = Ok axis). { unfold wfb_create in HC. repeat match type of HC with (if ?b then _ else _) = _ => destruct b; [discriminate|] end. exact HC. }
  destruct (wall_normal_axis normal axis Ln HA) as (Hax & sign & En). destruct stress as [|s0 [|s1 [|s2 [|]]]]; try discriminate.
  assert (HR2 : forall i, rule i = {| b_reads := b_reads (free_slip S inv mirrored normal i); b_fun := fun l => nth 0 l 0 - drag_of (length S) (fst (wfb_ab m)) (snd (wfb_ab m)) (dt / dy) axis [s0; s1; s2] (nth i S []) |}).
  { intros i. specialize (HR i). unfold wfb_rule in HR. rewrite wfb_drag_of in HR by auto. cbn [obind] in HR. injection HR as <-. reflexivity. }
  split; [intros i; now rewrite HR2|].
  destruct (wall_balance_all name ord S HS HQ (fst (wfb_ab m)) (snd (wfb_ab m)) (dt / dy) s0 s1 s2 slip sign axis (wfb_ab_sum m) Hax) as [B1 B2]. rewrite <- En in B1, B2. fold links in B1, B2.
  assert (EW : forall i, wfb i = slip i - drag_of (length S) (fst (wfb_ab m)) (snd (wfb_ab m)) (dt / dy) axis [s0; s1; s2] (nth i S [])) by (intros i; unfold wfb; rewrite HR2; reflexivity).
  split.
  - rewrite <- B1. unfold leaving_mass. f_equal. apply map_ext. intros; apply EW.
  - intros j Hj. rewrite <- (B2 j Hj). unfold leaving_momentum. f_equal. apply map_ext. intros; now rewrite EW.
Qed.
(* the rule is defined on every link unless dy = 0 *)
Theorem C47_defined : forall S inv mirrored normal axis m dt dy stress i, dy <> 0 -> exists r, wfb_rule S inv mirrored normal axis m dt dy stress i = Some r.
Proof. intros S inv mirrored normal axis m dt dy stress i H. unfold wfb_rule. rewrite wfb_drag_of by auto. cbn [obind]. eauto. Qed.
(* the wall stress points against the sampled velocity and has the magnitude of the shear stress (times the Maronga factor) *)
Theorem C47_stress : forall axis model target d rho u velocities stress, 0 <= rho -> length u = 3%nat -> (axis < 3)%nat ->
  wall_stress axis model target d rho u velocities = Some stress ->
  exists tau factor c, shear_stress model rho (tangential_speed axis u) d target = Some tau /\ maronga_factor axis velocities = Some factor /\ 0 <= c /\
    length stress = 3%nat /\ (forall j, (j < 3)%nat -> nth j stress 0 = - (c * nth j u 0)) /\
    sqrt (rsum (map (fun j => nth j stress 0 ^ 2) (tangential_axes axis))) = tau * factor.
Proof.
  intros axis model target d rho u vs stress Hr Lu Ha H. apply wall_stress_inv in H as (fx & tau & HF & HT & H0 & ->). exists tau, fx.
  pose proof (stress_nonneg _ _ _ _ _ _ Hr HT) as Pt. pose proof (maronga_nonneg _ _ _ HF) as Pf. set (s := tangential_speed axis u) in *. assert (Ps : 0 < s) by (pose proof (sqrt_pos (rsum (map (fun i => nth i u 0 ^ 2) (tangential_axes axis)))) as P; fold (tangential_speed axis u) in P; fold s in P; lra).
  assert (Pi : 0 < / s) by now apply Rinv_0_lt_compat.
  exists (tau * fx * / s). split; [auto|]. split; [auto|]. split; [apply Rmult_le_pos; [now apply Rmult_le_pos|lra]|]. split; [reflexivity|].
  assert (N : forall j, (j < 3)%nat -> nth j (map (fun j => - nth j u 0 / s * tau * fx) [0%nat; 1%nat; 2%nat]) 0 = - (tau * fx * / s * nth j u 0)) by (intros [|[|[|]]] Hj; try lia; cbn [map nth]; field; lra).
  split; [exact N|]. rewrite <- (sqrt_pow2 (tau * fx)) by now apply Rmult_le_pos. f_equal.
  assert (S2 : s ^ 2 = rsum (map (fun i => nth i u 0 ^ 2) (tangential_axes axis))) by apply tangential_speed_sqr.
  transitivity ((tau * fx * / s) ^ 2 * rsum (map (fun i => nth i u 0 ^ 2) (tangential_axes axis))).
  - destruct axis as [|[|[|]]]; [| | |lia]; cbn [tangential_axes seq filter Nat.eqb negb map]; rewrite !N by lia; rewrite !rsum_cons; change (rsum []) with 0; ring.
  - rewrite <- S2. field. lra.
Qed.
(* so friction never accelerates the fluid it was computed from *)
Theorem C47_friction_opposes : forall axis model target d rho u velocities stress, 0 <= rho -> length u = 3%nat -> (axis < 3)%nat ->
  wall_stress axis model target d rho u velocities = Some stress -> rsum (map (fun j => nth j stress 0 * nth j u 0) (tangential_axes axis)) <= 0.
Proof.
  intros axis model target d rho u vs stress Hr Lu Ha H. destruct (C47_stress _ _ _ _ _ _ _ _ Hr Lu Ha H) as (tau & fx & c & _ & _ & Hc & _ & N & _).
  assert (Hin : forall j, In j (tangential_axes axis) -> (j < 3)%nat) by (intros j Hj; apply filter_In in Hj as [Hj _]; apply in_seq in Hj; lia).
  induction (tangential_axes axis) as [|a l IH]; cbn [map]; [cbn; lra|]. rewrite rsum_cons, N by (apply Hin; now left). assert (rsum (map (fun j => nth j stress 0 * nth j u 0) l) <= 0) by (apply IH; intros; apply Hin; now right).
  pose proof (pow2_ge_0 (nth a u 0)). nra.
Qed.
(* at rest there is no wall stress at all: 0 / 0 *)
Theorem C47_rest_refuted : forall axis model target d rho u velocities, (forall j, In j (tangential_axes axis) -> nth j u 0 = 0) -> wall_stress axis model target d rho u velocities = None.
Proof.
  intros axis model target d rho u vs H. destruct (wall_stress _ _ _ _ _ _ _) eqn:E; [|reflexivity]. apply wall_stress_inv in E as (fx & tau & _ & _ & N & _). exfalso. apply N. now apply speed_zero.
Qed.
(* the centre of the k-th cell lies at (k - 1/2) dy; the distance used is that of dy = 1 only *)
Theorem C47_distance_refuted : forall k dy, wall_distance k dy = (k - 1 / 2) * dy <-> k = 0 \/ dy = 1.
Proof.
  intros k dy. unfold wall_distance. split.
  - intros H. assert (E : k * (1 - dy) = 0) by lra. apply Rmult_integral in E as [E|E]; [now left|right; lra].
  - intros [-> | ->]; ring.
Qed.
(* constructor *)
Theorem C47_create : forall Q mean sampling maronga normal axis, wfb_create Q mean sampling maronga normal = Ok axis <->
  (Q = 19%nat \/ Q = 27%nat) /\ (forall z, sampling = IntShift z -> (1 <= z)%Z) /\
  (maronga = None \/ maronga = Some (IntShift 0) \/ mean = true /\ sampling = IntShift 1 /\ (forall z, maronga = Some (IntShift z) -> (1 <= z)%Z)) /\
  exists s, (s = 1 \/ s = -1)%Z /\ (axis < length normal)%nat /\ normal = axis_vec (length normal) axis s.
Proof.
  intros Q mean sampling maronga normal axis. unfold wfb_create.
  assert (FA : free_slip_axis normal = Ok axis <-> exists s, (s = 1 \/ s = -1)%Z /\ (axis < length normal)%nat /\ normal = axis_vec (length normal) axis s).
  { split; [apply free_slip_axis_inv|]. intros (s & Hs & Ha & E). rewrite E. now apply free_slip_axis_ok. }
  rewrite <- FA. clear FA. destruct (Nat.eqb_spec Q 19) as [q1|q1], (Nat.eqb_spec Q 27) as [q2|q2]; cbn [orb negb]; try (split; [discriminate|intros ([?|?] & _); congruence]);
  (assert (SO : shift_ok sampling = true <-> (forall z, sampling = IntShift z -> (1 <= z)%Z)) by (destruct sampling; cbn; [rewrite Z.leb_le; split; [intros ? ? [= <-]; auto|auto]|split; [discriminate|reflexivity]]));
  (destruct (shift_ok sampling) eqn:E1; cbn [negb]; [|split; [discriminate|intros (_ & K & _); apply SO in K; discriminate]]);
  (assert (S1 : shift_is_one sampling = true <-> sampling = IntShift 1) by (destruct sampling; cbn; [rewrite Z.eqb_eq; split; [now intros ->|now intros [= ->]]|split; discriminate]));
  (assert (TM : truthy maronga = false <-> maronga = None \/ maronga = Some (IntShift 0)) by (destruct maronga as [[z|]|]; cbn; [destruct (Z.eqb_spec z 0); cbn; split; try discriminate; [intros _; right; congruence|auto|intros [?|[= ?]]; congruence]|split; [discriminate|intros [?|?]; discriminate]|tauto]));
  (assert (MO : match maronga with Some s => shift_ok s | None => true end = true <-> forall z, maronga = Some (IntShift z) -> (1 <= z)%Z) by (destruct maronga as [[z|]|]; cbn; [rewrite Z.leb_le; split; [intros ? ? [= <-]; auto|auto]|split; [discriminate|reflexivity]|split; [discriminate|reflexivity]]));
  destruct (truthy maronga) eqn:E2; cbn [andb];
  try (rewrite andb_false_r; split; [intros H; repeat split; auto; [now apply SO|]; destruct (proj1 TM eq_refl); auto|intros (_ & _ & _ & H); exact H]);
  destruct mean; cbn [negb]; destruct (match maronga with Some s => shift_ok s | None => true end) eqn:E3; cbn [negb]; destruct (shift_is_one sampling) eqn:E4; cbn [andb negb];
  try (split; [discriminate|intros (_ & _ & [K|[K|(K1 & K2 & K3)]] & _); try (rewrite K in TM; destruct TM as [_ TM]; discriminate TM; auto); first [discriminate K1 | apply MO in K3; discriminate | apply S1 in K2; discriminate]]);
  (split; [intros H; split; [auto|]; split; [now apply SO|]; split; [right; right; split; [reflexivity|]; split; [now apply S1|now apply MO]|exact H]|intros (_ & _ & _ & H); exact H]).
Qed.
(* southern wall, flow along x, Monin-Obukhov profile with d = z0 e: the stress is -(kappa u)^2 along x *)
Example C47_example : predefined_stencils "D3Q27"%string "walberla"%string = Ok D3Q27_walberla /\ wfb_create 27 false (IntShift 1) None [0; 1; 0]%Z = Ok 1%nat /\
  length (wall_links D3Q27_walberla [0; 1; 0]%Z) = 9%nat /\ wall_stress 1 (MOST 1 (2 / 5) 0) None (exp 1) 1 [3; 0; 0] None = Some [- (36 / 25); 0; 0].
Proof.
  split; [reflexivity|]. split; [reflexivity|]. split; [reflexivity|]. unfold wall_stress. cbn [maronga_factor obind].
  assert (E : tangential_speed 1 [3; 0; 0] = 3). { unfold tangential_speed. cbn [tangential_axes seq filter Nat.eqb negb map nth rsum]. replace (rsum [3 ^ 2; 0 ^ 2]) with (3 * 3) by (rewrite !rsum_cons; change (rsum []) with 0; ring). apply sqrt_square. lra. }
  rewrite E. cbn [shear_stress]. unfold most_stress, stress_component. pose proof (exp_pos 1). rewrite rdiv_ok by lra. cbn [obind]. rewrite rln_ok by lra. cbn [obind]. replace (exp 1 / 1 + 0) with (exp 1) by lra. rewrite ln_exp.
  rewrite !rdiv_ok by lra. cbn [obind nth]. apply f_equal. repeat apply f_equal2; try reflexivity; lra.
Qed.
Print Assumptions C46_derivative.
Print Assumptions C46_friction_velocity.
Print Assumptions C46_spalding.
Print Assumptions C46_log_law.
Print Assumptions C46_log_start_below.
Print Assumptions C46_log_start_refuted.
Print Assumptions C46_log_default.
Print Assumptions C46_musker_partial.
Print Assumptions C46_most.
Print Assumptions C46_most_undefined.
Print Assumptions C46_nonnegative.
Print Assumptions C46_zero_velocity_refuted.
Print Assumptions C47_momentum.
Print Assumptions C47_defined.
Print Assumptions C47_stress.
Print Assumptions C47_friction_opposes.
Print Assumptions C47_rest_refuted.
Print Assumptions C47_distance_refuted.
Print Assumptions C47_create.
