From Coq Require Import List ZArith Reals Lra Lia.
From Verif Require Import StencilModel RealLib RateModel RateSpec RateProofs RateProofs2.
Import ListNotations.
Local Open Scope R_scope.

(* C24: from a viscosity to a rate and back; defined for every viscosity but the pole -1/6 *)
Theorem C24_viscosity_round_trip nu : 6 * nu + 1 <> 0 ->
  exists w, relaxation_rate_from_lattice_viscosity nu = Some w /\ w <> 0 /\ viscosity w = nu /\
            lattice_viscosity_from_relaxation_rate w = Some nu.
Proof. exact (C24_rt1 nu). Qed.
Print Assumptions C24_viscosity_round_trip.

(* C24: from a rate to a viscosity and back *)
Theorem C24_rate_round_trip w : w <> 0 ->
  lattice_viscosity_from_relaxation_rate w = Some (viscosity w) /\
  relaxation_rate_from_lattice_viscosity (viscosity w) = Some w.
Proof. exact (C24_rt2 w). Qed.
Print Assumptions C24_rate_round_trip.

(* C24: positive viscosities are exactly the rates in (0, 2), and the map is strictly decreasing *)
Theorem C24_positive_viscosities nu w : relaxation_rate_from_lattice_viscosity nu = Some w ->
  (0 < nu <-> 0 < w < 2).
Proof. exact (rate_range nu w). Qed.
Print Assumptions C24_positive_viscosities.
Theorem C24_decreasing nu nu' w w' : 0 < nu -> nu < nu' ->
  relaxation_rate_from_lattice_viscosity nu = Some w ->
  relaxation_rate_from_lattice_viscosity nu' = Some w' -> w' < w.
Proof. exact (rate_decreasing nu nu' w w'). Qed.
Print Assumptions C24_decreasing.

(* C24: the second TRT rate realises the requested magic number, lies in (0, 2) and is the only such rate *)
Theorem C24_magic_number w m : 0 < w < 2 -> 0 < m ->
  exists w', relaxation_rate_from_magic_number w m = Some w' /\ 0 < w' < 2 /\ magic w w' = m.
Proof. exact (magic_rate w m). Qed.
Print Assumptions C24_magic_number.
Theorem C24_magic_unique w w1 w2 : 0 < w < 2 -> w1 <> 0 -> w2 <> 0 -> magic w w1 = magic w w2 -> w1 = w2.
Proof. exact (magic_unique w w1 w2). Qed.
Print Assumptions C24_magic_unique.

(* C24: refinement scaling multiplies the lattice viscosity by the level factor (constant physical viscosity
   when the cell size and the time step shrink by that factor), composes, and is the identity at 1 *)
Theorem C24_level_scaling w s : 0 < w < 2 -> 0 < s ->
  exists w', relaxation_rate_scaling w s = Some w' /\ 0 < w' < 2 /\ viscosity w' = s * viscosity w.
Proof. exact (C24_scal w s). Qed.
Print Assumptions C24_level_scaling.
Theorem C24_level_scaling_compose w s1 s2 w1 w2 : 0 < w < 2 -> 0 < s1 -> 0 < s2 ->
  relaxation_rate_scaling w s1 = Some w1 -> relaxation_rate_scaling w1 s2 = Some w2 ->
  relaxation_rate_scaling w (s1 * s2) = Some w2.
Proof. exact (scaling_compose w s1 s2 w1 w2). Qed.
Print Assumptions C24_level_scaling_compose.
Theorem C24_level_scaling_one w : relaxation_rate_scaling w 1 = Some w.
Proof. exact (scaling_one w). Qed.
Print Assumptions C24_level_scaling_one.

Example C24_ex : relaxation_rate_from_lattice_viscosity (1 / 6) = Some 1.
Proof. unfold relaxation_rate_from_lattice_viscosity. rewrite rdiv_ok by lra. f_equal. lra. Qed.

(* C25: after any sequence of attribute assignments the reported Reynolds number is the current one *)
Theorem C25_reynolds_number_current len vel visc cells calls :
  let s := fold_left apply_setter calls (mk_scaling len vel visc cells) in
  s_visc s <> 0 -> s_re s = Some (Re (s_len s) (s_vel s) (s_visc s)).
Proof. exact (C25_re len vel visc cells calls). Qed.
Print Assumptions C25_reynolds_number_current.

Definition positive_scaling (s : scaling) : Prop := 0 < s_len s /\ 0 < s_vel s /\ 0 < s_visc s /\ 0 < s_cells s.

(* C25: each scaling keeps the Reynolds number, and the three agree with each other *)
Theorem C25_fixed_lattice_velocity s u : positive_scaling s -> 0 < u ->
  exists w dt, fixed_lattice_velocity_scaling s u = Some (w, dt) /\ 0 < dt /\ 0 < w < 2 /\
    Re (s_cells s) u (viscosity w) = Re (s_len s) (s_vel s) (s_visc s) /\
    u = s_vel s * dt / (s_len s / s_cells s).
Proof. intros; apply C25_fixed; assumption. Qed.
Print Assumptions C25_fixed_lattice_velocity.
Theorem C25_diffusive s w : positive_scaling s -> 0 < w < 2 ->
  exists dt u, diffusive_scaling s w = Some (dt, u) /\ 0 < dt /\ 0 < u /\
    Re (s_cells s) u (viscosity w) = Re (s_len s) (s_vel s) (s_visc s) /\
    fixed_lattice_velocity_scaling s u = Some (w, dt) /\ acoustic_scaling s dt = Some (w, u).
Proof. intros; apply C25_diff; assumption. Qed.
Print Assumptions C25_diffusive.
Theorem C25_acoustic s dt : positive_scaling s -> 0 < dt ->
  exists w u, acoustic_scaling s dt = Some (w, u) /\ 0 < u /\ 0 < w < 2 /\
    Re (s_cells s) u (viscosity w) = Re (s_len s) (s_vel s) (s_visc s) /\
    fixed_lattice_velocity_scaling s u = Some (w, dt) /\ diffusive_scaling s w = Some (dt, u).
Proof. intros; apply C25_acou; assumption. Qed.
Print Assumptions C25_acoustic.

Example C25_ex : positive_scaling (mk_scaling 2 3 (1 / 100) 50).
Proof. unfold positive_scaling, mk_scaling; simpl; lra. Qed.

(* C26: Smagorinsky.  The adapted rate is defined for all populations, never exceeds the molecular rate,
   and its viscosity is the molecular plus the reported eddy viscosity C^2 |S|. *)
Theorem C26_smagorinsky D S c w rho fneq : 0 < w < 2 -> 0 < rho ->
  exists w' Pi, smagorinsky D S c w rho fneq = Some (w', Pi) /\ 0 < w' <= w /\
    viscosity w' = viscosity w + smagorinsky_eddy_viscosity c w' Pi /\
    smagorinsky_eddy_viscosity c w' Pi = c ^ 2 * strain_norm D S w' rho fneq.
Proof. exact (C26_smag D S c w rho fneq). Qed.
Print Assumptions C26_smagorinsky.

(* C26: QR model, whenever the non-equilibrium stress does not vanish *)
Theorem C26_qr_nonzero_stress D S c w rho fneq : D = 2%nat \/ D = 3%nat -> 0 < w < 2 -> 0 < rho -> 0 <= c ->
  (exists i j, (i < D)%nat /\ (j < D)%nat /\ stress S fneq i j <> 0) ->
  exists w' nu_e, qr_model D S c w rho fneq = Some (w', nu_e) /\ 0 <= nu_e /\ 0 < w' <= w /\
    viscosity w' = viscosity w + nu_e /\ nu_e = qr_eddy_viscosity D S c w' rho fneq.
Proof. exact (C26_qr_full D S c w rho fneq). Qed.
Print Assumptions C26_qr_nonzero_stress.

(* C26, finding: at equilibrium the QR rate is 0/0 *)
Theorem C26_qr_refuted D S c w rho n : qr_model D S c w rho (repeat 0 n) = None.
Proof. exact (qr_undefined D S c w rho n). Qed.
Print Assumptions C26_qr_refuted.

(* C26: Casson.  Whenever the rate is defined it respects the configured bounds. *)
Theorem C26_casson_bounds D S ys lo hi w rho fneq w' : lo <= hi ->
  cassons D S ys lo hi w rho fneq = Some w' -> lo <= w' <= hi.
Proof. exact (cassons_bounds D S ys lo hi w rho fneq w'). Qed.
Print Assumptions C26_casson_bounds.

(* C26: above the yield stress it is defined, and the unclamped viscosity mu obeys Casson's law
   sqrt mu = sqrt eta + sqrt (ys / gamma) with shear rate gamma = sigma / (mu + rho/6) *)
Theorem C26_casson_law D S ys lo hi w rho fneq :
  0 < w < 2 -> 0 < rho -> 0 <= ys < sqrt (sq_norm D (stress S fneq)) -> lo <= hi ->
  exists mu w', cassons_mu ys w rho (sqrt (sq_norm D (stress S fneq))) = Some mu /\
    cassons D S ys lo hi w rho fneq = Some w' /\ lo <= w' <= hi /\
    viscosity w <= mu /\
    sqrt mu = sqrt (viscosity w) + sqrt (ys / (sqrt (sq_norm D (stress S fneq)) / (mu + rho / 6))) /\
    (lo < w' < hi -> viscosity w' = mu).
Proof. exact (C26_casson_above D S ys lo hi w rho fneq). Qed.
Print Assumptions C26_casson_law.

(* C26, findings: far below the yield stress, and at equilibrium, the rate is undefined instead of clamped *)
Theorem C26_casson_refuted D S ys lo hi w rho fneq :
  0 < w < 2 -> 0 < rho -> 0 < sqrt (sq_norm D (stress S fneq)) ->
  ys > sqrt (sq_norm D (stress S fneq)) * (1 + 6 * viscosity w / rho) ->
  cassons D S ys lo hi w rho fneq = None.
Proof. exact (C26_casson_below D S ys lo hi w rho fneq). Qed.
Print Assumptions C26_casson_refuted.
Theorem C26_casson_equilibrium_refuted D S ys lo hi w rho n : cassons D S ys lo hi w rho (repeat 0 n) = None.
Proof. exact (cassons_at_rest D S ys lo hi w rho n). Qed.
Print Assumptions C26_casson_equilibrium_refuted.

(* C26, finding: an explicit model constant of 0 (model switched off) is replaced by the default *)
Theorem C26_zero_constant_refuted default : default <> 0 -> sgs_constant (Some 0) default <> 0.
Proof. unfold sgs_constant. destruct (Req_EM_T 0 0); congruence. Qed.
Print Assumptions C26_zero_constant_refuted.

(* the hypotheses are met: D2Q9 with a unit non-equilibrium population on one axis direction *)
Example C26_ex_stress : stress D2Q9_walberla [0; 1; 0; 0; 0; 0; 0; 0; 0] 1 1 <> 0.
Proof. unfold stress, rsum. simpl. lra. Qed.
Example C26_ex_casson : 0 <= 1 / 2 < sqrt (sq_norm 2 (stress D2Q9_walberla [0; 1; 0; 0; 0; 0; 0; 0; 0])).
Proof.
  split; [lra|]. replace (sq_norm 2 _) with 1; [rewrite sqrt_1; lra|].
  unfold sq_norm, stress, rsum. simpl. lra.
Qed.
