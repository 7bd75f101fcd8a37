(* C40: the phase-field helpers satisfy their defining equations *)
From Coq Require Import String List ZArith Bool Arith Lia Reals Lra.
From Verif Require Import StencilModel RealLib LinLib PhaseModel PhaseSpec PhaseProofs EnergyModel EnergySpec EnergyProofs EnergyProofs2 EnergyProofs3 EnergyProofs4 EnergyProofs5 EnergyProofs6.
Import ListNotations.
Local Open Scope R_scope.

(* ---- contact angle ---- *)
(* The value written into the wall cell solves the wetting condition and puts the value on the wall into [0, 1], for every angle, width, direction and
   phase value.  It is the only such value, and itself in [0, 1], when the wall strength is at most one. *)
Theorem C40_contact_angle : forall W theta dir phi x, W <> 0 -> cell_distance dir <> 0 -> 0 <= phi <= 1 ->
  1 / 1000000 < strength W theta dir * strength W theta dir -> contact_angle 0 W theta dir phi = Ok x ->
  exists value, x = Some value /\ wetting_residual W theta dir value phi = 0 /\ 0 <= (value + phi) / 2 <= 1 /\
    (-1 <= strength W theta dir <= 1 -> 0 <= value <= 1 /\
       forall other, 0 <= (other + phi) / 2 <= 1 -> wetting_residual W theta dir other phi = 0 -> other = value).
Proof.
  intros W theta dir phi x HW HD HP HS H. destruct (contact_exact W theta dir phi x HW HD HP HS H) as (v & Hx & Hr & Hm & Hv). exists v. split; [exact Hx|]. split; [exact Hr|]. split; [exact Hm|].
  intros B. split; [now apply Hv|]. intros o Ho Eo. now apply (contact_unique W theta dir phi).
Qed.
Print Assumptions C40_contact_angle.
(* Near 90 degrees the fluid value is copied; the wetting condition then holds up to 1/2000 per cell *)
Theorem C40_contact_neutral : forall W theta dir phi, W <> 0 -> cell_distance dir <> 0 -> 0 <= phi <= 1 -> strength W theta dir * strength W theta dir <= 1 / 1000000 ->
  contact_angle 0 W theta dir phi = Ok (Some phi) /\ Rabs (wetting_residual W theta dir phi phi) <= 1 / 2000 / cell_distance dir.
Proof. exact contact_copy. Qed.
Print Assumptions C40_contact_neutral.
(* always a value or an exception, which one depends on the arguments only *)
Theorem C40_contact_errors : forall k W theta dir phi,
  (W = 0 -> contact_angle k W theta dir phi = Err ZeroDivisionError) /\
  (W <> 0 -> k <> 0%nat -> contact_angle k W theta dir phi = Err NotImplementedError) /\
  (W <> 0 -> k = 0%nat -> exists x, contact_angle k W theta dir phi = Ok x).
Proof.
  intros k W theta dir phi. split; [|split].
  - intros ->. unfold contact_angle, pdiv. destruct (Req_EM_T 0 0); [reflexivity|contradiction].
  - intros HW Hk. rewrite contact_eq by exact HW. destruct k; [contradiction|reflexivity].
  - intros HW ->. rewrite contact_eq by exact HW. cbn zeta. destruct (Rle_dec _ _); eauto.
Qed.
Print Assumptions C40_contact_errors.
(* with a thin interface the value leaves [0, 1] *)
Theorem C40_contact_range_refuted : exists W theta dir phi value, W <> 0 /\ cell_distance dir <> 0 /\ 0 <= phi <= 1 /\ contact_angle 0 W theta dir phi = Ok (Some value) /\ value < 0.
Proof.
  exists (1 / 2), 180, [1%Z], (1 / 2), (- ((1 + 4 - sqrt 17) / 4) + 0 + (1 + 4 - sqrt 17) / 4 + ((1 + 4 - sqrt 17) / 4 - 1 / 2)).
  assert (D : cell_distance [1%Z] = 1) by (unfold cell_distance, rsum; cbn [map fold_right]; replace (1 * 1 + 0) with 1 by ring; apply sqrt_1).
  assert (C : cos (degrees 180) = -1) by (unfold degrees; replace (180 * PI / 180) with PI by field; apply cos_PI).
  assert (S : strength (1 / 2) 180 [1%Z] = 4) by (unfold strength; rewrite D, C; field).
  split; [lra|]. split; [lra|]. split; [lra|]. split.
  - rewrite contact_eq by lra. cbn zeta. rewrite S. destruct (Rle_dec _ _); [lra|]. rewrite rsqrt_ok by lra. cbn [obind]. f_equal. f_equal.
    replace ((1 + 4) * (1 + 4) - 4 * 4 * (1 / 2)) with 17 by field. lra.
  - assert (4 < sqrt 17); [|lra]. replace 4 with (sqrt 16) by (replace 16 with (4 * 4) by ring; apply sqrt_square; lra). apply sqrt_lt_1; lra.
Qed.
Print Assumptions C40_contact_range_refuted.
Example C40_contact_example : exists x, contact_angle 0 5 60 [1; 0]%Z (1 / 2) = Ok x /\ cell_distance [1; 0]%Z <> 0 /\ 1 / 1000000 < strength 5 60 [1; 0]%Z * strength 5 60 [1; 0]%Z /\ -1 <= strength 5 60 [1; 0]%Z <= 1.
Proof.
  assert (D : cell_distance [1; 0]%Z = 1) by (unfold cell_distance, rsum; cbn [map fold_right]; replace (1 * 1 + (0 * 0 + 0)) with 1 by ring; apply sqrt_1).
  assert (C : cos (degrees 60) = 1 / 2) by (unfold degrees; replace (60 * PI / 180) with (PI / 3) by field; apply cos_PI3).
  assert (S : strength 5 60 [1; 0]%Z = - (1 / 5)) by (unfold strength; rewrite D, C; field). rewrite S, D.
  destruct (C40_contact_errors 0 5 60 [1; 0]%Z (1 / 2)) as (_ & _ & H). destruct (H ltac:(lra) eq_refl) as (x & Hx). exists x. split; [exact Hx|]. split; [lra|]. split; lra.
Qed.

(* ---- parameters ---- *)
(* The properties derived from the parameters: the relaxation rate gives the interpolated viscosity, the rate of the phase field the mobility;
   the coefficients of the free energy give the surface tension and the interface thickness back *)
Theorem C40_relaxation_rates : forall p phi, 0 < density_heavy p -> 0 < density_light p -> 0 < dynamic_viscosity_heavy p -> 0 < dynamic_viscosity_light p -> 0 <= phi <= 1 ->
  exists w, omega p phi = Ok w /\
    viscosity_of_rate w = (1 - phi) * (dynamic_viscosity_light p / density_light p) + phi * (dynamic_viscosity_heavy p / density_heavy p) /\ 0 < w < 2.
Proof.
  intros p phi H1 H2 H3 H4 H5. unfold omega, relaxation_time_light, relaxation_time_heavy, kinematic_viscosity_light, kinematic_viscosity_heavy.
  rewrite !pdiv_ok by lra. cbn [rbind]. set (nh := dynamic_viscosity_heavy p / density_heavy p). set (nl := dynamic_viscosity_light p / density_light p).
  assert (0 < nh) by (apply Rdiv_lt_0_compat; assumption). assert (0 < nl) by (apply Rdiv_lt_0_compat; assumption).
  assert (A : 0 <= phi * nh) by (apply Rmult_le_pos; lra). assert (B : 0 <= (1 - phi) * nl) by (apply Rmult_le_pos; lra).
  assert (AB : 0 < phi * nh + (1 - phi) * nl). { destruct (Req_dec phi 0) as [->|]; [lra|]. assert (0 < phi * nh) by (apply Rmult_lt_0_compat; lra). lra. }
  assert (P : / 2 < / 2 + 3 * nl + phi * (3 * nh - 3 * nl)) by lra. rewrite pdiv_ok by lra. eexists. split; [reflexivity|]. split; [unfold viscosity_of_rate; field; lra|].
  split; [apply Rdiv_lt_0_compat; lra|]. apply (Rmult_lt_reg_r (/ 2 + 3 * nl + phi * (3 * nh - 3 * nl))); [lra|]. replace (1 / (/ 2 + 3 * nl + phi * (3 * nh - 3 * nl)) * (/ 2 + 3 * nl + phi * (3 * nh - 3 * nl))) with 1 by (field; lra). lra.
Qed.
Print Assumptions C40_relaxation_rates.
Theorem C40_mobility_rate : forall p, 0 < mobility p -> exists w, omega_phi p = Ok w /\ viscosity_of_rate w = mobility p /\ 0 < w < 2.
Proof.
  intros p H. unfold omega_phi. rewrite pdiv_ok by lra. eexists. split; [reflexivity|]. split; [unfold viscosity_of_rate; field; lra|]. split; [apply Rdiv_lt_0_compat; lra|].
  apply (Rmult_lt_reg_r (/ 2 + 3 * mobility p)); [lra|]. replace (1 / (/ 2 + 3 * mobility p) * (/ 2 + 3 * mobility p)) with 1 by (field; lra). lra.
Qed.
Print Assumptions C40_mobility_rate.
Theorem C40_interface_coefficients : forall p, 0 < surface_tension p -> 0 < interface_thickness p ->
  exists b, beta p = Ok b /\ sqrt (2 * kappa p * b) / 6 = surface_tension p /\ sqrt (8 * kappa p / b) = interface_thickness p.
Proof.
  intros p Hs Hw. unfold beta, kappa. rewrite pdiv_ok by lra. cbn [rbind]. eexists. split; [reflexivity|]. set (s := surface_tension p) in *. set (W := interface_thickness p) in *. split.
  - replace (2 * (3 / 2 * s * W) * (12 * (s / W))) with ((6 * s) * (6 * s)) by (field; lra). rewrite sqrt_square by lra. field.
  - replace (8 * (3 / 2 * s * W) / (12 * (s / W))) with (W * W) by (field; lra). apply sqrt_square. lra.
Qed.
Print Assumptions C40_interface_coefficients.
(* The map of symbols and values has exactly the parameters *)
Theorem C40_parameter_map : forall p m, parameter_map p = Ok m ->
  map fst m = ["rho_H"; "rho_L"; "tau_H"; "tau_L"; "omega_phi"; "F_g"; "W"; "M_m"; "sigma"]%string /\
  forall name v, In (name, v) m <->
    (name = "rho_H" /\ v = density_heavy p \/ name = "rho_L" /\ v = density_light p \/ name = "tau_H" /\ v = 3 * (dynamic_viscosity_heavy p / density_heavy p) \/
     name = "tau_L" /\ v = 3 * (dynamic_viscosity_light p / density_light p) \/ name = "omega_phi" /\ omega_phi p = Ok v \/ name = "F_g" /\ v = gravitational_acceleration p \/
     name = "W" /\ v = interface_thickness p \/ name = "M_m" /\ v = mobility p \/ name = "sigma" /\ v = surface_tension p)%string.
Proof.
  intros p m H. unfold parameter_map, relaxation_time_heavy, relaxation_time_light, kinematic_viscosity_heavy, kinematic_viscosity_light in H.
  destruct (pdiv (dynamic_viscosity_heavy p) _) as [nh|] eqn:E1; [|discriminate]. destruct (pdiv (dynamic_viscosity_light p) _) as [nl|] eqn:E2; [|discriminate].
  destruct (omega_phi p) as [o|] eqn:E3; [|discriminate]. cbn [rbind] in H. injection H as <-. apply pdiv_inv in E1, E2. destruct E1 as [_ ->]. destruct E2 as [_ ->].
  split; [reflexivity|]. intros name v. cbn [In]. split.
  - intros H. repeat (destruct H as [H|H]; [injection H as <- <-; tauto|]). destruct H.
  - intros H. repeat (destruct H as [H|H]; [destruct H as [-> H]; try (injection H as <-); try rewrite H; tauto|]). destruct H as [-> ->]. tauto.
Qed.
Print Assumptions C40_parameter_map.

(* Rayleigh-Taylor instability: the parameters have the given dimensionless numbers *)
Theorem C40_rti : forall L T rho Ca Re At Pe dr vr, 0 < L -> 0 < T -> 0 < rho -> 0 < Ca -> 0 < Re -> 0 < At -> 0 < Pe -> 0 < dr -> 0 < vr ->
  exists p, calculate_parameters_rti L T rho Ca Re At Pe dr vr = Ok p /\
  let g := - gravitational_acceleration p in let u := sqrt (g * L) in
  0 < g /\ T = sqrt (L / (g * At)) /\ density_heavy p = rho /\ Reynolds (density_heavy p) u L (dynamic_viscosity_heavy p) = Re /\
  Capillary (dynamic_viscosity_heavy p) u (surface_tension p) = Ca /\ Peclet u L (mobility p) = Pe /\
  density_heavy p / density_light p = dr /\ dynamic_viscosity_heavy p / dynamic_viscosity_light p = vr /\ interface_thickness p = 5.
Proof. intros. destruct (rti_succeeds L T rho Ca Re At Pe dr vr) as (p & Hp); try assumption. exists p. split; [exact Hp|]. now apply (rti_numbers L T rho Ca Re At Pe dr vr p). Qed.
Print Assumptions C40_rti.
(* "calculates the simulation parameters": the Atwood number of the two densities is the one of the density ratio, whatever is passed *)
Theorem C40_rti_atwood_refuted : forall L T rho Ca Re At Pe dr vr p, 0 < L -> 0 < T -> 0 < rho -> 0 < Ca -> 0 < Re -> 0 < At -> 0 < Pe -> 0 < dr -> 0 < vr ->
  calculate_parameters_rti L T rho Ca Re At Pe dr vr = Ok p -> Atwood (density_heavy p) (density_light p) = (dr - 1) / (dr + 1).
Proof.
  intros L T rho Ca Re At Pe dr vr p H1 H2 H3 H4 H5 H6 H7 H8 H9 H. pose proof (rti_numbers L T rho Ca Re At Pe dr vr p H1 H2 H3 H4 H5 H6 H7 H8 H9 H) as (_ & _ & Hr & _ & _ & _ & Hd & _).
  assert (N : density_light p <> 0). { intros Z. rewrite Z in Hd. unfold Rdiv in Hd. rewrite Rinv_0, Rmult_0_r in Hd. lra. }
  assert (E : density_heavy p = dr * density_light p) by (rewrite <- Hd; field; exact N). unfold Atwood. rewrite E. field. split; [lra|]. replace (dr * density_light p + density_light p) with ((dr + 1) * density_light p) by ring. apply Rmult_integral_contrapositive_currified; [lra|exact N].
Qed.
Print Assumptions C40_rti_atwood_refuted.
(* with the default arguments atwood = 0.5 and density_ratio = 3 the two agree *)
Example C40_rti_example : exists p, calculate_parameters_rti 256 16000 1 (26 / 100) 3000 (1 / 2) 1000 3 1 = Ok p /\ Atwood (density_heavy p) (density_light p) = 1 / 2.
Proof.
  destruct (C40_rti 256 16000 1 (26 / 100) 3000 (1 / 2) 1000 3 1) as (p & Hp & _); try lra. exists p. split; [exact Hp|].
  rewrite (C40_rti_atwood_refuted 256 16000 1 (26 / 100) 3000 (1 / 2) 1000 3 1 p) by (assumption || lra). lra.
Qed.
Theorem C40_rti_errors : forall L T rho Ca Re At Pe dr vr,
  (T = 0 \/ At = 0 -> calculate_parameters_rti L T rho Ca Re At Pe dr vr = Err ZeroDivisionError) /\
  (L <> 0 -> T <> 0 -> At < 0 -> calculate_parameters_rti L T rho Ca Re At Pe dr vr = Err ValueError).
Proof.
  intros. split.
  - intros H. unfold calculate_parameters_rti, pdiv at 1. destruct (Req_EM_T (T ^ 2 * At) 0) as [|N]; [reflexivity|]. exfalso. apply N. destruct H as [->| ->]; ring.
  - intros HL HT HA. assert (P : 0 < T ^ 2) by (assert (0 < T * T) by (apply Rsqr_pos_lt; exact HT); lra). assert (PL : 0 < L * L) by (apply Rsqr_pos_lt; exact HL).
    assert (N : T ^ 2 * At < 0) by (assert (0 < T ^ 2 * - At) by (apply Rmult_lt_0_compat; lra); lra).
    unfold calculate_parameters_rti. rewrite pdiv_ok by lra. cbn [rbind]. unfold psqrt at 1. destruct (Rlt_dec _ 0) as [|C]; [reflexivity|]. exfalso. apply C.
    replace (L / (T ^ 2 * At) * L) with (- (L * L / (T ^ 2 * - At))) by (field; split; lra). assert (0 < L * L / (T ^ 2 * - At)) by (apply Rdiv_lt_0_compat; lra). lra.
Qed.
Print Assumptions C40_rti_errors.
(* Rising bubble *)
Theorem C40_rising_bubble : forall T rho r Bo Re dr vr, 0 < T -> 0 < rho -> 0 < r -> 0 < Bo -> 0 < Re -> 1 < dr -> 0 < vr ->
  exists p, calculate_dimensionless_rising_bubble T rho r Bo Re dr vr = Ok p /\
  let g := - gravitational_acceleration p in let d := 2 * r in
  0 < g /\ T = sqrt (d / g) /\ density_heavy p = rho /\ Reynolds (density_heavy p) (sqrt (g * d)) d (dynamic_viscosity_heavy p) = Re /\
  Bond (density_heavy p - density_light p) g d (surface_tension p) = Bo /\
  density_heavy p / density_light p = dr /\ dynamic_viscosity_heavy p / dynamic_viscosity_light p = vr /\ mobility p = / 5 /\ interface_thickness p = 5.
Proof. intros. destruct (bubble_succeeds T rho r Bo Re dr vr) as (p & Hp); try assumption. exists p. split; [exact Hp|]. now apply (bubble_numbers T rho r Bo Re dr vr p). Qed.
Print Assumptions C40_rising_bubble.
(* Taylor bubble: inverse viscosity number, Bond number and viscosity ratio of water and air in the annular tube *)
Theorem C40_taylor_bubble : forall L T rho outer inner p, 0 < L -> 0 < T -> 0 < inner < outer -> air_rho / water_rho < rho ->
  calculate_parameters_taylor_bubble L T rho outer inner = Ok p ->
  let g := - gravitational_acceleration p in let d := L - L * inner / outer in
  0 < g /\ T = sqrt (d / g) /\ density_heavy p = rho /\ density_light p = air_rho / water_rho /\
  InverseViscosity (density_heavy p) (density_light p) g d (dynamic_viscosity_heavy p) = InverseViscosity water_rho air_rho gravity (outer - inner) water_mu /\
  Bond (density_heavy p - density_light p) g d (surface_tension p) = Bond (water_rho - air_rho) gravity (outer - inner) water_air_tension /\
  dynamic_viscosity_heavy p / dynamic_viscosity_light p = water_mu / air_mu.
Proof. exact taylor_numbers. Qed.
Print Assumptions C40_taylor_bubble.
Theorem C40_taylor_succeeds : forall L T rho outer inner, 0 < L -> 0 < T -> 0 < inner < outer -> air_rho / water_rho < rho -> exists p, calculate_parameters_taylor_bubble L T rho outer inner = Ok p.
Proof.
  intros L T rho outer inner HL HT HD Hr. assert (R0 : 0 < air_rho / water_rho) by (apply Rdiv_lt_0_compat; unfold air_rho, water_rho; lra). assert (RM : 0 < water_mu / air_mu) by (apply Rdiv_lt_0_compat; unfold water_mu, air_mu; lra). unfold calculate_parameters_taylor_bubble. rewrite pdiv_ok by lra. cbn [rbind].
  assert (F : 0 < (outer - inner) ^ 3) by (apply pow_lt; lra). assert (F2 : 0 < (outer - inner) ^ 2) by (apply pow_lt; lra).
  assert (A : 0 < (water_rho - air_rho) * water_rho * gravity * (outer - inner) ^ 3) by (repeat apply Rmult_lt_0_compat; unfold water_rho, air_rho, gravity; lra).
  assert (B : 0 < (water_rho - air_rho) * gravity * (outer - inner) ^ 2) by (repeat apply Rmult_lt_0_compat; unfold water_rho, air_rho, gravity; lra).
  rewrite psqrt_ok by lra. cbn [rbind]. assert (M : 0 < water_mu) by (unfold water_mu; lra). rewrite pdiv_ok by lra. cbn [rbind]. assert (S : 0 < water_air_tension) by (unfold water_air_tension; lra). rewrite pdiv_ok by lra. cbn [rbind].
  assert (Q : 0 < outer / inner) by (apply Rdiv_lt_0_compat; lra). rewrite pdiv_ok by lra. cbn [rbind].
  assert (T2 : 0 < T ^ 2) by (apply pow_lt; lra). rewrite pdiv_ok by lra. cbn [rbind].
  assert (DF : 0 < L - L / (outer / inner)). { replace (L - L / (outer / inner)) with (L * ((outer - inner) / outer)) by (field; lra). apply Rmult_lt_0_compat; [exact HL|]. apply Rdiv_lt_0_compat; lra. }
  assert (RL : 1 / (water_rho / air_rho) = air_rho / water_rho) by (unfold water_rho, air_rho; field). rewrite RL.
  rewrite psqrt_ok. 2:{ apply Rlt_le. apply Rmult_lt_0_compat; [apply Rmult_lt_0_compat; lra|]. apply Rmult_lt_0_compat; [apply Rdiv_lt_0_compat; lra|apply pow_lt; lra]. }
  cbn [rbind]. rewrite pdiv_ok. 2:{ apply Rgt_not_eq, Rdiv_lt_0_compat; [now apply sqrt_lt_R0|exact M]. }
  cbn [rbind]. rewrite pdiv_ok by (apply Rgt_not_eq; exact RM). cbn [rbind]. rewrite pdiv_ok; [cbn [rbind]; eauto|]. apply Rgt_not_eq, Rdiv_lt_0_compat; assumption.
Qed.
Print Assumptions C40_taylor_succeeds.
(* The density ratio is the one of water and air for density_heavy = 1 only *)
Theorem C40_taylor_density_refuted : forall L T rho outer inner p, 0 < L -> 0 < T -> 0 < inner < outer -> air_rho / water_rho < rho ->
  calculate_parameters_taylor_bubble L T rho outer inner = Ok p -> (density_heavy p / density_light p = water_rho / air_rho <-> rho = 1).
Proof.
  intros L T rho outer inner p HL HT HD Hr H. pose proof (taylor_numbers L T rho outer inner p HL HT HD Hr H) as (_ & _ & E1 & E2 & _). rewrite E1, E2. unfold air_rho, water_rho.
  split; [|intros ->; field]. intros E. replace (rho / (12047 / 10000 / 998)) with (rho * (998 / (12047 / 10000))) in E by field. assert (P : 998 / (12047 / 10000) <> 0) by (apply Rgt_not_eq, Rdiv_lt_0_compat; lra). apply (Rmult_eq_reg_r (998 / (12047 / 10000))); [lra|exact P].
Qed.
Print Assumptions C40_taylor_density_refuted.
(* Droplet migration *)
Theorem C40_droplet_migration : forall R0 Re Ca Ma Pe vr hr W sref height t, 0 < R0 -> 0 < Re -> 0 < Ca -> 0 < Ma -> 0 < Pe -> 0 < vr -> 0 < hr -> 0 < W -> 0 < sref ->
  calculate_parameters_droplet_migration R0 Re Ca Ma Pe vr hr W sref height = Ok t ->
  let u := sqrt (Re * Ca * sref / R0) in let p := base t in
  0 < u /\ Reynolds (density_heavy p) u R0 (dynamic_viscosity_heavy p) = Re /\ Capillary (dynamic_viscosity_heavy p) u sref = Ca /\
  Marangoni u R0 (heat_conductivity_heavy t) = Ma /\ Peclet u W (mobility p) = Pe /\
  dynamic_viscosity_heavy p / dynamic_viscosity_light p = vr /\ heat_conductivity_heavy t / heat_conductivity_light t = hr /\
  velocity_wall t = u / R0 * (match height with None => 2 * R0 | Some h => h end) /\ IZR (reference_time t) <= R0 / u < IZR (reference_time t) + 1.
Proof.
  intros R0 Re Ca Ma Pe vr hr W sref height t H1 H2 H3 H4 H5 H6 H7 H8 H9 H. pose proof (droplet_numbers R0 Re Ca Ma Pe vr hr W sref height t H1 H2 H3 H4 H5 H6 H7 H8 H9 H) as D. cbv zeta in *. tauto.
Qed.
Print Assumptions C40_droplet_migration.
(* The interface width and the reference tension do not reach the parameters: with the returned values the numbers are off unless they are the defaults *)
Theorem C40_droplet_width_refuted : forall R0 Re Ca Ma Pe vr hr W sref height t, 0 < R0 -> 0 < Re -> 0 < Ca -> 0 < Ma -> 0 < Pe -> 0 < vr -> 0 < hr -> 0 < W -> 0 < sref ->
  calculate_parameters_droplet_migration R0 Re Ca Ma Pe vr hr W sref height = Ok t ->
  let u := sqrt (Re * Ca * sref / R0) in let p := base t in
  (Peclet u (interface_thickness p) (mobility p) = Pe <-> W = 5) /\ (Capillary (dynamic_viscosity_heavy p) u (sigma_ref t) = Ca <-> sref = 5 / 1000).
Proof.
  intros R0 Re Ca Ma Pe vr hr W sref height t H1 H2 H3 H4 H5 H6 H7 H8 H9 H. pose proof (droplet_numbers R0 Re Ca Ma Pe vr hr W sref height t H1 H2 H3 H4 H5 H6 H7 H8 H9 H) as D. cbv zeta in *.
  destruct D as (Pu & _ & EC & _ & EP & _ & _ & _ & _ & ET & ES & _). set (u := sqrt _) in *. rewrite ET, ES. unfold Peclet, Capillary in *.
  assert (M : mobility (base t) <> 0). { intros Z. rewrite Z in EP. unfold Rdiv in EP. rewrite Rinv_0, Rmult_0_r in EP. lra. }
  assert (E1 : u * W = Pe * mobility (base t)) by (rewrite <- EP; field; exact M). assert (E2 : dynamic_viscosity_heavy (base t) * u = Ca * sref) by (rewrite <- EC; field; lra). split; split.
  - intros E. assert (u * 5 = Pe * mobility (base t)) by (rewrite <- E; field; exact M). apply (Rmult_eq_reg_l u); lra.
  - intros ->. rewrite E1. field. exact M.
  - intros E. rewrite E2 in E. apply (Rmult_eq_reg_l Ca); [|lra]. apply (Rmult_eq_reg_r (/ (5 / 1000))); [|lra]. replace (Ca * sref * / (5 / 1000)) with (Ca * sref / (5 / 1000)) by reflexivity. rewrite E. field.
  - intros ->. rewrite E2. field.
Qed.
Print Assumptions C40_droplet_width_refuted.
Theorem C40_droplet_succeeds : forall R0 Re Ca Ma Pe vr hr W sref height, 0 < R0 -> 0 < Re -> 0 < Ca -> 0 < Ma -> 0 < Pe -> 0 < vr -> 0 < hr -> 0 < W -> 0 < sref ->
  exists t, calculate_parameters_droplet_migration R0 Re Ca Ma Pe vr hr W sref height = Ok t.
Proof.
  intros R0 Re Ca Ma Pe vr hr W sref height H1 H2 H3 H4 H5 H6 H7 H8 H9. unfold calculate_parameters_droplet_migration. rewrite pdiv_ok by lra. cbn [rbind].
  assert (P : 0 < Re * Ca * sref / R0) by (apply Rdiv_lt_0_compat; [repeat apply Rmult_lt_0_compat; lra|lra]). rewrite psqrt_ok by lra. cbn [rbind].
  repeat (rewrite pdiv_ok by lra; cbn [rbind]). rewrite pdiv_ok; [cbn [rbind]; eauto|]. assert (0 < sqrt (Re * Ca * sref / R0) / R0) by (apply Rdiv_lt_0_compat; [now apply sqrt_lt_R0|lra]). lra.
Qed.
Print Assumptions C40_droplet_succeeds.

(* ---- free energies ---- *)
Definition symmetric_tension (tau : nat -> nat -> R) (n : nat) : Prop := (forall i j, tau i j = tau j i) /\ forall i, (i <= n)%nat -> tau i i = 0.
(* n + 1 phases: the energy density of a pure phase is zero, for both shapes of the bulk functions, all tensions and triple point energies *)
Theorem C40_pure_phases : forall tau eta f1 f2 triple n a e, (a <= n)%nat -> f1 0 = 0 -> f1 1 = 0 -> f2 0 = 0 -> f2 1 = 0 ->
  energy_n_phases tau eta f1 f2 triple true true (pure n a) (zero_gradient n) = Ok e -> e = 0.
Proof.
  intros tau eta f1 f2 triple n a e Ha H1 H2 H3 H4 H. unfold energy_n_phases in H. destruct (forallb _ _); [|discriminate]. injection H as <-.
  rewrite all_pure by exact Ha. rewrite f_bulk_pure by assumption. rewrite f_interface_zero. lra.
Qed.
Print Assumptions C40_pure_phases.
Theorem C40_correction_functions : forall beta power, n_phases_correction_function beta power 0 = 0 /\ n_phases_correction_function beta power 1 = 0 /\
  n_phases_correction_function_sign_switch beta 0 = 0 /\ n_phases_correction_function_sign_switch beta 1 = 0 /\
  forall c, 0 <= c <= 1 -> n_phases_correction_function beta power c = double_well c /\ n_phases_correction_function_sign_switch beta c = double_well c.
Proof.
  intros. destruct (correction_pure beta power), (sign_switch_pure beta). repeat (split; [assumption|]). intros c Hc. unfold n_phases_correction_function, n_phases_correction_function_sign_switch.
  destruct (Rlt_dec c 0); [lra|]. destruct (Rlt_dec 1 c); [lra|]. auto.
Qed.
Print Assumptions C40_correction_functions.
(* a surface tension of a phase with itself is rejected *)
Theorem C40_diagonal : forall tau eta f1 f2 triple bulk interface phi grad,
  ((exists e, energy_n_phases tau eta f1 f2 triple bulk interface phi grad = Ok e) <-> forall i, (i < length phi)%nat -> tau i i = 0) /\
  ((exists i, (i < length phi)%nat /\ tau i i <> 0) -> energy_n_phases tau eta f1 f2 triple bulk interface phi grad = Err AssertionError).
Proof.
  intros. unfold energy_n_phases. assert (E : forallb (fun l => if Req_EM_T (tau l l) 0 then true else false) (seq 0 (length phi)) = true <-> forall i, (i < length phi)%nat -> tau i i = 0).
  { rewrite forallb_forall. split; intros H i Hi; [specialize (H i)|]. { rewrite in_seq in H. specialize (H ltac:(lia)). now destruct (Req_EM_T (tau i i) 0). }
    apply in_seq in Hi. rewrite H by lia. now destruct (Req_EM_T 0 0). }
  destruct (forallb _ _).
  - split; [split; [intros _; now apply E|eauto]|]. intros (i & Hi & N). exfalso. apply N. now apply E.
  - split; [split; [intros (e & H); discriminate|intros H; apply E in H; discriminate]|reflexivity].
Qed.
Print Assumptions C40_diagonal.
(* Two phases, the rest absent: the energy is the double well and the squared gradient of the concentration, weighted by their tension only *)
Theorem C40_two_phase_energy : forall tau eta n a b c g, 0 < eta -> symmetric_tension tau n -> (a <= n)%nat -> (b <= n)%nat -> a <> b ->
  energy_n_phases tau eta double_well double_well 0 true true (mix n a b c) (mix_gradient n a b g) = Ok (3 * tau a b * (double_well c / eta + eta * g ^ 2)).
Proof.
  intros tau eta n a b c g He [HS HD] Ha Hb Hab. destruct (energy_ok tau eta n a b Ha Hb Hab HD true true (mix n a b c) (mix_gradient n a b g) (mix_length n a b c)) as (e & E & Ee).
  rewrite E. f_equal. rewrite Ee. now apply energy_two.
Qed.
Print Assumptions C40_two_phase_energy.
(* The analytic profile between any two of the phases is stationary: all chemical potentials vanish *)
Theorem C40_profile_stationary : forall tau eta n a b k F dc, 0 < eta -> symmetric_tension tau n -> (a <= n)%nat -> (b <= n)%nat -> a <> b -> (k < n)%nat ->
  (forall phi grad, length phi = n -> energy_n_phases tau eta double_well double_well 0 true true phi grad = Ok (F phi grad)) ->
  (forall x, derivable_pt_lim (analytic_interface_profile eta) x (dc x)) ->
  stationary F (fun x => mix n a b (analytic_interface_profile eta x)) (fun x => mix_gradient n a b (dc x)) k.
Proof.
  intros tau eta n a b k F dc He [HS HD] Ha Hb Hab Hk HF Hdc.
  assert (E : forall phi grad, length phi = n -> F phi grad = density tau eta n phi grad).
  { intros phi grad L. destruct (energy_ok tau eta n a b Ha Hb Hab HD true true phi grad L) as (e & E & Ee). rewrite HF in E by exact L. injection E as E. rewrite E, Ee. reflexivity. }
  destruct (stationary_profile tau eta He HS n a b Ha Hb Hab HD k dc Hk Hdc) as (A & B & H). exists A, B. intros x. destruct (H x) as (H1 & H2 & H3). split; [|split; [|exact H3]].
  - eapply dlim_ext; [|exact H1]. intros t. symmetry. apply E. now rewrite shift_length, mix_length.
  - eapply dlim_ext; [|exact H2]. intros t. symmetry. apply E. now rewrite mix_length.
Qed.
Print Assumptions C40_profile_stationary.
Theorem C40_profile_connects : forall eta, 0 < eta -> (forall x, 0 < analytic_interface_profile eta x < 1) /\
  (forall x, derivable_pt_lim (analytic_interface_profile eta) x (analytic_interface_profile eta x * (1 - analytic_interface_profile eta x) / eta)) /\
  forall eps, 0 < eps -> exists M, (forall x, M < x -> 1 - eps < analytic_interface_profile eta x) /\ forall x, x < - M -> analytic_interface_profile eta x < eps.
Proof. intros eta He. split; [now apply profile_range|]. split; [now apply profile_deriv|now apply profile_limits]. Qed.
Print Assumptions C40_profile_connects.
(* The excess energy of the interface is the surface tension that was asked for *)
Theorem C40_surface_tension : forall tau eta n a b e dc, 0 < eta -> symmetric_tension tau n -> (a <= n)%nat -> (b <= n)%nat -> a <> b ->
  (forall x, derivable_pt_lim (analytic_interface_profile eta) x (dc x)) ->
  (forall x, energy_n_phases tau eta double_well double_well 0 true true (mix n a b (analytic_interface_profile eta x)) (mix_gradient n a b (dc x)) = Ok (e x)) ->
  improper_integral e (tau a b).
Proof.
  intros tau eta n a b e dc He HT Ha Hb Hab Hdc H. pose proof (profile_deriv_unique eta He dc Hdc) as E.
  replace (tau a b) with (6 * tau a b / eta * eta / 6) by (field; lra). apply (well_integral eta He). intros x. specialize (H x). rewrite (C40_two_phase_energy tau eta n a b) in H by assumption.
  injection H as <-. rewrite E. unfold double_well. field. lra.
Qed.
Print Assumptions C40_surface_tension.
(* The functional with a penalty for sums other than one *)
Theorem C40_penalty_minimum : forall kappa alpha penalty c, length kappa = length c -> (forall k, In k kappa -> 0 < k) -> 0 < penalty ->
  (energy_penalty kappa alpha penalty c (zero_gradient (length c)) = 0 <-> exists a, (a < length c)%nat /\ c = pure (length c) a).
Proof.
  intros kappa alpha penalty c L Hk Hp. split; [now apply penalty_only_pure|]. intros (a & Ha & E). rewrite E. replace (zero_gradient (length (pure (length c) a))) with (zero_gradient (length c)); [now apply penalty_pure|].
  f_equal. unfold pure. now rewrite map_length, seq_length.
Qed.
Print Assumptions C40_penalty_minimum.
Theorem C40_penalty_profile : forall kappa alpha penalty a b k dc, 0 < alpha -> (a < length kappa)%nat -> (b < length kappa)%nat -> a <> b -> (k < length kappa)%nat ->
  (forall x, derivable_pt_lim (analytic_interface_profile alpha) x (dc x)) ->
  stationary (energy_penalty kappa alpha penalty) (fun x => mix (length kappa) a b (analytic_interface_profile alpha x)) (fun x => mix_gradient (length kappa) a b (dc x)) k.
Proof. intros. now apply penalty_stationary. Qed.
Print Assumptions C40_penalty_profile.
(* surface_tension_from_kappas is the excess energy of the penalty and the three-phase functional *)
Theorem C40_tension_from_kappas : forall kappa alpha penalty a b dc, 0 < alpha -> (a < length kappa)%nat -> (b < length kappa)%nat -> a <> b ->
  (forall x, derivable_pt_lim (analytic_interface_profile alpha) x (dc x)) ->
  improper_integral (fun x => energy_penalty kappa alpha penalty (mix (length kappa) a b (analytic_interface_profile alpha x)) (mix_gradient (length kappa) a b (dc x)))
    (surface_tension_from_kappas kappa alpha a b) /\
  (length kappa = 3%nat -> improper_integral (fun x => energy_3 kappa alpha true true (mix 3 a b (analytic_interface_profile alpha x)) (mix_gradient 3 a b (dc x)))
    (surface_tension_from_kappas kappa alpha a b)).
Proof.
  intros kappa alpha penalty a b dc Hal Ha Hb Hab Hdc. pose proof (profile_deriv_unique alpha Hal dc Hdc) as E.
  assert (S : surface_tension_from_kappas kappa alpha a b = (nth a kappa 0 + nth b kappa 0) * alpha / 6) by (unfold surface_tension_from_kappas; destruct (Nat.eqb_spec a b); [contradiction|field]).
  rewrite S. split.
  - apply (well_integral alpha Hal). intros x. rewrite penalty_two by auto. rewrite E. unfold double_well. field. lra.
  - intros L. rewrite L in *. apply (well_integral alpha Hal). intros x. rewrite energy_3_penalty by (rewrite ?mix_length, ?mix_gradient_length; auto). rewrite penalty_two by auto. rewrite E. unfold double_well. field. lra.
Qed.
Print Assumptions C40_tension_from_kappas.
(* the transformation to order parameters is invertible and the transformed energy is the energy of the concentrations *)
Theorem C40_transformation : forall c o, to_concentrations (to_order_parameters c) = c /\ to_order_parameters (to_concentrations o) = o /\
  forall kappa alpha bulk interface dc, energy_3_transformed kappa alpha bulk interface (to_order_parameters c) (to_order_parameters dc) = energy_3 kappa alpha bulk interface (list3 c) (list3 dc).
Proof. intros c o. split; [apply transformation_inverse'|]. split; [apply transformation_inverse|]. intros. unfold energy_3_transformed. now rewrite !transformation_inverse'. Qed.
Print Assumptions C40_transformation.
Example C40_tension_example : symmetric_tension (constant_tension (1 / 100)) 2 /\ forall a b, a <> b -> constant_tension (1 / 100) a b = 1 / 100.
Proof.
  split; [split|]; intros; unfold constant_tension.
  - now rewrite Nat.eqb_sym.
  - now rewrite Nat.eqb_refl.
  - destruct (Nat.eqb_spec a b); [contradiction|reflexivity].
Qed.

(* ---- evaluation of a triple point ---- *)
(* Tensions that can be balanced: the three angles fill the circle and the tensions along and across the first interface cancel *)
Theorem C40_neumann_angles : forall g a b c, g 0%nat 1%nat = a -> g 0%nat 2%nat = b -> g 1%nat 2%nat = c -> 0 < a -> 0 < b -> 0 < c -> a <= b + c -> b <= a + c -> c <= a + b ->
  exists t0 t1 t2, neumann_angles g = [t0; t1; t2] /\ 0 <= t0 <= 180 /\ 0 <= t1 <= 180 /\ 0 <= t2 <= 180 /\ t0 + t1 + t2 = 360 /\
    a + b * cos (degrees t0) + c * cos (degrees t1) = 0 /\ b * sin (degrees t0) = c * sin (degrees t1).
Proof.
  intros g a b c <- <- <-. set (a := g 0%nat 1%nat). set (b := g 0%nat 2%nat). set (c := g 1%nat 2%nat). intros Ha Hb Hc Ta Tb Tc. unfold neumann_angles. cbn [map]. fold a b c.
  fold (corner a b c). fold (corner a c b). fold (corner c b a). do 3 eexists. split; [reflexivity|]. pose proof PI_RGT_0 as PI0.
  assert (R : forall x, 0 <= acos x * 180 / PI <= 180).
  { intros x. pose proof (acos_bound x) as B. split; [apply Rmult_le_pos; [lra|left; now apply Rinv_0_lt_compat]|]. apply (Rmult_le_reg_r PI); [exact PI0|]. replace (acos x * 180 / PI * PI) with (180 * acos x) by (field; lra). lra. }
  split; [apply R|]. split; [apply R|]. split; [apply R|]. split.
  - replace (acos (corner a b c) * 180 / PI + acos (corner a c b) * 180 / PI + acos (corner c b a) * 180 / PI) with ((acos (corner a b c) + acos (corner a c b) + acos (corner c b a)) * 180 / PI) by (field; lra).
    rewrite angle_sum by assumption. field. lra.
  - unfold degrees. replace (acos (corner a b c) * 180 / PI * PI / 180) with (acos (corner a b c)) by (field; lra). replace (acos (corner a c b) * 180 / PI * PI / 180) with (acos (corner a c b)) by (field; lra). now apply balance.
Qed.
Print Assumptions C40_neumann_angles.
Theorem C40_circle_intersections : forall m0 m1 r0 r1 l, 0 <= r0 -> 0 <= r1 -> circle_intersections m0 m1 r0 r1 = Some l ->
  forall p, In p l <-> on_circle p m0 r0 /\ on_circle p m1 r1.
Proof. exact circles_spec. Qed.
Print Assumptions C40_circle_intersections.
Theorem C40_circles_defined : forall x0 y0 x1 y1 r0 r1, 0 <= r0 -> 0 <= r1 -> x0 <> x1 -> y0 <> y1 -> exists l, circle_intersections (x0, y0) (x1, y1) r0 r1 = Some l.
Proof. exact circles_defined. Qed.
Print Assumptions C40_circles_defined.
(* circles side by side: nan although they meet *)
Theorem C40_circles_level_refuted : forall x0 x1 y r0 r1, 0 <= r0 -> 0 <= r1 -> Rabs (r1 - r0) <= Rabs (x0 - x1) <= r0 + r1 -> circle_intersections (x0, y) (x1, y) r0 r1 = None.
Proof. exact circles_level. Qed.
Print Assumptions C40_circles_level_refuted.
Example C40_circles_level_example : circle_intersections (0, 0) (1, 0) 1 1 = None /\ on_circle (1 / 2, sqrt 3 / 2) (0, 0) 1 /\ on_circle (1 / 2, sqrt 3 / 2) (1, 0) 1.
Proof.
  split; [apply circles_level; try lra; split; [replace (1 - 1) with 0 by ring; rewrite Rabs_R0; apply Rabs_pos|replace (0 - 1) with (- (1)) by ring; rewrite Rabs_Ropp, Rabs_R1; lra]|].
  assert (S : sqrt 3 * sqrt 3 = 3) by (apply sqrt_sqrt; lra). unfold on_circle. cbn [fst snd]. split; lra.
Qed.
