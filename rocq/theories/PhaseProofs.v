From Coq Require Import String List ZArith Reals Lra Lia Psatz.
From Verif Require Import StencilModel RealLib PhaseModel PhaseSpec.
Import ListNotations.
Local Open Scope R_scope.

Lemma pdiv_ok a b : b <> 0 -> pdiv a b = Ok (a / b).
Proof. unfold pdiv. destruct (Req_EM_T b 0); [contradiction|reflexivity]. Qed.
Lemma pdiv_inv a b x : pdiv a b = Ok x -> b <> 0 /\ x = a / b.
Proof. unfold pdiv. destruct (Req_EM_T b 0); [discriminate|]. intros [= <-]. auto. Qed.
Lemma psqrt_ok a : 0 <= a -> psqrt a = Ok (sqrt a).
Proof. unfold psqrt. destruct (Rlt_dec a 0); [lra|reflexivity]. Qed.
Lemma psqrt_inv a x : psqrt a = Ok x -> 0 <= a /\ x = sqrt a.
Proof. unfold psqrt. destruct (Rlt_dec a 0); [discriminate|]. intros [= <-]. split; [lra|reflexivity]. Qed.

(* ---- the quadratic of the wetting condition ---- *)
Section Wetting.
  Context (v phi : R) (Hv : v <> 0) (Hphi : 0 <= phi <= 1).
  Let disc := (1 + v) * (1 + v) - 4 * v * phi.
  Let s := sqrt disc.
  Let w := (1 + v - s) / (2 * v).
  Lemma disc_nonneg : 0 <= disc.
  Proof.
    unfold disc. destruct (Rle_dec v 0) as [V|V].
    - assert (0 <= - v * phi) by (apply Rmult_le_pos; lra). pose proof (Rle_0_sqr (1 + v)) as Q. unfold Rsqr in Q. lra.
    - assert (0 <= v * (1 - phi)) by (apply Rmult_le_pos; lra). pose proof (Rle_0_sqr (1 - v)) as Q. unfold Rsqr in Q. lra.
  Qed.
  Lemma s_sq : s * s = disc. Proof. apply sqrt_sqrt, disc_nonneg. Qed.
  Lemma s_pos : 0 <= s. Proof. apply sqrt_pos. Qed.
  Lemma w_eq : 2 * v * w = 1 + v - s. Proof. unfold w. field. exact Hv. Qed.
  Lemma w_solves : phi - w = v * w * (1 - w).
  Proof.
    assert (4 * v * (phi - w) = 4 * v * (v * w * (1 - w))); [|apply (Rmult_eq_reg_l (4 * v)); [assumption|lra]].
    pose proof s_sq as H. unfold disc in H. pose proof w_eq as E. replace s with (1 + v - 2 * v * w) in H by lra. nra.
  Qed.
  Lemma w_range : 0 <= w <= 1.
  Proof.
    pose proof s_sq as H. unfold disc in H. pose proof s_pos as P. pose proof w_eq as E.
    assert (SQ : forall a b, 0 <= b -> a * a <= b * b -> a <= b) by (intros a b Hb Hab; now apply Rsqr_incr_0_var).
    destruct (Rlt_dec 0 v) as [V|V].
    - assert (0 <= v * phi) by (apply Rmult_le_pos; lra). assert (0 <= v * (1 - phi)) by (apply Rmult_le_pos; lra).
      assert (s <= 1 + v) by (apply SQ; lra). assert (1 - v <= s) by (apply SQ; lra).
      split; [apply (Rmult_le_reg_l (2 * v)); lra|apply (Rmult_le_reg_l (2 * v)); lra].
    - assert (v < 0) by lra. assert (0 <= - v * phi) by (apply Rmult_le_pos; lra). assert (0 <= - v * (1 - phi)) by (apply Rmult_le_pos; lra).
      assert (1 + v <= s) by (apply SQ; lra). assert (s <= 1 - v) by (apply SQ; lra).
      split; [apply (Rmult_le_reg_l (- (2 * v))); lra|apply (Rmult_le_reg_l (- (2 * v))); lra].
  Qed.
  Lemma ghost_range : -1 <= v <= 1 -> 0 <= 2 * w - phi <= 1.
  Proof.
    intros H. pose proof w_solves as S. pose proof w_range as W. 
    assert (0 <= w * (1 - v * (1 - w))). { apply Rmult_le_pos; [lra|]. assert (0 <= (1 - v) * (1 - w)) by (apply Rmult_le_pos; lra). lra. }
    assert (0 <= (1 - w) * (1 + v * w)). { apply Rmult_le_pos; [lra|]. assert (0 <= (1 + v) * w) by (apply Rmult_le_pos; lra). lra. }
    lra.
  Qed.
End Wetting.
Lemma wall_unique v w w' : -1 <= v <= 1 -> 0 <= w <= 1 -> 0 <= w' <= 1 -> w + v * w * (1 - w) = w' + v * w' * (1 - w') -> w = w'.
Proof.
  intros V W W' H. assert (E : (w - w') * (1 + v * (1 - w - w')) = 0) by lra. apply Rmult_integral in E. destruct E as [E|E]; [lra|].
  destruct (Rle_dec 0 v); [assert (w + w' >= 2) by nra|assert (w + w' <= 0) by nra]; lra.
Qed.

Lemma distance_eq dir : sqrt (rsum (map (fun x => IZR (x * x)) dir)) = cell_distance dir.
Proof. unfold cell_distance. f_equal. f_equal. apply map_ext. intros x. apply mult_IZR. Qed.
Lemma contact_eq k W theta dir phi : W <> 0 ->
  contact_angle k W theta dir phi = let v := strength W theta dir in
    match k with
    | O => if Rle_dec (v * v) (1 / 1000000) then Ok (Some phi)
      else Ok (obind (rsqrt ((1 + v) * (1 + v) - 4 * v * phi)) (fun s => Some ((1 + v - s) / v - phi)))
    | _ => Err NotImplementedError
    end.
Proof.
  intros HW. unfold contact_angle. rewrite distance_eq, pdiv_ok by exact HW. cbn [rbind]. unfold strength, degrees. replace (theta * PI / 180) with (theta * (PI / 180)) by (unfold Rdiv; ring). reflexivity.
Qed.
Lemma residual_eq W theta dir phi_s phi_f : W <> 0 -> cell_distance dir <> 0 ->
  wetting_residual W theta dir phi_s phi_f = 2 / cell_distance dir * (phi_f - (phi_s + phi_f) / 2 - strength W theta dir * ((phi_s + phi_f) / 2) * (1 - (phi_s + phi_f) / 2)).
Proof. intros HW HD. unfold wetting_residual, strength. field. auto. Qed.
Lemma strength_small dir W theta v : v = strength W theta dir -> v * v <= 1 / 1000000 -> Rabs v <= 1 / 1000.
Proof. intros _ H. apply Rabs_le. split; nra. Qed.

(* the value, if it is not the copy *)
Lemma contact_exact W theta dir phi x : W <> 0 -> cell_distance dir <> 0 -> 0 <= phi <= 1 -> 1 / 1000000 < strength W theta dir * strength W theta dir ->
  contact_angle 0 W theta dir phi = Ok x ->
  exists value, x = Some value /\ wetting_residual W theta dir value phi = 0 /\ 0 <= (value + phi) / 2 <= 1 /\ (-1 <= strength W theta dir <= 1 -> 0 <= value <= 1).
Proof.
  intros HW HD HP HS. rewrite contact_eq by exact HW. cbn zeta. destruct (Rle_dec _ _) as [L|_]; [lra|]. set (v := strength W theta dir) in *.
  assert (Hv : v <> 0) by (intros E; rewrite E in HS; lra). rewrite rsqrt_ok by apply (disc_nonneg v phi Hv HP). cbn [obind]. intros [= <-]. eexists. split; [reflexivity|].
  pose proof (w_solves v phi Hv HP) as E. pose proof (w_range v phi Hv HP) as R. pose proof (ghost_range v phi Hv HP) as G. cbn zeta in *.
  set (sq := sqrt _) in *. assert (E2 : (1 + v - sq) / v = 2 * ((1 + v - sq) / (2 * v))) by (field; exact Hv). rewrite E2. set (w := (1 + v - sq) / (2 * v)) in *.
  split; [|split; [lra|]].
  - rewrite residual_eq by assumption. fold v. replace ((2 * w - phi + phi) / 2) with w by lra. replace (phi - w - v * w * (1 - w)) with 0 by lra. ring.
  - intros V. specialize (G V). lra.
Qed.
Lemma contact_copy W theta dir phi : W <> 0 -> cell_distance dir <> 0 -> 0 <= phi <= 1 -> strength W theta dir * strength W theta dir <= 1 / 1000000 ->
  contact_angle 0 W theta dir phi = Ok (Some phi) /\ Rabs (wetting_residual W theta dir phi phi) <= 1 / 2000 / cell_distance dir.
Proof.
  intros HW HD HP HS. rewrite contact_eq by exact HW. cbn zeta. destruct (Rle_dec _ _) as [_|L]; [|contradiction]. split; [reflexivity|].
  rewrite residual_eq by assumption. replace ((phi + phi) / 2) with phi by lra. set (v := strength W theta dir) in *. replace (phi - phi - v * phi * (1 - phi)) with (- (v * (phi * (1 - phi)))) by ring.
  assert (D : 0 < cell_distance dir) by (pose proof (sqrt_pos (rsum (map (fun x => IZR x * IZR x) dir))); unfold cell_distance in *; lra).
  pose proof (strength_small dir W theta v eq_refl HS) as A. assert (V : -1 / 1000 <= v <= 1 / 1000) by (pose proof (Rle_abs v); pose proof (Rle_abs (- v)) as Q; rewrite Rabs_Ropp in Q; lra). assert (Q : 0 <= phi * (1 - phi) <= / 4) by (split; [apply Rmult_le_pos; lra|pose proof (Rle_0_sqr (phi - / 2)) as Q; unfold Rsqr in Q; lra]).
  assert (B : Rabs (v * (phi * (1 - phi))) <= 1 / 4000) by (apply Rabs_le; split; nra).
  rewrite Rabs_mult, Rabs_Ropp. rewrite (Rabs_pos_eq (2 / cell_distance dir)) by (apply Rlt_le, Rdiv_lt_0_compat; lra).
  replace (1 / 2000 / cell_distance dir) with (2 / cell_distance dir * (1 / 4000)) by (field; exact HD).
  apply Rmult_le_compat_l; [apply Rlt_le, Rdiv_lt_0_compat; lra|exact B].
Qed.
Lemma contact_unique W theta dir phi a b : W <> 0 -> cell_distance dir <> 0 -> -1 <= strength W theta dir <= 1 ->
  0 <= (a + phi) / 2 <= 1 -> 0 <= (b + phi) / 2 <= 1 -> wetting_residual W theta dir a phi = 0 -> wetting_residual W theta dir b phi = 0 -> a = b.
Proof.
  intros HW HD HS Ha Hb Ea Eb. rewrite residual_eq in Ea, Eb by assumption.
  assert (D : 2 / cell_distance dir <> 0) by (unfold Rdiv; apply Rmult_integral_contrapositive_currified; [lra|now apply Rinv_neq_0_compat]).
  apply Rmult_integral in Ea. apply Rmult_integral in Eb. destruct Ea as [Ea|Ea]; [contradiction|]. destruct Eb as [Eb|Eb]; [contradiction|].
  assert ((a + phi) / 2 = (b + phi) / 2); [|lra]. apply (wall_unique (strength W theta dir)); auto. lra.
Qed.

(* ---- parameters ---- *)
Ltac inv_step H := let E := fresh "E" in let N := fresh "N" in match type of H with
  | rbind (pdiv ?a ?b) _ = Ok _ => destruct (pdiv a b) as [?x|] eqn:E; [cbn [rbind] in H; apply pdiv_inv in E; destruct E as [N E]|discriminate H]
  | rbind (psqrt ?a) _ = Ok _ => destruct (psqrt a) as [?x|] eqn:E; [cbn [rbind] in H; apply psqrt_inv in E; destruct E as [N E]|discriminate H]
  end.
Lemma sqrt_pos_sq a x : 0 < a -> x = sqrt a -> 0 < x /\ x * x = a.
Proof. intros H ->. split; [now apply sqrt_lt_R0|apply sqrt_sqrt; lra]. Qed.

Lemma rti_numbers L T rho Ca Re At Pe dr vr p : 0 < L -> 0 < T -> 0 < rho -> 0 < Ca -> 0 < Re -> 0 < At -> 0 < Pe -> 0 < dr -> 0 < vr ->
  calculate_parameters_rti L T rho Ca Re At Pe dr vr = Ok p ->
  let g := - gravitational_acceleration p in let u := sqrt (g * L) in
  0 < g /\ T = sqrt (L / (g * At)) /\ density_heavy p = rho /\ Reynolds (density_heavy p) u L (dynamic_viscosity_heavy p) = Re /\
  Capillary (dynamic_viscosity_heavy p) u (surface_tension p) = Ca /\ Peclet u L (mobility p) = Pe /\
  density_heavy p / density_light p = dr /\ dynamic_viscosity_heavy p / dynamic_viscosity_light p = vr /\ interface_thickness p = 5.
Proof.
  intros HL HT Hr HC HR HA HP Hd Hv H g u. unfold calculate_parameters_rti in H. do 7 inv_step H. injection H as <-. cbn [gravitational_acceleration density_heavy density_light dynamic_viscosity_heavy dynamic_viscosity_light surface_tension mobility interface_thickness].
  assert (Eg : g = x) by (unfold g; cbn; ring). clearbody g. rewrite <- Eg in *. clear Eg.
  assert (PT : 0 < T ^ 2) by (apply pow_lt; lra). assert (Pg : 0 < g) by (rewrite E; apply Rdiv_lt_0_compat; [lra|now apply Rmult_lt_0_compat]).
  assert (Pu : 0 < u) by (apply sqrt_lt_R0; now apply Rmult_lt_0_compat). fold u in E0. subst x0. split; [exact Pg|]. split.
  { replace (L / (g * At)) with (T * T); [now rewrite sqrt_square by lra|]. rewrite E. field. repeat split; try lra. }
  split; [reflexivity|]. unfold Reynolds, Capillary, Peclet. subst x1 x2 x3 x4 x5. repeat split; field; repeat split; lra.
Qed.
Lemma rti_succeeds L T rho Ca Re At Pe dr vr : 0 < L -> 0 < T -> 0 < rho -> 0 < Ca -> 0 < Re -> 0 < At -> 0 < Pe -> 0 < dr -> 0 < vr ->
  exists p, calculate_parameters_rti L T rho Ca Re At Pe dr vr = Ok p.
Proof.
  intros HL HT Hr HC HR HA HP Hd Hv. unfold calculate_parameters_rti. assert (0 < T ^ 2) by (apply pow_lt; lra). assert (0 < T ^ 2 * At) by now apply Rmult_lt_0_compat.
  rewrite pdiv_ok by lra. cbn [rbind]. rewrite psqrt_ok by (apply Rmult_le_pos; [apply Rlt_le, Rdiv_lt_0_compat; lra|lra]). cbn [rbind]. repeat (rewrite pdiv_ok by lra; cbn [rbind]). eauto.
Qed.
Lemma bubble_numbers T rho r Bo Re dr vr p : 0 < T -> 0 < rho -> 0 < r -> 0 < Bo -> 0 < Re -> 1 < dr -> 0 < vr ->
  calculate_dimensionless_rising_bubble T rho r Bo Re dr vr = Ok p ->
  let g := - gravitational_acceleration p in let d := 2 * r in
  0 < g /\ T = sqrt (d / g) /\ density_heavy p = rho /\ Reynolds (density_heavy p) (sqrt (g * d)) d (dynamic_viscosity_heavy p) = Re /\
  Bond (density_heavy p - density_light p) g d (surface_tension p) = Bo /\
  density_heavy p / density_light p = dr /\ dynamic_viscosity_heavy p / dynamic_viscosity_light p = vr /\ mobility p = / 5 /\ interface_thickness p = 5.
Proof.
  intros HT Hr Hrad HB HR Hd Hv H g d. unfold calculate_dimensionless_rising_bubble in H. replace (r * 2) with (2 * r) in H by ring. do 6 inv_step H. injection H as <-.
  cbn [gravitational_acceleration density_heavy density_light dynamic_viscosity_heavy dynamic_viscosity_light surface_tension mobility interface_thickness].
  fold d in N1, E1, E, E4. assert (Eg : g = x) by (unfold g; cbn; ring). clearbody g. rewrite <- Eg in *. clear Eg. assert (Pd : 0 < d) by (unfold d; lra). clearbody d.
  assert (PT : 0 < T ^ 2) by (apply pow_lt; lra). assert (Pg : 0 < g) by (rewrite E; apply Rdiv_lt_0_compat; lra).
  assert (Es : sqrt (g * d ^ 3) = sqrt (g * d) * d).
  { replace (g * d ^ 3) with ((g * d) * (d * d)) by ring. rewrite sqrt_mult_alt by (apply Rmult_le_pos; lra). rewrite sqrt_square by lra. reflexivity. }
  rewrite Es in E1. assert (Pu : 0 < sqrt (g * d)) by (apply sqrt_lt_R0; now apply Rmult_lt_0_compat). set (u := sqrt (g * d)) in *.
  assert (Pd2 : 0 < d ^ 2) by (apply pow_lt; lra).
  assert (Pdiff : 0 < rho - rho / dr). { replace (rho - rho / dr) with (rho * (dr - 1) / dr) by (field; lra). apply Rdiv_lt_0_compat; [apply Rmult_lt_0_compat; lra|lra]. }
  split; [exact Pg|]. split. { replace (d / g) with (T * T); [now rewrite sqrt_square by lra|]. rewrite E. field. lra. }
  split; [reflexivity|]. unfold Reynolds, Bond. subst x0 x1 x2 x3 x4. split; [field; repeat split; lra|]. split; [|repeat split; field; repeat split; lra].
  field. repeat split; try lra. assert (rho * dr - rho <> 0); [|assumption]. assert (0 < rho * (dr - 1)) by (apply Rmult_lt_0_compat; lra). lra.
Qed.
Lemma bubble_succeeds T rho r Bo Re dr vr : 0 < T -> 0 < rho -> 0 < r -> 0 < Bo -> 0 < Re -> 1 < dr -> 0 < vr -> exists p, calculate_dimensionless_rising_bubble T rho r Bo Re dr vr = Ok p.
Proof.
  intros HT Hr Hrad HB HR Hd Hv. unfold calculate_dimensionless_rising_bubble. assert (0 < T ^ 2) by (apply pow_lt; lra). assert (0 < (r * 2) ^ 3) by (apply pow_lt; lra).
  rewrite pdiv_ok by lra. cbn [rbind]. rewrite pdiv_ok by lra. cbn [rbind]. rewrite psqrt_ok by (apply Rmult_le_pos; [apply Rlt_le, Rdiv_lt_0_compat; lra|lra]). cbn [rbind]. repeat (rewrite pdiv_ok by lra; cbn [rbind]). eauto.
Qed.
Lemma taylor_numbers L T rho outer inner p : 0 < L -> 0 < T -> 0 < inner < outer -> air_rho / water_rho < rho ->
  calculate_parameters_taylor_bubble L T rho outer inner = Ok p ->
  let g := - gravitational_acceleration p in let d := L - L * inner / outer in
  0 < g /\ T = sqrt (d / g) /\ density_heavy p = rho /\ density_light p = air_rho / water_rho /\
  InverseViscosity (density_heavy p) (density_light p) g d (dynamic_viscosity_heavy p) = InverseViscosity water_rho air_rho gravity (outer - inner) water_mu /\
  Bond (density_heavy p - density_light p) g d (surface_tension p) = Bond (water_rho - air_rho) gravity (outer - inner) water_air_tension /\
  dynamic_viscosity_heavy p / dynamic_viscosity_light p = water_mu / air_mu.
Proof.
  intros HL HT HD Hr H g d. unfold calculate_parameters_taylor_bubble in H. do 10 inv_step H. injection H as <-.
  cbn [gravitational_acceleration density_heavy density_light dynamic_viscosity_heavy dynamic_viscosity_light surface_tension mobility interface_thickness].
  assert (W : water_rho <> 0) by (unfold water_rho; lra). assert (A : air_rho <> 0) by (unfold air_rho; lra). assert (WM : 0 < water_mu) by (unfold water_mu; lra). assert (AM : 0 < air_mu) by (unfold air_mu; lra).
  assert (TT : water_air_tension <> 0) by (unfold water_air_tension; lra).
  assert (Eg : g = x4) by (unfold g; cbn; ring). clearbody g. rewrite <- Eg in *. clear Eg.
  assert (Ed : L - x3 = d). { unfold d. rewrite E3, E. field. lra. } rewrite Ed in *.
  assert (Pd : 0 < d). { unfold d. replace (L - L * inner / outer) with (L * (outer - inner) / outer) by (field; lra). apply Rdiv_lt_0_compat; [apply Rmult_lt_0_compat; lra|lra]. } clearbody d.
  assert (El : 1 / (water_rho / air_rho) = air_rho / water_rho) by (field; auto). rewrite El in *. set (rl := air_rho / water_rho) in *.
  assert (PT : 0 < T ^ 2) by (apply pow_lt; lra). assert (Pg : 0 < g) by (rewrite E4; apply Rdiv_lt_0_compat; lra).
  assert (Prl : 0 < rl) by (unfold rl; apply Rdiv_lt_0_compat; unfold air_rho, water_rho; lra). clearbody rl.
  assert (Pq : 0 < (rho - rl) * rho * g * d ^ 3) by (repeat apply Rmult_lt_0_compat; try lra; apply pow_lt; lra).
  assert (Pd2 : 0 < d ^ 2) by (apply pow_lt; lra).
  replace ((rho - rl) * rho * (g * d ^ 3)) with ((rho - rl) * rho * g * d ^ 3) in * by ring. apply sqrt_lt_R0 in Pq.
  split; [exact Pg|]. split. { replace (d / g) with (T * T); [now rewrite sqrt_square by lra|]. rewrite E4. field. lra. }
  split; [reflexivity|]. split; [reflexivity|]. unfold InverseViscosity, Bond. rewrite <- E0. subst x5. set (q := sqrt ((rho - rl) * rho * g * d ^ 3)) in *.
  assert (Hx0 : x0 <> 0). { intros Ex. subst x1. rewrite Ex in N6. apply N6. unfold Rdiv. ring. }
  split; [subst x6 x1; field; repeat split; lra|]. split; [|subst x7 x6; field; repeat split; try lra].
  subst x8. rewrite <- E2. field. repeat split; try lra.
Qed.
Lemma droplet_numbers R0 Re Ca Ma Pe vr hr W sref height t : 0 < R0 -> 0 < Re -> 0 < Ca -> 0 < Ma -> 0 < Pe -> 0 < vr -> 0 < hr -> 0 < W -> 0 < sref ->
  calculate_parameters_droplet_migration R0 Re Ca Ma Pe vr hr W sref height = Ok t ->
  let u := sqrt (Re * Ca * sref / R0) in let p := base t in
  0 < u /\ Reynolds (density_heavy p) u R0 (dynamic_viscosity_heavy p) = Re /\ Capillary (dynamic_viscosity_heavy p) u sref = Ca /\
  Marangoni u R0 (heat_conductivity_heavy t) = Ma /\ Peclet u W (mobility p) = Pe /\
  dynamic_viscosity_heavy p / dynamic_viscosity_light p = vr /\ heat_conductivity_heavy t / heat_conductivity_light t = hr /\
  velocity_wall t = u / R0 * (match height with None => 2 * R0 | Some h => h end) /\ IZR (reference_time t) <= R0 / u < IZR (reference_time t) + 1 /\
  interface_thickness p = 5 /\ sigma_ref t = 5 / 1000 /\ surface_tension p = 0.
Proof.
  intros HR0 HRe HCa HMa HPe Hvr Hhr HW Hs H u p. unfold calculate_parameters_droplet_migration in H. do 9 inv_step H. injection H as <-.
  cbn [base gravitational_acceleration density_heavy density_light dynamic_viscosity_heavy dynamic_viscosity_light surface_tension mobility interface_thickness heat_conductivity_heavy heat_conductivity_light velocity_wall reference_time sigma_ref].
  rewrite E in E0. fold u in E0. subst x0.
  assert (Px : 0 < Re * Ca * sref / R0) by (apply Rdiv_lt_0_compat; [repeat apply Rmult_lt_0_compat; lra|lra]).
  destruct (sqrt_pos_sq _ u Px eq_refl) as [Pu Su]. clearbody u. subst p. cbn [base density_heavy dynamic_viscosity_heavy dynamic_viscosity_light mobility interface_thickness surface_tension].
  assert (Ey : 1 / x1 = R0 / u) by (rewrite E1; field; split; lra).
  split; [exact Pu|]. unfold Reynolds, Capillary, Marangoni, Peclet.
  split; [subst x2; field; repeat split; lra|].
  split. { subst x2. replace (R0 * u / Re * u / sref) with (R0 * (u * u) / (Re * sref)) by (field; split; lra). rewrite Su. field. repeat split; lra. }
  split; [subst x4; field; repeat split; lra|]. split; [subst x6 x1; field; repeat split; lra|]. split; [subst x3 x2; field; repeat split; lra|].
  split; [subst x5 x4; field; repeat split; lra|]. split; [subst x1; reflexivity|]. split.
  - rewrite E7, Ey. pose proof (base_Int_part (R0 / u)) as [B1 B2]. lra.
  - repeat split.
Qed.
