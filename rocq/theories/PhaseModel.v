(* Model of src/lbmpy/phasefield_allen_cahn/contact_angle.py and parameter_calculation.py.  Floats are real numbers; a Python division by zero is
   a ZeroDivisionError, math.sqrt of a negative number a ValueError. *)
From Coq Require Import String List ZArith Reals.
From Verif Require Import StencilModel RealLib.
Import ListNotations.
Local Open Scope R_scope.

Definition pdiv (a b : R) : res R := if Req_EM_T b 0 then Err ZeroDivisionError else Ok (a / b).
Definition psqrt (a : R) : res R := if Rlt_dec a 0 then Err ValueError else Ok (sqrt a).

(* ---- contact_angle.py:34-62: the value written to the boundary cell; None is the NaN of a negative radicand ----
   [dir] points from the boundary cell to the fluid cell, [phi] is the phase-field value there. *)
Definition contact_angle (index_dimensions : nat) (interface_width angle_degrees : R) (dir : list Z) (phi : R) : res (option R) :=
  let d := rsum (map (fun x => IZR (x * x)) dir) in                          (* 39 *)
  let a := cos (angle_degrees * (PI / 180)) in                               (* 47, 54 *)
  let dist := / 2 * sqrt d in                                                (* 48, 55 *)
  rbind (pdiv 4 interface_width) (fun w =>
  let var := - dist * w * a in                                               (* 41 *)
  let tmp := 1 + var in
  match index_dimensions with
  | O =>
    if Rle_dec (var * var) (1 / 1000000) then Ok (Some phi)                  (* 48-49 *)
    else Ok (obind (rsqrt (tmp * tmp - 4 * var * phi)) (fun s => Some ((tmp - s) / var - phi)))   (* 43, 51 *)
  | _ => Err NotImplementedError                                             (* 60-62 *)
  end).

(* ---- parameter_calculation.py ---- *)
(* 5-18 AllenCahnParameters *)
Record params := { density_heavy : R; density_light : R; dynamic_viscosity_heavy : R; dynamic_viscosity_light : R; surface_tension : R; mobility : R;
  gravitational_acceleration : R; interface_thickness : R }.
(* 21-38 *)
Definition kinematic_viscosity_heavy (p : params) : res R := pdiv (dynamic_viscosity_heavy p) (density_heavy p).
Definition kinematic_viscosity_light (p : params) : res R := pdiv (dynamic_viscosity_light p) (density_light p).
Definition relaxation_time_heavy (p : params) : res R := rbind (kinematic_viscosity_heavy p) (fun nu => Ok (3 * nu)).
Definition relaxation_time_light (p : params) : res R := rbind (kinematic_viscosity_light p) (fun nu => Ok (3 * nu)).
Definition omega_phi (p : params) : res R := pdiv 1 (/ 2 + 3 * mobility p).
(* 77-82, the symbols replaced by their values *)
Definition beta (p : params) : res R := rbind (pdiv (surface_tension p) (interface_thickness p)) (fun x => Ok (12 * x)).
Definition kappa (p : params) : R := 3 / 2 * surface_tension p * interface_thickness p.
(* 84-88, the symbols replaced by their values *)
Definition omega (p : params) (phi : R) : res R :=
  rbind (relaxation_time_light p) (fun tl => rbind (relaxation_time_heavy p) (fun th => pdiv 1 (/ 2 + tl + phi * (th - tl)))).
(* 90-100 and 103-104: names and values *)
Definition parameter_map (p : params) : res (list (string * R)) :=
  rbind (relaxation_time_heavy p) (fun th => rbind (relaxation_time_light p) (fun tl => rbind (omega_phi p) (fun o =>
  Ok [("rho_H", density_heavy p); ("rho_L", density_light p); ("tau_H", th); ("tau_L", tl); ("omega_phi", o); ("F_g", gravitational_acceleration p);
      ("W", interface_thickness p); ("M_m", mobility p); ("sigma", surface_tension p)]%string))).
(* 147-168 ThermocapillaryParameters *)
Record thermo := { base : params; heat_conductivity_heavy : R; heat_conductivity_light : R; sigma_ref : R; sigma_t : R; tmp_ref : R; velocity_wall : R; reference_time : Z }.
(* 190-205 *)
Definition thermo_map (t : thermo) : res (list (string * R)) :=
  rbind (parameter_map (base t)) (fun m =>
  Ok (m ++ [("kappa_H", heat_conductivity_heavy t); ("kappa_L", heat_conductivity_light t); ("sigma_ref", sigma_ref t); ("sigma_T", sigma_t t); ("T_ref", tmp_ref t)]%string)).

(* 226-274 calculate_parameters_rti *)
Definition calculate_parameters_rti (reference_length reference_time density_heavy capillary reynolds atwood peclet density_ratio viscosity_ratio : R) : res params :=
  rbind (pdiv reference_length (reference_time ^ 2 * atwood)) (fun g =>
  rbind (psqrt (g * reference_length)) (fun u =>
  rbind (pdiv (density_heavy * u * reference_length) reynolds) (fun mu_h =>
  rbind (pdiv mu_h viscosity_ratio) (fun mu_l =>
  rbind (pdiv density_heavy density_ratio) (fun rho_l =>
  rbind (pdiv (mu_h * u) capillary) (fun sigma =>
  rbind (pdiv (u * reference_length) peclet) (fun m =>
  Ok {| density_heavy := density_heavy; density_light := rho_l; dynamic_viscosity_heavy := mu_h; dynamic_viscosity_light := mu_l; surface_tension := sigma; mobility := m;
        gravitational_acceleration := - g; interface_thickness := 5 |}))))))).
(* 277-319 calculate_dimensionless_rising_bubble *)
Definition calculate_dimensionless_rising_bubble (reference_time density_heavy bubble_radius bond reynolds density_ratio viscosity_ratio : R) : res params :=
  let d := bubble_radius * 2 in
  rbind (pdiv d (reference_time ^ 2)) (fun g =>
  rbind (pdiv density_heavy density_ratio) (fun rho_l =>
  rbind (psqrt (g * d ^ 3)) (fun r =>
  rbind (pdiv (density_heavy * r) reynolds) (fun mu_h =>
  rbind (pdiv mu_h viscosity_ratio) (fun mu_l =>
  rbind (pdiv ((density_heavy - rho_l) * g * d ^ 2) bond) (fun sigma =>
  Ok {| density_heavy := density_heavy; density_light := rho_l; dynamic_viscosity_heavy := mu_h; dynamic_viscosity_light := mu_l; surface_tension := sigma; mobility := / 5;
        gravitational_acceleration := - g; interface_thickness := 5 |})))))).
(* 322-380 calculate_parameters_taylor_bubble *)
Definition water_rho : R := 998.
Definition air_rho : R := 12047 / 10000.
Definition water_air_tension : R := 7286 / 100000.
Definition water_mu : R := 1002 / 1000000.
Definition air_mu : R := 18205 / 1000000000.
Definition gravity : R := 981 / 100.
Definition calculate_parameters_taylor_bubble (reference_length reference_time density_heavy diameter_outer diameter_inner : R) : res params :=
  let diameter_fluid := diameter_outer - diameter_inner in
  rbind (pdiv diameter_outer diameter_inner) (fun diameter_ratio =>
  rbind (psqrt ((water_rho - air_rho) * water_rho * gravity * diameter_fluid ^ 3)) (fun r =>
  rbind (pdiv r water_mu) (fun inverse_viscosity_number =>
  rbind (pdiv ((water_rho - air_rho) * gravity * diameter_fluid ^ 2) water_air_tension) (fun bond =>
  rbind (pdiv reference_length diameter_ratio) (fun diameter_lattice =>
  let rho_l := 1 / (water_rho / air_rho) in
  let df := reference_length - diameter_lattice in
  rbind (pdiv df (reference_time ^ 2)) (fun g =>
  let density_diff := density_heavy - rho_l in
  rbind (psqrt (density_diff * density_heavy * (g * df ^ 3))) (fun q =>
  rbind (pdiv q inverse_viscosity_number) (fun mu_h =>
  rbind (pdiv mu_h (water_mu / air_mu)) (fun mu_l =>
  rbind (pdiv (density_diff * g * df ^ 2) bond) (fun sigma =>
  Ok {| density_heavy := density_heavy; density_light := rho_l; dynamic_viscosity_heavy := mu_h; dynamic_viscosity_light := mu_l; surface_tension := sigma; mobility := / 5;
        gravitational_acceleration := - g; interface_thickness := 5 |})))))))))).
(* 383-435 calculate_parameters_droplet_migration; the defaults of ThermocapillaryParameters are in 152-154 *)
Definition calculate_parameters_droplet_migration (radius reynolds capillary marangoni peclet viscosity_ratio heat_ratio interface_width reference_surface_tension : R)
    (height : option R) : res thermo :=
  let height := match height with None => 2 * radius | Some h => h end in
  rbind (pdiv (reynolds * capillary * reference_surface_tension) radius) (fun x =>
  rbind (psqrt x) (fun u =>
  rbind (pdiv u radius) (fun gamma =>
  let u_wall := gamma * height in
  rbind (pdiv (radius * u) reynolds) (fun nu_h =>
  rbind (pdiv nu_h viscosity_ratio) (fun nu_l =>
  rbind (pdiv (radius * u) marangoni) (fun k_h =>
  rbind (pdiv k_h heat_ratio) (fun k_l =>
  rbind (pdiv (gamma * radius * interface_width) peclet) (fun m =>
  rbind (pdiv 1 gamma) (fun t =>
  Ok {| base := {| density_heavy := 1; density_light := 1; dynamic_viscosity_heavy := nu_h; dynamic_viscosity_light := nu_l; surface_tension := 0; mobility := m;
                   gravitational_acceleration := 0; interface_thickness := 5 |};
        heat_conductivity_heavy := k_h; heat_conductivity_light := k_l; sigma_ref := 5 / 1000; sigma_t := 2 / 10000; tmp_ref := 0;
        velocity_wall := u_wall; reference_time := Int_part t |}))))))))).   (* int() of a positive float *)
