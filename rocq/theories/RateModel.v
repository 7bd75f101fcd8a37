(* Model of src/lbmpy/relaxationrates.py (rates <-> viscosities), src/lbmpy/parameterization.py (Scaling),
   src/lbmpy/turbulence_models.py, src/lbmpy/non_newtonian_models.py and src/lbmpy/utils.py.
   None = the value is undefined (division by zero, root of a negative number: an exception in
   python, NaN in the generated kernel). *)
From Coq Require Import List ZArith Reals.
From Verif Require Import StencilModel RealLib.
Import ListNotations.
Local Open Scope R_scope.

(* ---- relaxationrates.py ---- *)

(* relaxationrates.py:6-8 *)
Definition relaxation_rate_from_lattice_viscosity (nu : R) : option R := rdiv 2 (6 * nu + 1).
(* relaxationrates.py:11-14 *)
Definition lattice_viscosity_from_relaxation_rate (omega : R) : option R := rdiv (2 - omega) (6 * omega).
(* relaxationrates.py:17-20 *)
Definition relaxation_rate_from_magic_number (omega magic : R) : option R :=
  rdiv (4 - 2 * omega) (4 * magic * omega + 2 - omega).
(* relaxationrates.py:61-71 *)
Definition relaxation_rate_scaling (omega s : R) : option R := rdiv omega (omega / 2 + s * (1 - omega / 2)).

(* ---- parameterization.py ---- *)

(* parameterization.py:167-172 *)
Definition reynolds_number (len vel visc : R) : option R :=
  obind (rdiv len visc) (fun q => Some (q * vel)).

(* parameterization.py:193-199: the object state; [s_re]: the cached Reynolds number *)
Record scaling := { s_len : R; s_vel : R; s_visc : R; s_cells : R; s_re : option R }.

(* parameterization.py:201-203 *)
Definition parameter_update (s : scaling) : scaling :=
  {| s_len := s_len s; s_vel := s_vel s; s_visc := s_visc s; s_cells := s_cells s;
     s_re := reynolds_number (s_len s) (s_vel s) (s_visc s) |}.
(* parameterization.py:193-199 *)
Definition mk_scaling (len vel visc cells : R) : scaling :=
  parameter_update {| s_len := len; s_vel := vel; s_visc := visc; s_cells := cells; s_re := None |}.
(* parameterization.py:213-240 the property setters; cells_per_length is a plain attribute *)
Inductive setter_call := SetVel (v : R) | SetVisc (v : R) | SetLen (v : R) | SetCells (v : R).
Definition apply_setter (s : scaling) (c : setter_call) : scaling :=
  match c with
  | SetVel v => parameter_update {| s_len := s_len s; s_vel := v; s_visc := s_visc s; s_cells := s_cells s; s_re := s_re s |}
  | SetVisc v => parameter_update {| s_len := s_len s; s_vel := s_vel s; s_visc := v; s_cells := s_cells s; s_re := s_re s |}
  | SetLen v => parameter_update {| s_len := v; s_vel := s_vel s; s_visc := s_visc s; s_cells := s_cells s; s_re := s_re s |}
  | SetCells v => {| s_len := s_len s; s_vel := s_vel s; s_visc := s_visc s; s_cells := v; s_re := s_re s |}
  end.

(* parameterization.py:205-207 *)
Definition s_dx (s : scaling) : option R := rdiv (s_len s) (s_cells s).

(* parameterization.py:242-260: (relaxation_rate, dt) *)
Definition fixed_lattice_velocity_scaling (s : scaling) (u : R) : option (R * R) :=
  obind (s_dx s) (fun dx =>
  obind (rdiv u (s_vel s)) (fun q =>
  let dt := q * dx in
  obind (rdiv (s_visc s * dt) (dx * dx)) (fun nu =>
  obind (relaxation_rate_from_lattice_viscosity nu) (fun w => Some (w, dt))))).

(* parameterization.py:262-278: (dt, lattice_velocity) *)
Definition diffusive_scaling (s : scaling) (omega : R) : option (R * R) :=
  obind (lattice_viscosity_from_relaxation_rate omega) (fun nu =>
  obind (rdiv (s_len s) (s_cells s)) (fun dx =>
  obind (rdiv nu (s_visc s)) (fun q =>
  let dt := q * (dx * dx) in
  obind (rdiv dt dx) (fun r => Some (dt, r * s_vel s))))).

(* parameterization.py:280-293: (relaxation_rate, lattice_velocity) *)
Definition acoustic_scaling (s : scaling) (dt : R) : option (R * R) :=
  obind (s_dx s) (fun dx =>
  obind (rdiv dt dx) (fun r =>
  let u := r * s_vel s in
  obind (rdiv (s_visc s * dt) (dx * dx)) (fun nu =>
  obind (relaxation_rate_from_lattice_viscosity nu) (fun w => Some (w, u))))).

(* ---- utils.py ---- *)

(* utils.py:4-7 *)
Definition second_order_moment (f : list R) (S : stencil) (i j : nat) : R :=
  rsum (map (fun fc => IZR (nth i (snd fc) 0%Z) * IZR (nth j (snd fc) 0%Z) * fst fc) (combine f S)).
(* entries of a D x D matrix in row order *)
Definition entries (D : nat) (M : nat -> nat -> R) : list R :=
  flat_map (fun i => map (M i) (seq 0 D)) (seq 0 D).
(* utils.py:10-13 *)
Definition frobenius_norm (D : nat) (M : nat -> nat -> R) (factor : R) : option R :=
  rsqrt (rsum (map (fun x => x * x) (entries D M)) * factor).

(* ---- turbulence_models.py ---- *)

(* turbulence_models.py:65-73: (adapted omega, Pi); [fneq]: populations minus equilibrium, [rho]: density
   (compressible) or background density, [c]: the model constant *)
Definition smagorinsky (D : nat) (S : stencil) (c omega rho : R) (fneq : list R) : option (R * R) :=
  obind (rdiv 1 omega) (fun tau0 =>
  obind (frobenius_norm D (second_order_moment fneq S) 2) (fun nrm =>
  obind (rdiv nrm rho) (fun Pi =>
  obind (rsqrt (18 * (c * c) * Pi + tau0 * tau0)) (fun sq =>
  obind (rdiv 2 (tau0 + sq)) (fun w => Some (w, Pi)))))).
(* turbulence_models.py:76-80 *)
Definition smagorinsky_eddy_viscosity (c w Pi : R) : R := c * c * (3 / 2) * w * Pi.

(* sympy Matrix.det for D = 2, 3 and trace(M * M) *)
Definition det2 (M : nat -> nat -> R) : R := M 0%nat 0%nat * M 1%nat 1%nat - M 0%nat 1%nat * M 1%nat 0%nat.
Definition det3 (M : nat -> nat -> R) : R :=
  M 0%nat 0%nat * (M 1%nat 1%nat * M 2%nat 2%nat - M 1%nat 2%nat * M 2%nat 1%nat)
  - M 0%nat 1%nat * (M 1%nat 0%nat * M 2%nat 2%nat - M 1%nat 2%nat * M 2%nat 0%nat)
  + M 0%nat 2%nat * (M 1%nat 0%nat * M 2%nat 1%nat - M 1%nat 1%nat * M 2%nat 0%nat).
Definition trace_sq (D : nat) (M : nat -> nat -> R) : R :=
  rsum (map (fun i => rsum (map (fun k => M i k * M k i) (seq 0 D))) (seq 0 D)).

(* turbulence_models.py:134: r' (python: sp.Float(-1) ** (D + 1) * det) *)
Definition qr_r (D : nat) (M : nat -> nat -> R) : option R :=
  match D with 2%nat => Some ((-1) ^ 3 * det2 M) | 3%nat => Some ((-1) ^ 4 * det3 M) | _ => None end.
(* turbulence_models.py:118-128: nu_e; None for D outside {2, 3} (ValueError) *)
Definition qr_nu_e (D : nat) (nu0 c_pi rho : R) : option R :=
  match D with
  | 2%nat => Some c_pi
  | 3%nat => let base := 6 * nu0 + 1 in
             obind (rdiv (72 * c_pi) rho) (fun t =>
             obind (rsqrt (base * base + t)) (fun sq => Some ((- base + sq) / 12)))
  | _ => None
  end.
(* turbulence_models.py:111-141: (adapted omega, nu_e) *)
Definition qr_model (D : nat) (S : stencil) (c omega rho : R) (fneq : list R) : option (R * R) :=
  let pi := second_order_moment fneq S in
  obind (lattice_viscosity_from_relaxation_rate omega) (fun nu0 =>
  obind (qr_r D pi) (fun r =>
  let q := 1 / 2 * trace_sq D pi in
  obind (rdiv (c * (if Rgt_dec r 0 then r else 0)) q) (fun c_pi =>
  obind (qr_nu_e D nu0 c_pi rho) (fun nu_e =>
  obind (relaxation_rate_from_lattice_viscosity (nu0 + nu_e)) (fun w => Some (w, nu_e)))))).

(* turbulence_models.py:15, 20: a falsy constant (None or 0) selects the default; 0.12 resp. 1/3 *)
Definition sgs_constant (model_constant : option R) (default : R) : R :=
  match model_constant with Some c => if Req_EM_T c 0 then default else c | None => default end.

(* ---- non_newtonian_models.py ---- *)

(* non_newtonian_models.py:53-68: mu, the unclamped local viscosity *)
Definition cassons_mu (yield_stress omega rho sigma : R) : option R :=
  obind (lattice_viscosity_from_relaxation_rate omega) (fun eta =>
  obind (rdiv yield_stress sigma) (fun theta =>
  obind (rdiv 1 (1 - theta)) (fun a =>
  obind (rdiv rho eta) (fun re =>
  obind (rsqrt (theta * (1 + re * (1 / 6) * (1 - theta)))) (fun sq =>
  let rhs := a * (1 + sq) in
  Some (eta * (rhs * rhs))))))).
(* non_newtonian_models.py:53-71 *)
Definition cassons (D : nat) (S : stencil) (yield_stress omega_min omega_max omega rho : R) (fneq : list R)
  : option R :=
  obind (frobenius_norm D (second_order_moment fneq S) 1) (fun sigma =>
  obind (cassons_mu yield_stress omega rho sigma) (fun mu =>
  obind (relaxation_rate_from_lattice_viscosity mu) (fun w =>
  obind (rdiv 1 w) (fun tau =>
  obind (rdiv 1 tau) (fun new_omega =>
    Some (if Rlt_dec new_omega omega_min then omega_min
          else if Rgt_dec new_omega omega_max then omega_max else new_omega)))))).
