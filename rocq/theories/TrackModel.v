(* Model: collisions with prescribed density and velocity under a force (creationfunctions.py:642-690 with a force model), the interface
   tracking step and its initialisation (phasefield_allen_cahn/kernel_equations.py:303-318 and 376-419). *)
From Coq Require Import List ZArith Bool Arith Reals.
From Verif Require Import StencilModel RealLib LinLib TransSpec TransModel CollModel IniModel AcModel.
Import ListNotations.
Local Open Scope R_scope.

(* creationfunctions.py:661-677 with a force model: the velocity computed from the populations contains the shift of the force model; the given
   components replace it *)
Definition forced_quantities (D : nat) (S : stencil) (zc compr : bool) (force : force_model * list R) (rho_in : option R) (u_in : option (list R)) (f : list R) : res (R * list R) :=
  let rho := pdf_density zc f in
  let u := equilibrium_velocity D S zc compr (Some force) f in
  match rho_in, u_in with
  | None, None => Ok (rho, u)
  | Some _, None => Err ValueError
  | None, Some v => Ok (rho, overwrite u v)
  | Some r, Some v => Ok (r, overwrite u v)
  end.
(* creationfunctions.py:679-684 with momentbasedmethod.py:320-416: density and velocity symbols of the force terms (375-377) are those of the
   equilibrium, i.e. the given ones *)
Definition raw_forced_collision (D : nat) (S : stencil) (ps : list poly) (zc compr : bool) (eqm : R -> list R -> list nat -> R) (ws : list R) (M : mat)
  (fwd bwd : list R -> res (list R)) (d : list R) (fm : force_model) (F : list R) (rho_in : option R) (u_in : option (list R)) (f : list R) : res (list R) :=
  rbind (forced_quantities D S zc compr (fm, F) rho_in u_in f) (fun q => let rho := fst q in let u := snd q in
  rbind (space_forcing fm D S ps M (fun m => m) ws d (raw_equilibrium_populations ps eqm bwd rho) compr rho u F) (fun g =>
  collide fwd bwd d (equilibrium_values ps (eqm rho u)) g f)).
(* the same with centralmomentbasedmethod.py:305-394 *)
Definition central_forced_collision (D : nat) (S : stencil) (ps : list poly) (zc compr : bool) (eqc : R -> list R -> list nat -> R) (ws : list R) (M Minv : mat)
  (fwd bwd : list R -> list R -> res (list R)) (d : list R) (fm : force_model) (F : list R) (rho_in : option R) (u_in : option (list R)) (f : list R) : res (list R) :=
  rbind (forced_quantities D S zc compr (fm, F) rho_in u_in f) (fun q => let rho := fst q in let u := snd q in
  rbind (space_forcing fm D S ps M (mv (shift_matrix (length S) (moment_matrix ps S u) Minv)) ws d (central_equilibrium_populations ps eqc bwd rho) compr rho u F) (fun g =>
  collide (fwd u) (bwd u) d (equilibrium_values ps (eqc rho u)) g f)).

(* kernel_equations.py:303-318: the symbolic force of the phase field's method is assigned the interface tracking force of the phase field around the
   cell; the velocity is given (velocity_input), the density is the phase *)
Definition interface_tracking_step (D : nat) (S FS : stencil) (ps : list poly) (zc compr : bool) (eqm : R -> list R -> list nat -> R) (ws : list R) (M : mat)
  (fwd bwd : list R -> res (list R)) (d : list R) (fm : force_model) (W : R) (phi : vec -> R) (v : list R) (f : list R) : res (list R) :=
  rbind (interface_tracking_force S FS W 1 0 phi) (fun F => raw_forced_collision D S ps zc compr eqm ws M fwd bwd d fm F None (Some v) f).
(* 376-419 with macroscopic_value_kernels.py:29-46: the equilibrium populations of get_equilibrium, whose density and velocity symbols are assigned
   phi and velocity - force / 2.  Simplification: methods whose equilibrium does not contain the density deviation, which is not assigned *)
Definition initializer_kernel_phase_field (S FS : stencil) (ps : list poly) (eqm : R -> list R -> list nat -> R) (bwd : list R -> res (list R)) (W : R)
  (phi : vec -> R) (v : list R) : res (list R) :=
  rbind (interface_tracking_force S FS W 1 0 phi) (fun F =>
  raw_equilibrium_populations ps eqm bwd (center FS phi) (map (fun i => nth i v 0 - 1 / 2 * nth i F 0) (seq 0 (dimD S)))).
Definition interface_tracking_step_central (D : nat) (S FS : stencil) (ps : list poly) (zc compr : bool) (eqc : R -> list R -> list nat -> R) (ws : list R) (M Minv : mat)
  (fwd bwd : list R -> list R -> res (list R)) (d : list R) (fm : force_model) (W : R) (phi : vec -> R) (v : list R) (f : list R) : res (list R) :=
  rbind (interface_tracking_force S FS W 1 0 phi) (fun F => central_forced_collision D S ps zc compr eqc ws M Minv fwd bwd d fm F None (Some v) f).

(* 321-373: every occurrence of the force symbols is divided by the density that belongs to the phase; [F] is the assigned force (AcModel.v:
   sub_iterated_force).  Domain: that density is not zero.  The additional equations (346-361) only define the density symbols. *)
Definition phase_density (rho_light rho_heavy p : R) : R := rho_light + p * (rho_heavy - rho_light).
Definition hydrodynamic_step (D : nat) (S : stencil) (ps : list poly) (zc compr : bool) (eqm : R -> list R -> list nat -> R) (ws : list R) (M : mat)
  (fwd bwd : list R -> res (list R)) (d : list R) (fm : force_model) (rho_light rho_heavy p : R) (F : list R) (f : list R) : res (list R) :=
  moment_collision D S ps zc compr eqm ws M fwd bwd d (Some (fm, map (fun x => x / phase_density rho_light rho_heavy p) F)) f.
Definition hydrodynamic_step_central (D : nat) (S : stencil) (ps : list poly) (zc compr : bool) (eqc : R -> list R -> list nat -> R) (ws : list R) (M Minv : mat)
  (fwd bwd : list R -> list R -> res (list R)) (d : list R) (fm : force_model) (rho_light rho_heavy p : R) (F : list R) (f : list R) : res (list R) :=
  central_collision D S ps zc compr eqc ws M Minv fwd bwd d (Some (fm, map (fun x => x / phase_density rho_light rho_heavy p) F)) f.
(* 422-440 with macroscopic_value_kernels.py:29-46: the force symbols are zero, so no velocity shift *)
Definition initializer_kernel_hydro (ps : list poly) (eqm : R -> list R -> list nat -> R) (bwd : list R -> res (list R)) (pressure : R) (velocity : list R) : res (list R) :=
  raw_equilibrium_populations ps eqm bwd pressure velocity.
