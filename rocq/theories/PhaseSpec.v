(* What the wetting value and the calculated parameters have to satisfy *)
From Coq Require Import List ZArith Reals.
From Verif Require Import StencilModel RealLib PhaseModel.
Local Open Scope R_scope.

(* distance of the two cell centres *)
Definition cell_distance (dir : list Z) : R := sqrt (rsum (map (fun x => IZR x * IZR x) dir)).
Definition degrees (theta : R) : R := theta * PI / 180.
(* the wetting condition n . grad phi = - cos(theta) |grad phi|, |grad phi| = 4/W phi (1 - phi), on the wall halfway between the cells
   (equation 25 of Fakhari et al.): finite difference on the left, average on the right *)
Definition wetting_residual (W theta : R) (dir : list Z) (phi_solid phi_fluid : R) : R :=
  let wall := (phi_solid + phi_fluid) / 2 in
  (phi_fluid - phi_solid) / cell_distance dir - - cos (degrees theta) * (4 / W) * wall * (1 - wall).
(* the ratio of cell distance and interface width times the cosine decides how strongly the wall bends the interface *)
Definition strength (W theta : R) (dir : list Z) : R := - (/ 2 * cell_distance dir) * (4 / W) * cos (degrees theta).

(* dimensionless numbers *)
Definition Reynolds (rho u l mu : R) : R := rho * u * l / mu.
Definition Capillary (mu u sigma : R) : R := mu * u / sigma.
Definition Peclet (u l m : R) : R := u * l / m.
Definition Atwood (heavy light : R) : R := (heavy - light) / (heavy + light).
Definition Bond (drho g d sigma : R) : R := drho * g * d ^ 2 / sigma.
(* inverse viscosity number of Taylor bubbles *)
Definition InverseViscosity (heavy light g d mu : R) : R := sqrt ((heavy - light) * heavy * g * d ^ 3) / mu.
Definition Marangoni (u l k : R) : R := u * l / k.
(* viscosity of an LB fluid with relaxation rate omega *)
Definition viscosity_of_rate (omega : R) : R := (1 / omega - 1 / 2) / 3.
