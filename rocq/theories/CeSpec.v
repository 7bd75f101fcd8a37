(* Specification for the Chapman-Enskog analysis: values of its expressions, hydrodynamic equilibria, the Newtonian stress. *)
From Coq Require Import List ZArith Bool Arith Reals.
From Verif Require Import StencilModel RealLib LinLib EqSpec TransModel TransSpec CeModel.
Import ListNotations.
Local Open Scope R_scope.

(* values of density, velocity and of their derivatives at one point: [env_gu a b] is the derivative of u_a along axis b *)
Record env := { env_rho : R; env_u : nat -> R; env_gu : nat -> nat -> R; env_gr : nat -> R; env_tu : nat -> R; env_tr : R }.
Definition sym_value (E : env) (s : sym) : R :=
  match s with SU a => env_u E a | GU a b => env_gu E a b | GR b => env_gr E b | TU a => env_tu E a | TR => env_tr E end.
Definition dterm_value (E : env) (t : dterm) : R :=
  let '(c, k, l) := t in c * powerRZ (env_rho E) k * fold_right Rmult 1 (map (sym_value E) l).
Definition dexp_value (E : env) (p : dexp) : R := rsum (map (dterm_value E) p).

(* density for compressible, 1 for incompressible methods *)
Definition carrier (compressible : bool) (rho : R) : R := if compressible then rho else 1.

(* equilibria whose moments up to third order are those of a Maxwellian with speed of sound cs2^(1/2), up to the terms [rest]
   with three or more velocity factors in the third moment *)
Record hydrodynamic (D : nat) (eqm : list nat -> epoly) (compressible : bool) (cs2 : R) (rest : nat -> nat -> nat -> epoly) : Prop := {
  hyd_density : forall rho u, epoly_value rho u (eqm []) = rho;
  hyd_momentum : forall rho u a, (a < D)%nat -> epoly_value rho u (eqm [a]) = carrier compressible rho * u a;
  hyd_stress : forall rho u a b, (a < D)%nat -> (b < D)%nat ->
    epoly_value rho u (eqm [a; b]) = carrier compressible rho * u a * u b + delta a b * cs2 * rho;
  hyd_third : forall rho u a b c, (a < D)%nat -> (b < D)%nat -> (c < D)%nat ->
    epoly_value rho u (eqm [a; b; c]) =
      cs2 * carrier compressible rho * (u a * delta b c + u b * delta a c + u c * delta a b) + epoly_value rho u (rest a b c);
  hyd_rest : forall a b c, (a < D)%nat -> (b < D)%nat -> (c < D)%nat ->
    Forall (fun t : eterm => (3 <= length (snd t))%nat) (rest a b c) }.

(* divergence of the velocity *)
Definition divergence (D : nat) (E : env) : R := rsum (map (fun c => env_gu E c c) (seq 0 D)).
(* minus the viscous stress of a Newtonian fluid with shear viscosity mu and bulk viscosity zeta *)
Definition newtonian_flux (D : nat) (mu zeta : R) (E : env) (a b : nat) : R :=
  - (mu * (env_gu E a b + env_gu E b a - 2 / 3 * delta a b * divergence D E) + zeta * delta a b * divergence D E).

(* what the first order second moments of a hydrodynamic equilibrium contain besides the rate of strain: terms with a density
   gradient or with several velocity factors.  For compressible equilibria it is the divergence of the difference between
   [rest] and rho u_a u_b u_c *)
Definition stress_errors (D : nat) (compressible : bool) (cs2 : R) (rest : nat -> nat -> nat -> epoly) (a b : nat) : dexp :=
  flat_map (fun c => diff_poly (Some c) (rest a b c)) (seq 0 D) ++
  if compressible then dneg (flat_map (fun c => diff_poly (Some c) [(1, 1%nat, [a; b; c])]) (seq 0 D))
  else dneg (dmul [(1, 0%Z, [SU a])] (flat_map (fun c => diff_poly (Some c) [(1, 0%nat, [b; c])]) (seq 0 D)) ++
             dmul [(1, 0%Z, [SU b])] (flat_map (fun c => diff_poly (Some c) [(1, 0%nat, [a; c])]) (seq 0 D)) ++
             [(cs2, 0%Z, [SU a; GR b]); (cs2, 0%Z, [SU b; GR a])]).

(* [v] is the derivative of the polynomial [p] when density and velocities change with the derivatives recorded in [E] *)
Definition is_derivative (E : env) (x : target) (p : epoly) (v : R) : Prop :=
  derivable_pt_lim (fun h => epoly_value (env_rho E + h * sym_value E (diff_rho x)) (fun a => env_u E a + h * sym_value E (diff_u x a)) p) 0 v.

(* operators on fields that respect sums, multiples and pointwise equality *)
Definition linear_field {X : Type} (L : (X -> R) -> (X -> R)) : Prop :=
  (forall f g x, L (fadd f g) x = L f x + L g x) /\ (forall a f x, L (fscal a f) x = a * L f x) /\
  (forall f g, (forall x, f x = g x) -> forall x, L f x = L g x).

(* the quantity sum_q g(c_q) f_q is relaxed with the single rate [w]: g is a combination of moment polynomials with this rate *)
Definition relaxes_with (S : stencil) (ps : list poly) (rates : list R) (w : R) (g : vec -> R) : Prop :=
  exists ks, length ks = length ps /\
    (forall c, In c S -> g c = rsum (map (fun kp => fst kp * peval (snd kp) (vecR c)) (combine ks ps))) /\
    (forall i, (i < length ps)%nat -> nth i ks 0 <> 0 -> nth i rates 0 = w).

(* left hand side of the first order equation at direction c with equilibrium p: derivative along the first time scale plus
   c times the gradient *)
Definition direction_transport (D : nat) (E : env) (c : vec) (p : epoly) : R :=
  dexp_value E (diff_poly None p) + rsum (map (fun a => comp c a * dexp_value E (diff_poly (Some a) p)) (seq 0 D)).

(* the check accepts: all conditions are fulfilled, for every density and gradient *)
Definition check_accepts (D : nat) (eqm : list nat -> epoly) (wm wn wb : R) : Prop :=
  forall E, env_rho E <> 0 ->
    Forall (fun c => c = 0) (navier_stokes_conditions D eqm wm wn wb (env_rho E)) /\
    Forall (fun p => dexp_value E p = 0) (navier_stokes_remaining D eqm wm wn wb).
(* the stress without error terms is that of a Newtonian fluid with viscosities depending on the density only *)
Definition is_newtonian (D : nat) (eqm : list nat -> epoly) (wm wn wb : R) : Prop :=
  exists mu zeta : R -> R, forall E a b, env_rho E <> 0 -> (a < D)%nat -> (b < D)%nat ->
    dexp_value E (sigma D eqm wm wn wb a b) = newtonian_flux D (mu (env_rho E)) (zeta (env_rho E)) E a b.
