(* Specification: the strain rate and the populations of first order of a method. *)
From Coq Require Import List ZArith Bool Arith Reals.
From Verif Require Import StencilModel RealLib LinLib EqModel EqSpec TransModel TransSpec CeModel CeSpec.
Import ListNotations.
Local Open Scope R_scope.

(* env_gu E a b is the derivative of u_a along axis b *)
Definition strain_rate (E : env) (a b : nat) : R := 1 / 2 * (env_gu E a b + env_gu E b a).

(* f1: solution of the first order equation of the Chapman-Enskog expansion in a state E (density, velocity, derivatives) for a method with
   the relaxation rate ws of the mixed second moments and the differences of the squares, and wb of the sum of the squares *)
Record first_order (S : stencil) (ps : list poly) (Minv : mat) (rates : list R) (ws wb cs2 : R) (compr : bool) (eq : list epoly) (rest : nat -> nat -> nat -> epoly) (E : env) (f1 : list R) : Prop := {
  fo_dim : Forall (fun c => length c = dimD S) S;
  fo_moments : length ps = length S; fo_rates : length rates = length S; fo_inverse : is_inverse (length S) (moment_matrix ps S (rzero (dimD S))) Minv;
  fo_length : length f1 = length S; fo_pos : (0 < dimD S)%nat;
  fo_hydro : hydrodynamic (dimD S) (equilibrium_moment S eq) compr cs2 rest; fo_rho : env_rho E <> 0; fo_eq : length eq = length S;
  fo_equation : collision_operator (moment_matrix ps S (rzero (dimD S))) Minv rates f1 = map (fun pc => direction_transport (dimD S) E (snd pc) (fst pc)) (combine eq S);
  fo_ws : ws <> 0; fo_wb : wb <> 0;
  fo_mass_rate : exists w, relaxes_with S ps rates w (fun _ => 1);
  fo_momentum_rate : forall a, (a < dimD S)%nat -> exists w, relaxes_with S ps rates w (fun c => comp c a);
  fo_mixed_rate : forall a b, (a < dimD S)%nat -> (b < dimD S)%nat -> a <> b -> relaxes_with S ps rates ws (fun c => comp c a * comp c b);
  fo_normal_rate : forall a b, (a < dimD S)%nat -> (b < dimD S)%nat -> relaxes_with S ps rates ws (fun c => comp c a ^ 2 - comp c b ^ 2);
  fo_bulk_rate : relaxes_with S ps rates wb (fun c => rsum (map (fun a => comp c a ^ 2) (seq 0 (dimD S))));
  fo_mass : density f1 S = 0; fo_momentum : forall a, (a < dimD S)%nat -> momentum f1 S a = 0 }.

(* populations before the collision: equilibrium plus f1; after it: plus the collision operator applied to f1 *)
Definition add2 (f g : list R) : list R := map (fun p => fst p + snd p) (combine f g).
Definition equilibrium_values (eq : list epoly) (E : env) : list R := map (epoly_value (env_rho E) (env_u E)) eq.
Definition pre_collision (eq : list epoly) (E : env) (f1 : list R) : list R := add2 (equilibrium_values eq E) f1.
Definition post_collision (S : stencil) (ps : list poly) (Minv : mat) (rates : list R) (eq : list epoly) (E : env) (f1 : list R) : list R :=
  add2 (pre_collision eq E f1) (collision_operator (moment_matrix ps S (rzero (dimD S))) Minv rates f1).
(* what the assignments store in entry (a, b) of the D x D tensor *)
Definition stored (D : nat) (l : list (nat * R)) (a b : nat) (v : R) : Prop := In ((a * D + b)%nat, v) l.
