(* Textbook relations used by the statements about rates, scalings and viscosity models. *)
From Coq Require Import List Reals.
From Verif Require Import StencilModel RealLib.
Import ListNotations.
Local Open Scope R_scope.

(* nu = c_s^2 (tau - 1/2), c_s^2 = 1/3, tau = 1/omega *)
Definition viscosity (omega : R) : R := 1 / 3 * (1 / omega - 1 / 2).
(* Lambda = (tau_even - 1/2) (tau_odd - 1/2) *)
Definition magic (omega omega' : R) : R := (1 / omega - 1 / 2) * (1 / omega' - 1 / 2).
Definition Re (len vel visc : R) : R := len * vel / visc.

(* sum over the stencil of c_i c_j f *)
Definition stress (S : stencil) (f : list R) (i j : nat) : R :=
  rsum (map (fun fc => IZR (nth i (snd fc) 0%Z) * IZR (nth j (snd fc) 0%Z) * fst fc) (combine f S)).
(* sum of the squared entries of a D x D tensor *)
Definition sq_norm (D : nat) (M : nat -> nat -> R) : R :=
  rsum (map (fun i => rsum (map (fun j => M i j * M i j) (seq 0 D))) (seq 0 D)).
(* |S| = sqrt (2 S_ij S_ij) with S_ij = - 3 omega / (2 rho) Pi_ij *)
Definition strain_norm (D : nat) (S : stencil) (omega rho : R) (fneq : list R) : R :=
  sqrt (2 * sq_norm D (fun i j => - (3 * omega) / (2 * rho) * stress S fneq i j)).
(* strain rate tensor implied by the non-equilibrium stress and the rate *)
Definition strain (S : stencil) (omega rho : R) (fneq : list R) (i j : nat) : R := - (3 * omega) / (2 * rho) * stress S fneq i j.
(* determinant of a 2 x 2 or 3 x 3 tensor: Leibniz formula *)
Definition determinant (D : nat) (M : nat -> nat -> R) : R :=
  let m := M in
  if Nat.eqb D 2 then m 0%nat 0%nat * m 1%nat 1%nat - m 0%nat 1%nat * m 1%nat 0%nat
  else m 0%nat 0%nat * m 1%nat 1%nat * m 2%nat 2%nat + m 0%nat 1%nat * m 1%nat 2%nat * m 2%nat 0%nat + m 0%nat 2%nat * m 1%nat 0%nat * m 2%nat 1%nat
     - m 0%nat 2%nat * m 1%nat 1%nat * m 2%nat 0%nat - m 0%nat 1%nat * m 1%nat 0%nat * m 2%nat 2%nat - m 0%nat 0%nat * m 1%nat 2%nat * m 2%nat 1%nat.
(* eddy viscosity of the QR model: C max(r, 0) / q with r = - det S and q = S_ij S_ij / 2 *)
Definition qr_eddy_viscosity (D : nat) (S : stencil) (c omega rho : R) (fneq : list R) : R :=
  c * Rmax (- determinant D (strain S omega rho fneq)) 0 / (1 / 2 * sq_norm D (strain S omega rho fneq)).
