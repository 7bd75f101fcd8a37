(* Plane shear waves: the momentum parallel to the planes x_b = const varies harmonically from plane to plane. *)
From Coq Require Import List ZArith Bool Reals.
From Verif Require Import RealLib LinLib StencilModel GridModel StreamModel StreamSpec EqSpec CollSpec ChanSpec.
Import ListNotations.
Local Open Scope R_scope.

(* populations of density q in local equilibrium to first order: momentum j parallel to the planes, no shear stress, the flux of shear stress that of the equilibrium *)
Definition shear_start (D : nat) (S : stencil) (b : nat) (q : R) (j : list R) (f : list R) : Prop :=
  at_rest_across S b q f /\ forall a, (a < D)%nat -> a <> b ->
    momentum f S a = nth a j 0 /\ second_moment f S a b = 0 /\ third_moment f S a b = nth a j 0 / 3.
(* m waves on a periodic block of M planes: advance of the phase from plane to plane, phase of a cell *)
Definition wave_number (m : Z) (M : positive) : R := 2 * PI * IZR m / IZR (Zpos M).
Definition phase (N : list positive) (b : nat) (kappa phi : R) (x : cell (torus N)) : R := kappa * IZR (nth b (proj1_sig x) 0%Z) + phi.
(* uniform flow U plus a wave of amplitudes A *)
Definition wave (U A : list R) (c : R) : list R := radd U (map (fun a => a * c) A).
