(* What the free energies have to satisfy *)
From Coq Require Import List Arith Reals.
From Verif Require Import StencilModel RealLib EnergyModel.
Import ListNotations.
Local Open Scope R_scope.

(* order parameters of n independent phases (the phase with index n is the dependent one): c of phase a, 1 - c of phase b *)
Definition mix (n a b : nat) (c : R) : list R := map (fun i => if i =? a then c else if i =? b then 1 - c else 0) (seq 0 n).
Definition mix_gradient (n a b : nat) (dc : R) : list R := map (fun i => if i =? a then dc else if i =? b then - dc else 0) (seq 0 n).
Definition pure (n a : nat) : list R := map (fun i => if i =? a then 1 else 0) (seq 0 n).
Definition zero_gradient (n : nat) : list R := repeat 0 n.
(* the change of the k-th entry by t *)
Definition shift (l : list R) (k : nat) (t : R) : list R := map (fun i => if i =? k then nth i l 0 + t else nth i l 0) (seq 0 (length l)).

(* a profile phi(x) with derivative dphi(x) makes the energy stationary in the k-th order parameter (chemical potential zero):
   the derivative of the energy density by phi_k is the x-derivative of the derivative by phi_k' *)
Definition stationary (energy : list R -> list R -> R) (phi dphi : R -> list R) (k : nat) : Prop :=
  exists A B : R -> R, forall x,
    derivable_pt_lim (fun t => energy (shift (phi x) k t) (dphi x)) 0 (A x) /\
    derivable_pt_lim (fun t => energy (phi x) (shift (dphi x) k t)) 0 (B x) /\
    derivable_pt_lim B x (A x).

(* the integral over the real line *)
Definition improper_integral (f : R -> R) (v : R) : Prop :=
  forall eps, 0 < eps -> exists M, forall a b, a < - M -> M < b ->
    exists pr : Riemann_integrable f a b, Rabs (RiemannInt pr - v) < eps.

Definition on_circle (p m : R * R) (r : R) : Prop := (fst p - fst m) ^ 2 + (snd p - snd m) ^ 2 = r ^ 2.
