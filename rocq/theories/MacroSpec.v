(* Macroscopic state of populations, from first principles. *)
From Coq Require Import List ZArith Bool Arith Reals.
From Verif Require Import StencilModel RealLib LinLib TransSpec EqSpec CollModel.
Import ListNotations.
Local Open Scope R_scope.

(* physical mass of stored populations: populations relative to a rest state of density 1 if zc *)
Definition physical_density (zc : bool) (S : stencil) (f : list R) : R := density f S + (if zc then 1 else 0).
(* half of the force acting on the fluid, component a *)
Definition half_force (force : option (force_model * list R)) (a : nat) : R :=
  match force with None => 0 | Some (_, F) => nth a F 0 / 2 end.
(* populations with density rho and macroscopic velocity u: the momentum plus half of the force is rho u (u if incompressible) *)
Definition has_state (D : nat) (S : stencil) (zc compr : bool) (force : option (force_model * list R)) (f : list R) (rho : R) (u : list R) : Prop :=
  physical_density zc S f = rho /\
  forall a, (a < D)%nat -> momentum f S a + half_force force a = (if compr then rho else 1) * nth a u 0.
Definition force_of_dim (D : nat) (force : option (force_model * list R)) : Prop := forall fm F, force = Some (fm, F) -> length F = D.
