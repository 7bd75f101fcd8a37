(* Specification: heat conduction and creeping flow of two fluids in a channel, interface at y = 0. *)
From Coq Require Import List Reals.
Local Open Scope R_scope.

Definition partial_x (g : R -> R -> R) (x y d : R) : Prop := derivable_pt_lim (fun t => g t y) x d.
Definition partial_y (g : R -> R -> R) (x y d : R) : Prop := derivable_pt_lim (fun t => g x t) y d.
(* derivatives from one side *)
Definition right_derivative (g : R -> R) (y d : R) : Prop :=
  forall eps, 0 < eps -> exists delta, 0 < delta /\ forall h, 0 < h < delta -> Rabs ((g (y + h) - g y) / h - d) < eps.
Definition left_derivative (g : R -> R) (y d : R) : Prop :=
  forall eps, 0 < eps -> exists delta, 0 < delta /\ forall h, - delta < h < 0 -> Rabs ((g (y + h) - g y) / h - d) < eps.
(* one fluid: the points with P y *)
Definition conducts_heat (P : R -> Prop) (t : R -> R -> R) : Prop := exists tx ty txx tyy, forall x y, P y ->
  partial_x t x y (tx x y) /\ partial_y t x y (ty x y) /\ partial_x tx x y (txx x y) /\ partial_y ty x y (tyy x y) /\ txx x y + tyy x y = 0.
Definition creeping_flow (P : R -> Prop) (mu : R) (u v p : R -> R -> R) : Prop := exists ux uy uxx uyy vx vy vxx vyy px py, forall x y, P y ->
  partial_x u x y (ux x y) /\ partial_y u x y (uy x y) /\ partial_x ux x y (uxx x y) /\ partial_y uy x y (uyy x y) /\
  partial_x v x y (vx x y) /\ partial_y v x y (vy x y) /\ partial_x vx x y (vxx x y) /\ partial_y vy x y (vyy x y) /\
  partial_x p x y (px x y) /\ partial_y p x y (py x y) /\
  ux x y + vy x y = 0 /\ mu * (uxx x y + uyy x y) = px x y /\ mu * (vxx x y + vyy x y) = py x y.
(* u[j, i] of a two-dimensional array; None: no such entry *)
Definition entry (u : list (list R)) (j i : nat) : option R := match nth_error u j with Some row => nth_error row i | None => None end.
