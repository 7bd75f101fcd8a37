(* A liquid lens: a drop between two phases whose interface is level.
   At the left triple point the upper interface of the drop leaves at the angle alpha above the horizontal, the lower interface at the angle beta below. *)
From Coq Require Import List Reals.
From Verif Require Import LensModel.
Import ListNotations.
Local Open Scope R_scope.

Definition degrees (a : R) : R := a * 180 / PI.
(* the circle through the triple points (px, py) and (px + 2 h, py) whose arc from the left one starts in the direction (cos alpha, sin alpha):
   its center is perpendicular to this direction, to its right *)
Definition upper_interface (px py h alpha : R) : circle := Circle (px + h, py - h * (cos alpha / sin alpha)) (h / sin alpha).
(* the mirror image of it *)
Definition lower_interface (px py h beta : R) : circle := Circle (px + h, py + h * (cos beta / sin beta)) (h / sin beta).
(* the angles of the phases above and below and of the drop *)
Definition lens_angles (alpha beta : R) : list R := [degrees (PI - alpha); degrees (PI - beta); degrees (alpha + beta)].
(* the forces on the left triple point are in balance: upper, lower and drop tensions act along the interfaces *)
Definition equilibrium (g_above_below g_above_drop g_below_drop alpha beta : R) : Prop :=
  g_above_below = g_above_drop * cos alpha + g_below_drop * cos beta /\ g_above_drop * sin alpha = g_below_drop * sin beta.
