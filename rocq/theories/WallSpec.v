(* Velocity profiles near a wall (u+ as a function of y+), friction velocity, and the exchange of mass and momentum at a wall. *)
From Coq Require Import List ZArith Bool Arith Reals.
From Verif Require Import StencilModel RealLib.
Import ListNotations.
Local Open Scope R_scope.

Definition log_profile (kappa b up yp : R) : Prop := up = / kappa * ln yp + b.
(* Spalding: y+ as a function of u+; exp k - 1 - k - k^2/2 - k^3/6 is the exponential series from the fourth-order term on *)
Definition spalding_profile (kappa b up yp : R) : Prop :=
  yp = up + exp (- (kappa * b)) * (exp (kappa * up) - (1 + kappa * up + (kappa * up) ^ 2 / 2 + (kappa * up) ^ 3 / 6)).
Definition musker_profile (up yp : R) : Prop :=
  up = 5.424 * atan ((119760479041916168 / 10 ^ 18) * yp - 488023952095808383 / 10 ^ 18)
       + 0.434 * (9.6 * ln (yp + 10.6) - 2 * ln (yp ^ 2 - 8.15 * yp + 86)) - 350727901936264842 / 10 ^ 17.
(* the friction velocity r of a flow with velocity u at distance d from the wall: u+ = u / r, y+ = d r / nu *)
Definition friction_velocity (profile : R -> R -> Prop) (nu d u r : R) : Prop := 0 < r /\ profile (u / r) (d * r / nu).
(* value from which the iteration starts: the given one, otherwise a hundredth of the velocity *)
Inductive starts_at (u : R) : option R -> R -> Prop :=
| start_given t : t <> 0 -> starts_at u (Some t) t
| start_default : starts_at u None (u / 100)
| start_zero : starts_at u (Some 0) (u / 100).
(* from the first step on the values increase towards r, with an error that shrinks at least geometrically *)
Definition converges_from_below (T : nat -> R) (r : R) : Prop :=
  (forall n, (1 <= n)%nat -> 0 < T n /\ T n <= T (Datatypes.S n) /\ T n <= r) /\
  exists q, 0 <= q < 1 /\ forall n, r - T (Datatypes.S n) <= q ^ n * r.

(* links of a cell at a straight wall with the given normal (pointing into the fluid) *)
Definition component (c : vec) (j : nat) : Z := nth j c 0%Z.
Definition wall_links (S : stencil) (normal : vec) : list nat :=
  filter (fun i => (fold_right Z.add 0 (map (fun j => component (nth i S []) j * component normal j) (seq 0 3)) =? -1)%Z) (seq 0 (length S)).
(* a unit normal along one axis *)
Definition wall_normal (axis : nat) (sign : bool) : vec := map (fun j => if Nat.eqb j axis then (if sign then 1 else -1)%Z else 0%Z) (seq 0 3).
(* v i: population leaving the wall on link i, in the direction opposite to that of the link *)
Definition leaving_mass (links : list nat) (v : nat -> R) : R := rsum (map v links).
Definition leaving_momentum (S : stencil) (links : list nat) (v : nat -> R) (j : nat) : R :=
  rsum (map (fun i => - IZR (component (nth i S []) j) * v i) links).
