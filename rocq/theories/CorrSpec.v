(* What the corrections of cumulant collisions are required to do, in terms of velocity gradients, monomial cumulants and the
   symmetry of the three coordinate axes. *)
From Coq Require Import List ZArith Bool Arith Reals.
Import ListNotations.
Local Open Scope R_scope.

(* c: second-order cumulants (times density).  Chapman-Enskog relates them to the velocity gradients dx u, dy v, dz w: the
   differences of the diagonal entries relax with the shear rate o1, the trace with the bulk rate o2. *)
Definition diagonal_gradients (o1 o2 rho cxx cyy czz dx dy dz : R) : Prop :=
  dx - dy = - (3 * o1 / (2 * rho)) * (cxx - cyy) /\
  dx - dz = - (3 * o1 / (2 * rho)) * (cxx - czz) /\
  dx + dy + dz = - (3 * o2 / (2 * rho)) * (cxx + cyy + czz - rho).

(* the axes i and j of a triple / of an exponent tuple exchanged *)
Definition swap_axis (i j k : nat) : nat := if Nat.eqb k i then j else if Nat.eqb k j then i else k.
Definition swap_triple {A} (d : A) (i j : nat) (l : list A) : list A := map (fun k => nth (swap_axis i j k) l d) (seq 0 3).
(* the cumulants of the flow with the axes exchanged *)
Definition swap_cumulants (i j : nat) (c : list nat -> R) : list nat -> R := fun e => c (swap_triple 0%nat i j e).

(* changes of the monomial cumulants xx, yy, zz that change x^2 - y^2, x^2 - z^2, x^2 + y^2 + z^2 by t *)
Definition second_order_changes (t delta : list R) : Prop :=
  length delta = 3%nat /\
  nth 0 delta 0 - nth 1 delta 0 = nth 0 t 0 /\ nth 0 delta 0 - nth 2 delta 0 = nth 1 t 0 /\
  nth 0 delta 0 + nth 1 delta 0 + nth 2 delta 0 = nth 2 t 0.
(* changes of the monomial cumulants yyzz, xxzz, xxyy (listed by the axis they do not contain) that change
   xxyy - 2 xxzz + yyzz, xxyy + xxzz - 2 yyzz, xxyy + xxzz + yyzz by t *)
Definition fourth_order_changes (t delta : list R) : Prop :=
  length delta = 3%nat /\
  nth 2 delta 0 - 2 * nth 1 delta 0 + nth 0 delta 0 = nth 0 t 0 /\
  nth 2 delta 0 + nth 1 delta 0 - 2 * nth 0 delta 0 = nth 1 t 0 /\
  nth 2 delta 0 + nth 1 delta 0 + nth 0 delta 0 = nth 2 t 0.
(* a relaxation rate that does not amplify *)
Definition admissible (omega : R) : Prop := 0 < omega < 2.
