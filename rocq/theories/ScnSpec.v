(* What the ready-made scenarios promise, said without their code: cells of a box, its walls, pipes, and balance of three tensions. *)
From Coq Require Import List ZArith Bool Arith Reals.
From Verif Require Import StencilModel StreamModel GridModel RealLib LinLib ScnModel.
Import ListNotations.
Local Open Scope R_scope.

(* cells of the domain, and of the array with one ghost layer *)
Definition inner (shape x : list Z) : bool := forallb (fun nz => ((1 <=? snd nz) && (snd nz <=? fst nz))%Z%bool) (combine shape x).
Definition in_array (shape x : list Z) : Prop := length x = length shape /\ forall k, (k < length shape)%nat -> (0 <= nth k x 0 <= nth k shape 0 + 1)%Z.
(* outside the domain along axis k *)
Definition outside (shape x : list Z) (k : nat) : bool := negb ((1 <=? nth k x 0) && (nth k x 0 <=? nth k shape 0))%Z%bool.
(* cells without periodicity: all integer positions *)
Definition space (D : nat) : lattice := grid (repeat None D).
Definition inner_cell (shape : list Z) (x : cell (space (length shape))) : bool := inner shape (proj1_sig x).

(* distance of a point from the axis of a pipe through the middle of the domain; y, sizes: coordinates across the flow *)
Definition axis_distance (sizes : list Z) (y : list R) : R := sqrt (rsum (map (fun nz => (snd nz - IZR (fst nz) / 2) ^ 2) (combine sizes y))).
Definition cell_centre (x : list Z) : list R := map (fun z => IZR z - 1 / 2) x.
(* mirror image of a cell at the middle plane orthogonal to axis k *)
Definition mirror_cell (shape : list Z) (k : nat) (x : list Z) : list Z :=
  map (fun j => if Nat.eqb j k then (nth j shape 0 + 1 - nth j x 0)%Z else nth j x 0%Z) (seq 0 (length x)).
(* three forces of sizes g01, g02, g12 in a plane, the second and third at angles a0 and a1 to either side of the first, add up to zero *)
Definition in_balance (g01 g02 g12 a0 a1 : R) : Prop := g01 + g02 * cos a0 + g12 * cos a1 = 0 /\ g02 * sin a0 = g12 * sin a1.
Definition radians (degrees : R) : R := degrees * PI / 180.

(* channels: outside the domain across the flow (flow along axis 0); what drives the flow, given the three optional numbers *)
Definition sideways (shape x : list Z) : bool := existsb (fun k => outside shape x k) (seq 1 (length shape - 1)).
Inductive drive := ByForce (F : R) | ByPressure (dp : R) | ByInflow (u_max : R).
Definition absent (p : option R) : Prop := forall x, p = Some x -> x = 0.
Definition driven_by (force pressure_difference u_max : option R) (d : drive) : Prop :=
  match d with
  | ByForce F => force = Some F /\ F <> 0 /\ absent pressure_difference /\ absent u_max
  | ByPressure dp => pressure_difference = Some dp /\ dp <> 0 /\ absent force /\ absent u_max
  | ByInflow u => u_max = Some u /\ u <> 0 /\ absent force /\ absent pressure_difference
  end.
(* what is set on a cell of the channel which is not a wall; diameter at the inflow: that at x = 0 *)
Definition opening_at (shape : list Z) (d : drive) (diameter : R -> R) (x : list Z) : option opening :=
  if Z.eqb (nth 0 x 0%Z) 0 then match d with ByForce _ => None | ByPressure dp => Some (Density (1 + dp)) | ByInflow u => Some (Inflow u (diameter 0)) end
  else if Z.eqb (nth 0 x 0%Z) (nth 0 shape 0 + 1)%Z then match d with ByForce _ => None | _ => Some (Density 1) end
  else None.
