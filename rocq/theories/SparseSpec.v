(* What dense pull streaming reads, and when periodic and wall flags are consistent (C35). *)
From Coq Require Import List ZArith Bool Arith.
From Verif Require Import StencilModel StreamSpec SparseModel.
Import ListNotations.
Local Open Scope Z_scope.

Section Spec.
  Variables (S : stencil) (shape : list nat) (flags : coord -> Z) (fluid_flag no_slip_flag other_mask : Z) (g : nat).
  Definition flagged (mask : Z) (c : coord) : Prop := Z.land (flags c) mask <> 0.
  Definition in_domain (c : coord) : Prop := Forall2 (fun x n => 0 <= x < Z.of_nat n) c shape.
  (* inside the ghost layers *)
  Definition interior (c : coord) : Prop := Forall2 (fun x n => Z.of_nat g <= x < Z.of_nat n - Z.of_nat g) c shape.
  Definition fluid (c : coord) : Prop := in_domain c /\ flagged fluid_flag c.
  (* cells that carry populations: fluid, or a boundary handled by its own kernel *)
  Definition active (c : coord) : Prop := flagged fluid_flag c \/ flagged other_mask c.
  Definition wall (c : coord) : Prop := flagged no_slip_flag c.
  Definition upwind (x : coord) (j : nat) : coord := vadd x (vneg (dir S j)).
  (* z is the interior cell that y, a cell outside the interior, is a periodic image of *)
  Inductive congruent : coord -> coord -> list nat -> Prop :=
  | cg_nil : congruent [] [] []
  | cg_cons y z n ys zs ns : (exists k, z = y + k * (Z.of_nat n - 2 * Z.of_nat g)) -> congruent ys zs ns ->
      congruent (y :: ys) (z :: zs) (n :: ns).
  Definition image (y z : coord) : Prop := ~ interior y /\ interior z /\ congruent y z shape.

  (* pull streaming with bounce-back walls and periodicity: direction j of cell x comes from population k of cell y *)
  Inductive pulls (x : coord) (j : nat) : coord -> nat -> Prop :=
  | pull_neighbour : active (upwind x j) -> pulls x j (upwind x j) j
  | pull_bounce k : ~ active (upwind x j) -> wall (upwind x j) -> opposite S j k -> pulls x j x k
  | pull_periodic z : ~ active (upwind x j) -> ~ wall (upwind x j) -> image (upwind x j) z -> active z -> pulls x j z j.
End Spec.

(* a stencil with the rest direction first, only once, all velocities components -1, 0, 1 *)
Definition unit_stencil (dim : nat) (S : stencil) : Prop :=
  Forall (fun c => length c = dim /\ Forall (fun e => -1 <= e <= 1) c) S /\ NoDup S /\ nth_error S 0 = Some (repeat 0 dim).

(* Geometries the index list is meant for: g ghost layers around the fluid, no cell is fluid and boundary at once. *)
Definition sparse_geometry (S : stencil) (shape : list nat) (flags : coord -> Z) (fluid_flag other_mask : Z) (g : nat) : Prop :=
  unit_stencil (length shape) S /\ (forall d, In d S -> In (vneg d) S) /\ (1 <= g)%nat /\
  (forall c, fluid shape flags fluid_flag c -> interior shape g c) /\
  (forall c, in_domain shape c -> ~ (flagged flags fluid_flag c /\ flagged flags other_mask c)).
(* Walls: no fluid cell is a wall, and where populations pass a periodic border the way back is not blocked by a wall. *)
Definition two_sided_walls (S : stencil) (shape : list nat) (flags : coord -> Z) (fluid_flag no_slip_flag other_mask : Z) (g : nat) : Prop :=
  (forall c, fluid shape flags fluid_flag c -> ~ wall flags no_slip_flag c) /\
  (forall x j z, fluid shape flags fluid_flag x -> (j < length S)%nat ->
     ~ active flags fluid_flag other_mask (upwind S x j) -> ~ wall flags no_slip_flag (upwind S x j) -> image shape g (upwind S x j) z ->
     ~ wall flags no_slip_flag (vadd z (dir S j))).
