(* Specification: when a flag array with ghost layers describes the same geometry as a periodic lattice. *)
From Coq Require Import List ZArith Bool.
From Verif Require Import StencilModel GridModel SparseModel SparseSpec.
Import ListNotations.
Local Open Scope Z_scope.

(* the interior and the layer around it, which the interior cells see *)
Definition near (shape : list nat) (g : nat) (c : coord) : Prop := Forall2 (fun x n => Z.of_nat g - 1 <= x <= Z.of_nat n - Z.of_nat g) c shape.
(* position of an array coordinate in the lattice, and back *)
Definition lattice_coord (N : list positive) (g : nat) (c : coord) : vec := map (fun p => (fst p - Z.of_nat g) mod Zpos (snd p)) (combine c N).
Definition array_coord (g : nat) (y : vec) : coord := map (fun z => z + Z.of_nat g) y.

(* Axes are either periodic, the lattice is as long as the interior, or closed: the two layers next to the interior are one layer of the lattice, without
   fluid.  A cell of the array is flagged as wall if its position in the lattice is solid, as fluid if that is fluid and the cell is in the interior. *)
Record same_geometry (N : list positive) (shape : list nat) (g : nat) (flags : coord -> Z) (fluid_flag no_slip_flag other_mask : Z) (is_fluid : vec -> bool) : Prop := {
  sg_ghosts : (1 <= g)%nat;
  sg_sizes : Forall2 (fun N n => Zpos N = Z.of_nat n - 2 * Z.of_nat g \/ Zpos N = Z.of_nat n - 2 * Z.of_nat g + 1) N shape;
  sg_closed : forall y, in_grid (torus_shape N) y = true -> is_fluid y = true -> Forall2 (fun z n => z < Z.of_nat n - 2 * Z.of_nat g) y shape;
  sg_fluid : forall c, near shape g c -> (flagged flags fluid_flag c <-> interior shape g c /\ is_fluid (lattice_coord N g c) = true);
  sg_wall : forall c, near shape g c -> (flagged flags no_slip_flag c <-> is_fluid (lattice_coord N g c) = false);
  sg_other : forall c, ~ flagged flags other_mask c;
  sg_outer : forall c, in_domain shape c -> flagged flags fluid_flag c -> interior shape g c }.
