(* What boundary conditions are about: the populations arriving in a cell, total mass and momentum of a fluid region. *)
From Coq Require Import List ZArith Bool Arith Reals.
From Verif Require Import StencilModel AccessModel StreamModel StreamSpec RealLib.
Import ListNotations.
Local Open Scope R_scope.

Section Arriving.
  Context (L : lattice) (St : stencil) (fluid : cell L -> bool) (B : cell L -> nat -> brule R).
  (* the value a boundary rule gives when the post-collision populations are f *)
  Definition rule_value (f : cell L -> list R) (x : cell L) (r : brule R) : R :=
    b_fun r (map (pacc_value L R 0 St f x) (b_reads r)).
  (* populations arriving in cell x: from the upstream neighbour, or from the boundary rule of the link towards it *)
  Definition arriving (f : cell L -> list R) (x : cell L) : list R :=
    map (fun j => if fluid (shift x (vneg (dir St j))) then nth j (f (shift x (vneg (dir St j)))) 0
                  else rule_value f x (B x (opp St j))) (seq 0 (length St)).
End Arriving.
Arguments rule_value {L}.
Arguments arriving {L}.

(* sum over all cells and populations *)
Definition total_mass {L : lattice} (cells : list (cell L)) (f : cell L -> list R) : R :=
  rsum (map (fun x => rsum (f x)) cells).
(* component a of the total momentum *)
Definition cell_momentum (S : stencil) (a : nat) (g : list R) : R :=
  rsum (map (fun j => IZR (nth a (dir S j) 0%Z) * nth j g 0) (seq 0 (length S))).
Definition total_momentum {L : lattice} (S : stencil) (a : nat) (cells : list (cell L)) (f : cell L -> list R) : R :=
  rsum (map (fun x => cell_momentum S a (f x)) cells).
(* [cells] lists the fluid cells, [links] the links of the geometry, without repetition *)
Definition lists_geometry {L : lattice} (S : stencil) (fluid : cell L -> bool) (cells : list (cell L)) (links : list (link L)) : Prop :=
  NoDup cells /\ (forall x, In x cells <-> fluid x = true) /\ NoDup links /\ (forall l, In l links <-> is_link S fluid l).
(* reflection at the plane orthogonal to axis a *)
Definition reflected (a : nat) (c c' : vec) : Prop :=
  length c' = length c /\ forall b, nth b c' 0%Z = if Nat.eqb b a then (- nth b c 0)%Z else nth b c 0%Z.
(* the vector with entry s on axis a and zeros elsewhere *)
Definition axis_vec (D a : nat) (s : Z) : vec := map (fun b => if Nat.eqb b a then s else 0%Z) (seq 0 D).
(* plane walls orthogonal to axis a: moving a cell parallel to them does not change whether it is fluid *)
Definition plane_walls {L : lattice} (a : nat) (fluid : cell L -> bool) : Prop :=
  forall x v, length v = ldim L -> nth a v 0%Z = 0%Z -> fluid (shift x v) = fluid x.
