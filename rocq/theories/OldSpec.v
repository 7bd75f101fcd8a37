(* Polymer stress: what forces, boundary values and sources have to satisfy. *)
From Coq Require Import List ZArith Bool Arith Reals.
From Verif Require Import RealLib StencilModel StencilSpec StreamModel GridModel OldModel.
Import ListNotations.
Local Open Scope R_scope.

(* directions of a staggered field: each face once, all rotations and reflections of a direction (in one of the two orientations) *)
Record staggered_stencil (D : nat) (half : list vec) : Prop := {
  ss_pos : (0 < D)%nat;
  ss_some : half <> [];
  ss_dim : forall d, In d half -> length d = D;
  ss_nodup : NoDup (full_stencil half);
  ss_closed : forall d d', In d (full_stencil half) -> signed_permutation d d' -> In d' (full_stencil half) }.

(* component c of the displacement d *)
Definition at_ (d : vec) (c : nat) : R := IZR (nth c d 0%Z).
(* around cell x the stress is a polynomial of degree two in the displacement; g i j k: derivative of component (i, j) along axis k *)
Definition quadratic_around {L : lattice} (D : nat) (half : list vec) (tau : cell L -> tensor) (x : cell L) (g : nat -> nat -> nat -> R) (h : nat -> nat -> nat -> nat -> R) : Prop :=
  forall i j d, In d (full_stencil half) -> tau (shift x d) i j = tau x i j + rsum (map (fun k => g i j k * at_ d k) (seq 0 D))
    + rsum (map (fun k => rsum (map (fun l => h i j k l * (at_ d k * at_ d l)) (seq 0 D))) (seq 0 D)).
Definition divergence (D : nat) (g : nat -> nat -> nat -> R) (j : nat) : R := rsum (map (fun i => g i j i) (seq 0 D)).

(* polynomials, lowest coefficient first *)
Definition eval (p : list R) (s : R) : R := fold_right (fun c v => c + s * v) 0 p.

Definition symmetric (D : nat) (T : tensor) : Prop := forall i j, (i < D)%nat -> (j < D)%nat -> T i j = T j i.
Definition orthogonal (D : nat) (Q : tensor) : Prop := forall i j, (i < D)%nat -> (j < D)%nat -> matmul D (transpose Q) Q i j = if Nat.eqb i j then 1 else 0.
(* Q A Q^T *)
Definition rotate (D : nat) (Q A : tensor) : tensor := matmul D (matmul D Q A) (transpose Q).
(* u = (rate * y, 0) *)
Definition simple_shear (rate : R) : tensor := fun i j => if (Nat.eqb i 1 && Nat.eqb j 0)%bool then rate else 0.

(* closed domain: forces on the fluid cells and what the links towards solid cells hand to those *)
Definition fluid_total (N : list positive) (fluid : cell (torus N) -> bool) (f : cell (torus N) -> list R) (j : nat) : R :=
  rsum (map (fun x => if fluid x then nth j (f x) 0 else 0) (torus_cells N)).
Definition solid_total (N : list positive) (fluid : cell (torus N) -> bool) (half : list vec) (b : cell (torus N) -> vec -> list R) (j : nat) : R :=
  rsum (map (fun x => if fluid x then rsum (map (fun d => if fluid (shift x d) then 0 else nth j (b (shift x d) (vneg d)) 0) (full_stencil half)) else 0) (torus_cells N)).
(* steady stress of simple shear *)
Definition viscometric (lambda_p eta_p rate : R) : tensor := fun i j =>
  match i, j with
  | 0%nat, 0%nat => 2 * eta_p * lambda_p * rate * rate
  | 0%nat, 1%nat | 1%nat, 0%nat => eta_p * rate
  | _, _ => 0
  end.
(* no stress of component (i, j) with i or j beyond the dimension is read *)
Definition reads_below (D : nat) (rhs : tensor -> R) : Prop := forall T T' : tensor, (forall i j, (i < D)%nat -> (j < D)%nat -> T i j = T' i j) -> rhs T = rhs T'.
