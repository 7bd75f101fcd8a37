(* Fields on a grid of cells. *)
From Coq Require Import List Reals.
From Verif Require Import RealLib.
Import ListNotations.
Local Open Scope R_scope.

(* a cell of the grid, and the position of its center in cells *)
Definition in_shape (shape idx : list nat) : Prop := Forall2 (fun n i => (i < n)%nat) shape idx.
Definition center (idx : list nat) : list R := map (fun i => INR i + 1 / 2) idx.
(* positions between the first and the last cell center of each axis *)
Definition between_centers (shape : list nat) (pos : list R) : Prop := Forall2 (fun n x => 1 / 2 <= x <= INR n - 1 / 2) shape pos.
(* positions in the domain *)
Definition in_domain (shape : list nat) (pos : list R) : Prop := Forall2 (fun n x => 0 <= x <= INR n) shape pos.
Fixpoint affine (c : R) (a : list R) (pos : list R) : R := match a, pos with k :: a', x :: pos' => affine (c + k * x) a' pos' | _, _ => c end.
