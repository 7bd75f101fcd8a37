(* What the pressure tensor is compared with *)
From Coq Require Import List Bool Arith Reals Permutation.
From Verif Require Import StencilModel RealLib PtModel.
Import ListNotations.
Local Open Scope R_scope.

(* a point is given by its coordinates; [move x a t] has coordinate a replaced *)
Definition point := nat -> R.
Definition move (x : point) (a : nat) (t : R) : point := fun i => if Nat.eqb i a then t else x i.
Definition partial_derivative (f : point -> R) (a : nat) (x : point) (l : R) : Prop := derivable_pt_lim (fun t => f (move x a t)) (x a) l.
(* smooth fields: [jet i ds] is the derivative of field i along the directions ds; the order of differentiation does not matter *)
Record smooth (jet : nat -> list nat -> point -> R) : Prop := {
  smooth_derivative : forall i ds a x, partial_derivative (jet i ds) a x (jet i (a :: ds) x);
  smooth_symmetric : forall i ds ds' x, Permutation ds ds' -> jet i ds x = jet i ds' x }.
(* the value of an expression: derivatives are carried out first *)
Fixpoint value_expanded (jet : nat -> list nat -> point -> R) (e : expr) (x : point) : R :=
  match e with
  | Const r => r
  | Leaf i ds => jet i ds x
  | Add e1 e2 => value_expanded jet e1 x + value_expanded jet e2 x
  | Mul e1 e2 => value_expanded jet e1 x * value_expanded jet e2 x
  | Pow e n => value_expanded jet e x ^ n
  | Diff _ _ => 0
  end.
Definition value (jet : nat -> list nat -> point -> R) (e : expr) (x : point) : R := value_expanded jet (expand e) x.
(* the bulk energy and the gradient energy of the fields *)
Fixpoint prod_pow (c : nat -> R) (i : nat) (pows : list nat) : R := match pows with [] => 1 | p :: r => c i ^ p * prod_pow c (Datatypes.S i) r end.
Definition bulk_energy (energy : list term) (c : nat -> R) : R := rsum (map (fun t => factor t * prod_pow c 0 (powers t)) (filter is_bulk energy)).
Definition gradient_energy (energy : list term) (dc : nat -> R) : R :=
  rsum (map (fun t => match diffs t with [i; j] => factor t * (dc i * dc j) | _ => 0 end) energy).
(* energies of n order parameters: every term with derivatives has two of them *)
Definition well_formed (n : nat) (t : term) : Prop :=
  (diffs t = [] /\ length (powers t) = n) \/ (exists i j, diffs t = [i; j] /\ (i < n)%nat /\ (j < n)%nat).
(* derivative of the gradient energy with respect to one gradient component of order parameter i *)
Definition flux (energy : list term) (i : nat) (dc : nat -> R) : R :=
  rsum (map (fun t => match diffs t with [j; k] => factor t * ((if Nat.eqb j i then dc k else 0) + (if Nat.eqb k i then dc j else 0)) | _ => 0 end) energy).
