(* Fields used to state what the Cahn-Hilliard method solves: affine and quadratic fields, growth, sampled polynomials. *)
From Coq Require Import List ZArith Arith Reals.
From Verif Require Import StencilModel RealLib LinLib EqSpec TransSpec.
Import ListNotations.
Local Open Scope R_scope.

(* c + g . x *)
Definition affine_field (D : nat) (c : R) (g : nat -> R) (x : vec) : R := c + rsum (map (fun a => g a * comp x a) (seq 0 D)).
(* c + g . x + x . h x / 2; its Laplacian is the trace of h *)
Definition quadratic_field (D : nat) (c : R) (g : nat -> R) (h : nat -> nat -> R) (x : vec) : R :=
  affine_field D c g x + 1 / 2 * rsum (map (fun a => rsum (map (fun b => h a b * (comp x a * comp x b)) (seq 0 D))) (seq 0 D)).
Definition trace (D : nat) (h : nat -> nat -> R) : R := rsum (map (fun a => h a a) (seq 0 D)).
(* sum of the absolute values of the coordinates *)
Definition size (D : nat) (x : vec) : R := rsum (map (fun a => Rabs (comp x a)) (seq 0 D)).
(* polynomial sampled with spacing dx around x *)
Definition sampled_dx (p : poly) (x : list R) (dx : R) (o : vec) : R := peval p (radd x (map (fun z => dx * IZR z) o)).
