(* Conserved quantities of populations, and independent uniform random numbers. *)
From Coq Require Import List ZArith QArith Qreals Reals.
From Verif Require Import StencilModel RealLib LinLib TransSpec ModeModel ModeSpec.
Import ListNotations.
Local Open Scope R_scope.

(* sum_i f_i *)
Definition mass (f : list R) : R := rsum f.
(* sum_i c_{i,a} f_i *)
Definition momentum (S : stencil) (f : list R) (a : nat) : R :=
  rsum (map (fun fc => fst fc * IZR (nth a (snd fc) 0%Z)) (combine f S)).
(* sum_i p(c_i) f_i *)
Definition raw_moment (S : stencil) (f : list R) (p : qpoly) : R :=
  rsum (map (fun fc => fst fc * peval (toR p) (vecR (snd fc))) (combine f S)).
(* the first Q main assignments hold the populations *)
Definition populations (S : stencil) (mains : list R) : list R := firstn (length S) mains.

(* the polynomials 1 and x_a *)
Definition one : qpoly := [(1%Q, [0; 0; 0]%nat)].
Definition coordinate (a : nat) : qpoly := [(1%Q, unit_tuple a)].
(* one of 1, x, y, z *)
Definition is_conserved (p : qpoly) : Prop :=
  exists q e, p = [(q, e)] /\ (q == 1)%Q /\ (e = [0; 0; 0]%nat \/ exists a, (a < 3)%nat /\ e = unit_tuple a).

(* E is an expectation over sequences of random numbers whose first n are pairwise independent and uniform on [0,1],
   as far as first and second moments can tell *)
Definition uniform_numbers (n : nat) (E : ((nat -> R) -> R) -> R) : Prop :=
  (forall X Y, (forall u, X u = Y u) -> E X = E Y) /\
  (forall X Y, E (fun u => X u + Y u) = E X + E Y) /\
  (forall c X, E (fun u => c * X u) = c * E X) /\
  E (fun _ => 1) = 1 /\
  (forall i, (i < n)%nat -> E (fun u => u i) = 1 / 2) /\
  (forall i, (i < n)%nat -> E (fun u => u i * u i) = 1 / 3) /\
  (forall i j, (i < n)%nat -> (j < n)%nat -> i <> j -> E (fun u => u i * u j) = 1 / 4).
