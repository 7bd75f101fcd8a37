(* Specification for collisions with prescribed velocity and for the iterative initialisation. *)
From Coq Require Import List ZArith Bool Arith Reals.
From Verif Require Import StencilModel RealLib LinLib TransSpec EqSpec CollSpec.
Import ListNotations.
Local Open Scope R_scope.

(* mass of stored populations (storage relative to density 1 if zc) *)
Definition mass (zc : bool) (S : stencil) (f : list R) : R := (if zc then 1 else 0) + density f S.
(* the density multiplying the velocity in the momentum *)
Definition carrier (compr : bool) (rho : R) : R := if compr then rho else 1.
(* t-fold application of a step that may fail *)
Fixpoint repeat_step {A} (step : A -> res A) (t : nat) (x : A) : res A :=
  match t with O => Ok x | Datatypes.S t' => match step x with Ok y => repeat_step step t' y | Err e => Err e end end.
(* x after k applications of f *)
Fixpoint applied {A} (f : A -> A) (k : nat) (x : A) : A := match k with O => x | Datatypes.S k' => f (applied f k' x) end.

(* outcome of the residuum checks 1 .. n, the k-th one giving [check k] (None = not a number) *)
Definition converged (threshold : R) (r : option R) : Prop := exists x, r = Some x /\ x < threshold.
Definition undecided (threshold : R) (r : option R) : Prop := exists x, r = Some x /\ threshold <= x.
Definition first_decided (threshold : R) (check : nat -> option R) (n k : nat) : Prop :=
  (1 <= k <= n)%nat /\ (forall j, (1 <= j < k)%nat -> undecided threshold (check j)) /\ ~ undecided threshold (check k).
(* average over blocks with equal numbers of cells *)
Definition average (l : list R) : R := rsum l / INR (length l).
