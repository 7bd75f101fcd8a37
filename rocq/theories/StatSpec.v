(* Batch statistics of a list of vector samples, and the quadratic entropy. *)
From Coq Require Import List Reals.
From Verif Require Import RealLib.
Import ListNotations.
Local Open Scope R_scope.

Definition batch_mean (xs : list (nat -> R)) (i : nat) : R := rsum (map (fun x => x i) xs) / INR (length xs).
Definition batch_cov (xs : list (nat -> R)) (i j : nat) : R :=
  rsum (map (fun x => (x i - batch_mean xs i) * (x j - batch_mean xs j)) xs).
Definition batch_third (xs : list (nat -> R)) (i j k : nat) : R :=
  rsum (map (fun x => (x i - batch_mean xs i) * (x j - batch_mean xs j) * (x k - batch_mean xs k)) xs).

(* S(f) = - sum_i f_i (f_i / r_i - 1) *)
Fixpoint quadratic_entropy (f r : list R) : R :=
  match f, r with
  | a :: f, b :: r => - (a * (a / b - 1)) + quadratic_entropy f r
  | _, _ => 0
  end.
(* componentwise a + s b *)
Fixpoint axpy (a : list R) (s : R) (b : list R) : list R :=
  match a, b with
  | x :: a, y :: b => (x + s * y) :: axpy a s b
  | _, _ => []
  end.
