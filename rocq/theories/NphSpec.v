(* Specification for the n-phase model. *)
From Coq Require Import List Arith Reals.
Import ListNotations.
Local Open Scope R_scope.

(* sum of g 0 .. g (n - 1) *)
Fixpoint total (n : nat) (g : nat -> R) : R := match n with O => 0 | S k => total k g + g k end.
Definition kronecker (i j : nat) : R := if Nat.eq_dec i j then 1 else 0.
Definition symmetric (n : nat) (m : nat -> nat -> R) : Prop := forall i j, (i < n)%nat -> (j < n)%nat -> m i j = m j i.
(* surface tensions: symmetric, zero between a phase and itself *)
Definition tensions (n : nat) (sigma : nat -> nat -> R) : Prop := symmetric n sigma /\ forall i, (i < n)%nat -> sigma i i = 0.
(* the equations of lemma 2.1: alpha symmetric with zero row sums, alpha sigma = identity + gamma (1, ..., 1) *)
Definition diffusion_system (n : nat) (sigma alpha : nat -> nat -> R) (gamma : nat -> R) : Prop :=
  symmetric n alpha /\ (forall i, (i < n)%nat -> total n (alpha i) = 0) /\
  forall i j, (i < n)%nat -> (j < n)%nat -> total n (fun k => alpha i k * sigma k j) = kronecker i j + gamma i.
(* the matrix times a vector *)
Definition times (n : nat) (m : nat -> nat -> R) (v : nat -> R) (i : nat) : R := total n (fun k => m i k * v k).
(* mixture of the phases j and k *)
Definition mixture (n j k : nat) (x : R) : list R := map (fun i => if Nat.eq_dec i j then x else if Nat.eq_dec i k then 1 - x else 0) (seq 0 n).
(* c with entry l replaced *)
Definition replace_entry (c : list R) (l : nat) (t : R) : list R := map (fun i => if Nat.eq_dec i l then t else nth i c 0) (seq 0 (length c)).
(* partial derivative of F in entry l *)
Definition partial_derivative (F : list R -> R) (c : list R) (l : nat) (d : R) : Prop := derivable_pt_lim (fun t => F (replace_entry c l t)) (nth l c 0) d.
(* a new phase i that is absent, and the matrix without row and column i *)
Definition insert_absent (i : nat) (c : list R) : list R := firstn i c ++ 0 :: skipn i c.
Definition skip (i a : nat) : nat := if Nat.ltb a i then a else S a.
(* slope of a mixture: phase j gains what phase k loses *)
Definition mixture_slope (n j k : nat) (g : R) : list R := map (fun i => if Nat.eq_dec i j then g else if Nat.eq_dec i k then - g else 0) (seq 0 n).
(* derivative of x^2 (1 - x)^2 *)
Definition well_slope (x : R) : R := 2 * x * (1 - x) * (1 - 2 * x).
(* what is expected of the linear solver *)
Definition solver_ok (n : nat) (sigma : nat -> nat -> R) (solution : option ((nat -> nat -> R) * (nat -> R))) : Prop :=
  match solution with Some (alpha, gamma) => diffusion_system n sigma alpha gamma | None => forall alpha gamma, ~ diffusion_system n sigma alpha gamma end.
(* binomial coefficients *)
Fixpoint choose (n k : nat) : nat := match n, k with _, O => 1%nat | O, S _ => 0%nat | S n', S k' => (choose n' k' + choose n' k)%nat end.
