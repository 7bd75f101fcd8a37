(* Moments of populations on a stencil, Gaussian moments. *)
From Coq Require Import List ZArith Bool Arith Reals.
From Verif Require Import StencilModel RealLib.
Import ListNotations.
Local Open Scope R_scope.

(* a-th component of a lattice velocity *)
Definition comp (c : vec) (a : nat) : R := IZR (nth a c 0%Z).
(* sum_q f_q g(c_q) *)
Definition fsum (f : list R) (S : stencil) (g : vec -> R) : R := rsum (map (fun fc => fst fc * g (snd fc)) (combine f S)).
Definition density (f : list R) (S : stencil) : R := fsum f S (fun _ => 1).
Definition momentum (f : list R) (S : stencil) (a : nat) : R := fsum f S (fun c => comp c a).
Definition second_moment (f : list R) (S : stencil) (a b : nat) : R := fsum f S (fun c => comp c a * comp c b).
Definition delta (a b : nat) : R := if Nat.eqb a b then 1 else 0.
(* c^e = prod_a c_a^(e_a) *)
Fixpoint monomial (c : vec) (e : list nat) : R :=
  match c, e with
  | x :: c, n :: e => IZR x ^ n * monomial c e
  | _, _ => 1
  end.
Definition raw_moment (f : list R) (S : stencil) (e : list nat) : R := fsum f S (fun c => monomial c e).

(* n-th moment of a centred normal distribution with variance 1/3: 0 for odd n, (n-1)!! / 3^(n/2) for even n *)
Fixpoint gauss (n : nat) : R :=
  match n with O => 1 | S O => 0 | S (S k as m) => INR m / 3 * gauss k end.
Definition gauss_moment (e : list nat) : R := fold_right Rmult 1 (map gauss e).
