(* Moment polynomials and the moments they define on a stencil, in any frame of reference. *)
From Coq Require Import List ZArith Reals.
From Verif Require Import StencilModel RealLib LinLib.
Import ListNotations.
Local Open Scope R_scope.

(* x^e = prod_a x_a^(e_a) *)
Fixpoint rmono (x : list R) (e : list nat) : R :=
  match x, e with
  | a :: x, n :: e => a ^ n * rmono x e
  | _, _ => 1
  end.
(* an expanded polynomial: sum of coefficient * x^e *)
Notation poly := (list (R * list nat)).
Definition peval (p : poly) (x : list R) : R := rsum (map (fun t => fst t * rmono x (snd t)) p).
Definition vecR (c : vec) : list R := map IZR c.
(* sum_q f_q p(c_q - u): the moment p in the frame moving with velocity u *)
Definition poly_moment (f : list R) (S : stencil) (u : list R) (p : poly) : R :=
  rsum (map (fun fc => fst fc * peval p (rsub (vecR (snd fc)) u)) (combine f S)).
(* sum_q f_q (c_q - u)^e *)
Definition central_moment (f : list R) (S : stencil) (u : list R) (e : list nat) : R :=
  rsum (map (fun fc => fst fc * rmono (rsub (vecR (snd fc)) u) e) (combine f S)).
(* directions of D components *)
Definition stencil_wf (D : nat) (S : stencil) : Prop := NoDup S /\ Forall (fun c => length c = D) S.
(* all velocity components are -1, 0 or 1 *)
Definition first_neighbours (S : stencil) : Prop := Forall (Forall (fun x => In x [-1; 0; 1]%Z)) S.
(* every tuple componentwise below a listed one is listed *)
Definition down_closed (exps : list (list nat)) : Prop :=
  forall e e', In e exps -> length e' = length e -> Forall2 le e' e -> In e' exps.

(* binomial coefficient (math.comb) as a real *)
Definition chooseR (n k : nat) : R := Binomial.C n k.
(* coefficient of x^r in (x + u)^e: prod_a binom(e_a, r_a) u_a^(e_a - r_a), 0 unless r <= e *)
Fixpoint multi_choose (u : list R) (e r : list nat) : R :=
  match u, e, r with
  | a :: u, n :: e, k :: r => (if (k <=? n)%nat then chooseR n k * a ^ (n - k) else 0) * multi_choose u e r
  | _, _, _ => 1
  end.
