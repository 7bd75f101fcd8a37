(* What stability means: a weighted sum of squares of the populations which no step increases. *)
From Coq Require Import List ZArith QArith Qreals Bool Arith Reals.
From Verif Require Import StencilModel AccessModel StreamModel StreamSpec RealLib LinLib TransSpec EqSpec CollSpec BoundSpec.
Import ListNotations.
Local Open Scope R_scope.

(* sum_q f_q^2 / w_q *)
Definition energy (w f : list R) : R := rsum (map (fun i => nth i f 0 * nth i f 0 / nth i w 0) (seq 0 (length w))).
Definition total_energy {L : lattice} (w : list R) (cells : list (cell L)) (f : cell L -> list R) : R := rsum (map (fun x => energy w (f x)) cells).
(* equilibrium to first order in the velocity with the mass and momentum of the (stored) populations f: w_q (sum f + 3 c_q . sum c f) *)
Definition linear_equilibrium (D : nat) (S : stencil) (w f : list R) : list R :=
  map (fun wc => fst wc * (density f S + 3 * rsum (map (fun a => comp (snd wc) a * momentum f S a) (seq 0 D)))) (combine w S).
(* sum_q w_q p(c_q) p'(c_q) *)
Definition overlap (S : stencil) (w : list R) (p p' : poly) : R := rsum (map (fun wc => fst wc * peval p (vecR (snd wc)) * peval p' (vecR (snd wc))) (combine w S)).
(* the constant and the velocity components *)
Definition conserved_mode (D : nat) (p : poly) : Prop := p = [(1, zero_exponents D)] \/ exists a, (a < D)%nat /\ p = [(1, unit_exponents D a)].
(* the deviation of the populations from the linear equilibrium *)
Definition deviation (D : nat) (S : stencil) (w f : list R) : list R := rsub f (linear_equilibrium D S w f).
(* rates d of the modes ps: up to the rates of the conserved modes, which have no effect, modes of different rates are orthogonal.
   Holds for one rate, for one rate for even and one for odd modes, and for arbitrary rates of orthogonal modes. *)
Definition separated_rates (D : nat) (S : stencil) (w : list R) (ps : list poly) (d r : list R) : Prop :=
  length d = length ps /\ length r = length ps /\
  (forall k p, nth_error ps k = Some p -> conserved_mode D p \/ nth k d 0 = nth k r 0) /\
  (forall k l p q, nth_error ps k = Some p -> nth_error ps l = Some q -> nth k r 0 <> nth l r 0 -> overlap S w p q = 0).
(* what a boundary rule sends back is not larger than what came in *)
Definition passive {L : lattice} (S : stencil) (fluid : cell L -> bool) (B : cell L -> nat -> brule R) : Prop :=
  forall f x i, (forall y, length (f y) = length S) -> is_link S fluid (x, i) -> Rabs (rule_value S f x (B x i)) <= Rabs (nth i (f x) 0).
