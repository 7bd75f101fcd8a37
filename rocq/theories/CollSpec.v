(* What a collision is required to do, in terms of mass and momentum of the populations. *)
From Coq Require Import List ZArith Bool Arith Reals.
From Verif Require Import StencilModel RealLib LinLib TransSpec EqSpec.
Import ListNotations.
Local Open Scope R_scope.

(* populations f' have the mass of f and its momentum plus F *)
Definition adds_impulse (D : nat) (S : stencil) (F f f' : list R) : Prop :=
  density f' S = density f S /\ forall a, (a < D)%nat -> momentum f' S a = momentum f S a + nth a F 0.
Definition conserves (D : nat) (S : stencil) (f f' : list R) : Prop :=
  density f' S = density f S /\ forall a, (a < D)%nat -> momentum f' S a = momentum f S a.

(* fwd computes the moments ps, in the frame moving with velocity u, of the populations f + w; bwd finds the populations
   with given moments, and they are unique *)
Definition moment_transform (n : nat) (S : stencil) (ps : list poly) (w u : list R) (fwd bwd : list R -> res (list R)) : Prop :=
  (forall f, length f = n -> fwd f = Ok (map (poly_moment (radd f w) S u) ps)) /\
  (forall k, length k = n -> exists f, bwd k = Ok f /\ length f = n /\ map (poly_moment (radd f w) S u) ps = k) /\
  (forall f g, length f = n -> length g = n ->
     map (poly_moment (radd f w) S u) ps = map (poly_moment (radd g w) S u) ps -> f = g).

(* w is what the populations are stored relative to in the transforms: a rest state of density 1 if storage is zero-centred
   and the equilibrium is an absolute one, something without mass and momentum otherwise *)
Definition storage_background (D n : nat) (S : stencil) (zc dev : bool) (w : list R) : Prop :=
  length w = n /\ density w S = (if zc && negb dev then 1 else 0) /\ forall a, (a < D)%nat -> momentum w S a = 0.

(* weights with the isotropy of the first three orders (squared speed of sound 1/3) *)
Definition isotropic_weights (D : nat) (S : stencil) (ws : list R) : Prop :=
  length ws = length S /\ density ws S = 1 /\
  (forall a, (a < D)%nat -> momentum ws S a = 0) /\
  (forall a b, (a < D)%nat -> (b < D)%nat -> second_moment ws S a b = delta a b / 3) /\
  (forall a b c, (a < D)%nat -> (b < D)%nat -> (c < D)%nat -> fsum ws S (fun v => comp v a * comp v b * comp v c) = 0).

(* equilibrium moments / central moments (about the velocity) / cumulants of orders 0 and 1: a distribution with density rho
   (stored as deviation from 1 if [dev]) and momentum rho u, resp. u for incompressible methods.
   Exponent tuples are lists; zero and unit are those of the constant and of the a-th velocity component. *)
Definition zero_exponents (D : nat) : list nat := repeat 0%nat D.
Definition unit_exponents (D a : nat) : list nat := map (fun j => if Nat.eqb j a then 1%nat else 0%nat) (seq 0 D).
Definition hydro_moments (D : nat) (compr dev : bool) (eqm : R -> list R -> list nat -> R) : Prop :=
  forall rho u, length u = D ->
    eqm rho u (zero_exponents D) = rho - (if dev then 1 else 0) /\
    forall a, (a < D)%nat -> eqm rho u (unit_exponents D a) = (if compr then rho else 1) * nth a u 0.
Definition hydro_central_moments (D : nat) (compr dev : bool) (eqc : R -> list R -> list nat -> R) : Prop :=
  forall rho u, length u = D ->
    eqc rho u (zero_exponents D) = rho - (if dev then 1 else 0) /\
    forall a, (a < D)%nat -> eqc rho u (unit_exponents D a) =
      (if compr then rho else 1) * nth a u 0 - nth a u 0 * (rho - (if dev then 1 else 0)).
Definition hydro_cumulants (D : nat) (eqC : R -> list R -> list nat -> R) : Prop :=
  forall rho u, length u = D -> 0 < rho ->
    eqC rho u (zero_exponents D) = rho * ln rho /\
    forall a, (a < D)%nat -> eqC rho u (unit_exponents D a) = rho * nth a u 0.
(* the constant and the velocity components are among the moments *)
Definition has_conserved_modes (D : nat) (ps : list poly) : Prop :=
  In [(1, zero_exponents D)] ps /\ forall a, (a < D)%nat -> In [(1, unit_exponents D a)] ps.
(* a cumulant collision keeps the (density-scaled) cumulants of order 0 and 1: rho ln rho and rho u *)
Definition keeps_conserved (D : nat) (ps : list poly) (m : nat) (post : R -> list R -> (list nat -> R) -> list R -> res (list R)) : Prop :=
  forall rho u c C, length u = D -> 0 < rho -> length C = m ->
    exists C', post rho u c C = Ok C' /\ length C' = m /\
    (forall i, nth_error ps i = Some [(1, zero_exponents D)] -> nth i C 0 = rho * ln rho -> nth i C' 0 = rho * ln rho) /\
    (forall i a, (a < D)%nat -> nth_error ps i = Some [(1, unit_exponents D a)] -> nth i C 0 = rho * nth a u 0 -> nth i C' 0 = rho * nth a u 0).
