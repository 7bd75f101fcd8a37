(* Flow between two parallel plates.  The rows of a channel are numbered 0 .. H-1; the walls lie half a cell outside of the first and
   the last row.  All quantities depend on the row only. *)
From Coq Require Import List ZArith Bool Reals.
From Verif Require Import RealLib LinLib StencilModel AccessModel GridModel StreamModel StreamSpec TransSpec EqSpec BoundSpec CollModel CollSpec.
Import ListNotations.
Local Open Scope R_scope.

(* distance of row k from the middle of the channel *)
Definition middle (H : nat) (k : nat) : R := INR k - (INR H - 1) / 2.
(* 1 / omega - 1 / 2 *)
Definition lambda (w : R) : R := 1 / w - 1 / 2.
(* the velocity (times reference density) in row k: Couette profile between the wall velocities, parabola of a force F, slip at both walls;
   we: rate of the shear stress, wo: rate of its flux *)
Definition couette (H : nat) (lo hi : R) (k : nat) : R := (lo + hi) / 2 + (hi - lo) / INR H * middle H k.
Definition parabola (H : nat) (we F : R) (k : nat) : R := F / (2 * (lambda we / 3)) * (INR H ^ 2 / 4 - middle H k ^ 2).
Definition slip (we wo F : R) : R := F / (2 * (lambda we / 3)) * (4 / 3 * (lambda we * lambda wo - 3 / 16)).
Definition profile (H : nat) (we wo F lo hi : R) (k : nat) : R := couette H lo hi k + parabola H we F k + slip we wo F.

(* the moment sum_q f_q c_a c_b^2 *)
Definition third_moment (f : list R) (S : stencil) (a b : nat) : R := fsum f S (fun c => comp c a * comp c b * comp c b).

(* density q of the stored populations, no flow towards the walls, isotropic pressure on the walls *)
Definition at_rest_across (S : stencil) (b : nat) (q : R) (f : list R) : Prop :=
  length f = length S /\ density f S = q /\ momentum f S b = 0 /\ second_moment f S b b = q / 3.
(* what a collision has to do in a flow parallel to walls orthogonal to axis b: no flow towards the walls arises, each component a of the
   momentum grows by the force, the shear stress is relaxed to zero with rate we, its flux to a third of the momentum with rate wo *)
Definition shear_collision (D : nat) (S : stencil) (b : nat) (q we wo : R) (F : list R) (C : list R -> list R) : Prop :=
  forall f, at_rest_across S b q f -> at_rest_across S b q (C f) /\
    forall a, (a < D)%nat -> a <> b ->
      momentum (C f) S a = momentum f S a + nth a F 0 /\
      second_moment (C f) S a b = (1 - we) * second_moment f S a b /\
      third_moment (C f) S a b = third_moment f S a b + wo * (momentum f S a / 3 - third_moment f S a b) + nth a F 0 / 3.

(* rows 0 .. H-1 of fluid cells orthogonal to axis b, bounded by walls, unbounded or periodic along the other axes *)
Definition channel {L : lattice} (b H : nat) (fluid : cell L -> bool) (row : cell L -> nat) : Prop :=
  forall x, fluid x = true -> (row x < H)%nat /\
    forall v, length v = ldim L -> (-1 <= nth b v 0 <= 1)%Z ->
      let z := (Z.of_nat (row x) + nth b v 0)%Z in
      if ((0 <=? z) && (z <? Z.of_nat H))%Z%bool then fluid (shift x v) = true /\ Z.of_nat (row (shift x v)) = z else fluid (shift x v) = false.
(* c . u *)
Definition along (D : nat) (c : vec) (u : list R) : R := rsum (map (fun a => comp c a * nth a u 0) (seq 0 D)).
(* bounce back at walls which move tangentially; lo and hi: velocity times reference density of the wall below row 0 and above row H-1.
   The value may depend on all populations of the cell, as long as they satisfy [at_rest_across]. *)
Definition wall_rules {L : lattice} (S : stencil) (ws : list R) (b : nat) (q : R) (fluid : cell L -> bool) (lo hi : list R) (B : cell L -> nat -> brule R) : Prop :=
  nth b lo 0 = 0 /\ nth b hi 0 = 0 /\
  forall f x i, is_link S fluid (x, i) -> at_rest_across S b q (f x) ->
    rule_value S f x (B x i) = nth i (f x) 0 - 6 * nth i ws 0 * along (ldim L) (dir S i) (if (nth b (dir S i) 0 <? 0)%Z then lo else hi).
(* sum_q w_q c_a c_d c_b^2 for directions a, d parallel to the walls *)
Definition wall_isotropic (D : nat) (S : stencil) (b : nat) (ws : list R) : Prop :=
  forall a d, (a < D)%nat -> (d < D)%nat -> a <> b -> d <> b -> fsum ws S (fun c => comp c a * comp c d * (comp c b * comp c b)) = delta a d / 9.

(* exponents of c_a c_b and c_a c_b^2 *)
Definition exp_ab (D a b : nat) : list nat := tuple_add (CollModel.unit_tuple D a) (CollModel.unit_tuple D b).
Definition exp_abb (D a b : nat) : list nat := tuple_add (CollModel.unit_tuple D a) (exp_ab D b b).
(* moments, of the orders which matter here, of an equilibrium with density rho and a velocity u parallel to the walls *)
Definition shear_equilibrium (D b : nat) (compr dev : bool) (eqm : R -> list R -> list nat -> R) : Prop :=
  hydro_moments D compr dev eqm /\
  forall rho u, length u = D -> nth b u 0 = 0 ->
    eqm rho u (exp_ab D b b) = (rho - (if dev then 1 else 0)) / 3 /\
    forall a, (a < D)%nat -> a <> b -> eqm rho u (exp_ab D a b) = 0 /\ eqm rho u (exp_abb D a b) = (if compr then rho else 1) * nth a u 0 / 3.
(* all monomials of a moment polynomial have the rate of that polynomial: r is the rate of a monomial *)
Definition rates_by_exponent (ps : list poly) (d : list R) (r : list nat -> R) : Prop :=
  length d = length ps /\ forall i p t, nth_error ps i = Some p -> In t p -> nth i d 0 = r (snd t).
(* the force vector; no force: zero *)
Definition force_vector (D : nat) (force : option (force_model * list R)) : list R := match force with Some (_, F) => F | None => rzero D end.
(* channel on a periodic block: coordinate b runs through 1 .. H, the rest of that axis is wall *)
Definition wall_fluid (N : list positive) (b H : nat) (x : cell (torus N)) : bool := ((1 <=? nth b (proj1_sig x) 0) && (nth b (proj1_sig x) 0 <=? Z.of_nat H))%Z.
Definition wall_row (N : list positive) (b : nat) (x : cell (torus N)) : nat := Z.to_nat (nth b (proj1_sig x) 0%Z - 1).
