(* Specification for the steady state analysis: polynomial fields, steady states of the lattice Boltzmann method. *)
From Coq Require Import List ZArith Bool Arith Reals.
From Verif Require Import StencilModel RealLib LinLib EqSpec SteadyModel.
Import ListNotations.
Local Open Scope R_scope.

(* polynomials in the coordinates *)
Inductive pf := Const (r : R) | Coord (a : nat) | Add (p q : pf) | Mul (p q : pf) | Scale (r : R) (p : pf).
Fixpoint val (p : pf) (x : pos) : R :=
  match p with Const r => r | Coord a => x a | Add p q => val p x + val q x | Mul p q => val p x * val q x | Scale r p => r * val p x end.
(* partial derivative along axis a *)
Fixpoint pd (a : nat) (p : pf) : pf :=
  match p with
  | Const _ => Const 0 | Coord b => Const (delta a b) | Add p q => Add (pd a p) (pd a q)
  | Mul p q => Add (Mul (pd a p) q) (Mul p (pd a q)) | Scale r p => Scale r (pd a p)
  end.
Definition pds (idx : list nat) (p : pf) : pf := fold_left (fun p a => pd a p) idx p.
(* the field of a polynomial with all its derivatives *)
Definition jet_of (p : pf) : jet := fun idx x => val (pds idx p) x.
(* change of a position along one axis *)
Definition moved (x : pos) (a : nat) (h : R) : pos := fun b => if Nat.eqb a b then x b + h else x b.
(* position of the neighbour in direction c *)
Definition neighbour (x : pos) (c : vec) : pos := fun a => x a + comp c a.

(* population fields that are polynomials of degree at most m: derivatives of higher order vanish *)
Definition polynomial_fields (n : nat) (f : jets) : Prop := forall q, (q < n)%nat -> exists p, forall idx x, f q idx x = jet_of p idx x.
Definition degree_at_most (n m : nat) (f : jets) : Prop := forall q idx x, (q < n)%nat -> (m < length idx)%nat -> f q idx x = 0.
Definition same_fields (n : nat) (f g : jets) : Prop := forall q idx x, (q < n)%nat -> f q idx x = g q idx x.

(* values of all populations at a point *)
Definition populations (n : nat) (f : jets) (x : pos) : list R := map (fun q => f q [] x) (seq 0 n).
(* nothing changes when the populations collide (matrix A, equilibrium values f0, force) and move to the neighbours *)
Definition steady_for (S : stencil) (A : mat) (f0 force f : jets) : Prop :=
  forall q x, (q < length S)%nat ->
    f q [] (neighbour x (nth q S [])) =
    f q [] x - dot (nth q A []) (rsub (populations (length S) f x) (populations (length S) f0 x)) + force q [] x.
(* density and momentum of populations *)
Definition pop_density (n : nat) (f : jets) (x : pos) : R := rsum (populations n f x).
Definition pop_momentum (S : stencil) (f : jets) (a : nat) (x : pos) : R :=
  rsum (map (fun q => comp (nth q S []) a * f q [] x) (seq 0 (length S))).
(* the flow with density rho and velocity u can be held: some steady populations of degree at most m have this density, and their
   momentum with half the force added is carrier * u (carrier: the density for compressible methods, 1 for incompressible ones) *)
Definition steady_flow (S : stencil) (A : mat) (m : nat) (f0 force : jets) (rho : pos -> R) (u F : nat -> pos -> R) (carrier : pos -> R) (f : jets) : Prop :=
  polynomial_fields (length S) f /\ degree_at_most (length S) m f /\ steady_for S A f0 force f /\
  (forall x, pop_density (length S) f x = rho x) /\
  (forall a x, (a < dimD S)%nat -> pop_momentum S f a x + F a x / 2 = carrier x * u a x).
(* relaxation of all populations with one rate *)
Definition srt_matrix (n : nat) (w : R) : mat := map (fun i => map (fun j => w * delta i j) (seq 0 n)) (seq 0 n).
(* third moments of a second order equilibrium at constant density: c_s^2 (delta_ab u_c + delta_ac u_b + delta_bc u_a), derived
   along b and c; H g b c is the derivative of u_g along b and c *)
Definition third_moments (S : stencil) (f0 : jets) (cs2 : R) (H : nat -> nat -> nat -> R) (x : pos) : Prop :=
  forall a b c, (a < dimD S)%nat -> (b < dimD S)%nat -> (c < dimD S)%nat ->
    rsum (map (fun q => comp (nth q S []) a * comp (nth q S []) b * comp (nth q S []) c * f0 q [b; c] x) (seq 0 (length S))) =
    cs2 * (delta a b * H c b c + delta a c * H b b c + delta b c * H a b c).
