(* Polynomial fields, their formal derivatives, and what the finite difference stencils and forces are meant to compute. *)
From Coq Require Import String List ZArith Arith Reals.
From Verif Require Import StencilModel RealLib LinLib TransSpec.
Import ListNotations.
Local Open Scope R_scope.

(* exponent of axis a lowered by one *)
Fixpoint lower (a : nat) (e : list nat) : list nat :=
  match e, a with
  | [], _ => []
  | n :: e, 0%nat => Nat.pred n :: e
  | n :: e, S a => n :: lower a e
  end.
(* formal derivative along axis a, and the Laplacian *)
Definition pderiv (a : nat) (p : poly) : poly := map (fun t => (fst t * INR (nth a (snd t) 0%nat), lower a (snd t))) p.
Definition plap (D : nat) (p : poly) : poly := flat_map (fun a => pderiv a (pderiv a p)) (seq 0 D).
(* polynomials in D variables of total degree at most n *)
Definition degree_le (D n : nat) (p : poly) : Prop := Forall (fun t => length (snd t) = D /\ (list_sum (snd t) <= n)%nat) p.
(* the values of the polynomial around the point x, by offset *)
Definition sampled (p : poly) (x : list R) (o : vec) : R := peval p (radd x (vecR o)).
(* the third component of a gradient in two dimensions *)
Definition pad (D : nat) : list R := if Nat.eqb D 2 then [0] else [].
(* the stencils accepted for finite differences *)
Definition fd_name (name : string) : Prop := In name ["D2Q9"; "D3Q15"; "D3Q19"; "D3Q27"]%string.

(* explicit Runge-Kutta steps of size s for dT/dt = f(T), T a field *)
Section Steps.
  Context (f : (vec -> R) -> vec -> R) (s : R) (T : vec -> R).
  Definition plus_slope (c : R) (k : vec -> R) : vec -> R := fun x => T x + c * k x.
  Definition midpoint_step : vec -> R := fun x => T x + s * f (plus_slope (s / 2) (f T)) x.
  Definition k1 : vec -> R := f T.
  Definition k2 : vec -> R := f (plus_slope (s / 2) k1).
  Definition k3 : vec -> R := f (plus_slope (s / 2) k2).
  Definition k4 : vec -> R := f (plus_slope s k3).
  Definition rk4_step : vec -> R := fun x => T x + s * (k1 x + 2 * k2 x + 2 * k3 x + k4 x) / 6.
End Steps.
(* scalar product of the first D components *)
Definition scalar_product (D : nat) (a b : list R) : R := rsum (map (fun i => nth i a 0 * nth i b 0) (seq 0 D)).
(* heat equation with advection: dT/dt = - u . grad T + (grad k . grad T + k lap T) / (density heat_capacity), for the values of
   the derivatives at a point *)
Definition heat_rate (D : nat) (u grad_T grad_k : list R) (lap_T k density heat_capacity : R) : R :=
  - scalar_product D u grad_T + (scalar_product D grad_k grad_T + k * lap_T) / (density * heat_capacity).
(* a linear temperature field *)
Definition affine (D : nat) (c : R) (g : list R) (x : vec) : R := c + scalar_product D g (vecR x).
(* viscous force 2 nu S . grad rho on a fluid with density gradient drho grad(phi); strain: symmetric velocity gradient *)
Definition viscous_component (D : nat) (nu drho : R) (strain : nat -> nat -> R) (grad_phi : list R) (a : nat) : R :=
  rsum (map (fun b => 2 * nu * strain a b * (drho * nth b grad_phi 0)) (seq 0 D)).
