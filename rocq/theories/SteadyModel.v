(* Model of src/lbmpy/chapman_enskog/chapman_enskog_steady_state.py: the analysis of steady states.

   A field is given by all its partial derivatives: [g idx x] is the derivative along the axes [idx] (first axis first) at the
   point x, [g [] x] its value.  sympy's non-commuting symbols f, A, F_q and c_i are read as what _get_symbols_to_values_dict
   (lines 123-130) inserts for them: population vectors, the collision matrix, the force vector and the multiplication with the
   components of the velocities. *)
From Coq Require Import List ZArith Bool Arith Reals.
From Verif Require Import StencilModel RealLib LinLib EqSpec.
Import ListNotations.
Local Open Scope R_scope.

Definition pos := nat -> R.
Definition jet := list nat -> pos -> R.
(* one field per direction of the stencil *)
Definition jets := nat -> jet.

(* DiffOperator c . dx applied to a field (lines 76-80) *)
Definition dirder (D : nat) (c : vec) (g : jet) : jet := fun idx x => rsum (map (fun a => comp c a * g (a :: idx) x) (seq 0 D)).
Definition jzero : jets := fun _ _ _ => 0.
Definition jadd (f g : jets) : jets := fun q idx x => f q idx x + g q idx x.
Definition jsub (f g : jets) : jets := fun q idx x => f q idx x - g q idx x.
Definition jscal (a : R) (f : jets) : jets := fun q idx x => a * f q idx x.
Definition jsum (l : list jets) : jets := fun q idx x => rsum (map (fun f => f q idx x) l).

Section Steady.
  (* stencil; inverse of the collision matrix (momentbasedmethod.py:222-226); equilibrium; populations of the force *)
  Variables (S : stencil) (Ainv : mat) (f0 force : jets).

  Definition advect (f : jets) : jets := fun q => dirder (dimD S) (nth q S []) (f q).
  (* (c . dx)^n and (c . dx)^n / n!, lines 78-80 *)
  Fixpoint advect_n (n : nat) (f : jets) : jets := match n with O => f | Datatypes.S n => advect (advect_n n f) end.
  Definition taylor_term (n : nat) (f : jets) : jets := jscal (1 / INR (fact n)) (advect_n n f).
  (* multiplication with a matrix *)
  Definition apply_matrix (M : mat) (f : jets) : jets :=
    fun q idx x => dot (nth q M []) (map (fun r => f r idx x) (seq 0 (length S))).
  (* left hand side of the Taylor expanded equation, lines 70-83: order, collision matrix, small parameter, populations *)
  Definition taylor_expanded_equation (order : nat) (A : mat) (eps : R) (f : jets) : jets :=
    jsub (jadd (jsum (map (fun n => jscal (eps ^ n) (taylor_term n f)) (seq 1 order))) (apply_matrix A (jsub f f0))) (jscal eps force).
  (* _create_pdf_hierarchy, lines 85-105: order i (= length h) from the orders below.  The equation of order i is
     sum_n (c . dx)^n / n! f^(i-n) + A f^(i) - (force, if i = 1) = 0 for i > 0 *)
  Definition next_order (h : list jets) : jets :=
    let i := length h in
    jscal (-1) (apply_matrix Ainv (jsub (jsum (map (fun n => taylor_term n (nth (i - n) h jzero)) (seq 1 i))) (if Nat.eqb i 1 then force else jzero))).
  Fixpoint hierarchy (i : nat) : list jets :=
    match i with O => [f0] | Datatypes.S i => let h := hierarchy i in h ++ [next_order h] end.
  Definition pdf_order (i : nat) : jets := nth i (hierarchy i) jzero.
  (* _recombine_pdfs, lines 107-108 *)
  Definition recombined (order : nat) (eps : R) : jets := jsum (map (fun i => jscal (eps ^ (i - 1)) (pdf_order i)) (seq 1 order)).
  (* _compute_continuity_equation, lines 110-111 with 132-170: sum over the directions *)
  Definition continuity_equation (order : nat) (eps : R) (x : pos) : R := rsum (map (fun q => recombined order eps q [] x) (seq 0 (length S))).
  (* _compute_momentum_equation, lines 113-121.  [shift]: equilibrium_velocity_shift of the force model for the density symbol *)
  Definition momentum_equation (shift : nat -> pos -> R) (order : nat) (eps : R) (h : nat) (x : pos) : R :=
    rsum (map (fun q => comp (nth q S []) h * recombined order eps q [] x) (seq 0 (length S))) + shift h x.
  (* _extract_order, lines 62-68: the coefficient of eps^k *)
  Definition continuity_of_order (k : nat) (x : pos) : R := rsum (map (fun q => pdf_order (k + 1) q [] x) (seq 0 (length S))).
  Definition momentum_of_order (shift : nat -> pos -> R) (k h : nat) (x : pos) : R :=
    rsum (map (fun q => comp (nth q S []) h * pdf_order (k + 1) q [] x) (seq 0 (length S))) + if Nat.eqb k 0 then shift h x else 0.
End Steady.

(* forcemodels.py:592-593: default_velocity_shift, called at lines 117-120 with the density symbol for compressible methods and 1
   for incompressible ones; Simple, Luo, ... shift by nothing (forcemodels.py:161-168) *)
Definition default_velocity_shift (compressible : bool) (rho : pos -> R) (F : nat -> pos -> R) (h : nat) (x : pos) : R :=
  F h x / (2 * if compressible then rho x else 1).
Definition no_velocity_shift (h : nat) (x : pos) : R := 0.

(* class SteadyStateChapmanEnskogAnalysisSRT, lines 177-261.  The collision operator B is the number 1/omega that
   handle_postcollision_values (lines 215-230) inserts for methods with one rate: B^e becomes omega^-e for all moments *)
Section SteadySRT.
  Variables (S : stencil) (f0 : jets) (dt B : R).
  (* lines 188-209: order i from the orders below, with the step dt in the differential operator *)
  Definition srt_next (h : list jets) : jets :=
    let i := length h in jscal (- B) (jsum (map (fun n => jscal (dt ^ n) (taylor_term S n (nth (i - n) h jzero))) (seq 1 i))).
  Fixpoint srt_hierarchy (i : nat) : list jets :=
    match i with O => [f0] | Datatypes.S i => let h := srt_hierarchy i in h ++ [srt_next h] end.
  Definition srt_pdf (i : nat) : jets := nth i (srt_hierarchy i) jzero.
  (* lines 212-213: the common factor dt B is cancelled *)
  Definition srt_recombined (order : nat) : jets := jscal (- 1 / (dt * B)) (jsum (map srt_pdf (seq 1 order))).
  (* lines 232-250 *)
  Definition srt_continuity_equation (order : nat) (x : pos) : R := rsum (map (fun q => srt_recombined order q [] x) (seq 0 (length S))).
  Definition srt_momentum_equation (order h : nat) (x : pos) : R :=
    rsum (map (fun q => comp (nth q S []) h * srt_recombined order q [] x) (seq 0 (length S))).
End SteadySRT.
(* get_continuity_equation and get_momentum_equation, lines 252-264: the coefficient of dt^k; the summands of order k + 1 carry
   dt^(k+1) before the common factor is cancelled *)
Definition srt_continuity_of_order (S : stencil) (f0 : jets) (B : R) (k : nat) (x : pos) : R :=
  rsum (map (fun q => - 1 / B * srt_pdf S f0 1 B (k + 1) q [] x) (seq 0 (length S))).
Definition srt_momentum_of_order (S : stencil) (f0 : jets) (B : R) (h k : nat) (x : pos) : R :=
  rsum (map (fun q => comp (nth q S []) h * (- 1 / B * srt_pdf S f0 1 B (k + 1) q [] x)) (seq 0 (length S))).
(* determine_viscosities, lines 266-306: the reference with the second derivatives H g b c = d_b d_c u_g, coordinate a *)
Definition steady_navier_stokes_reference (D : nat) (eta eta_b : R) (H : nat -> nat -> nat -> R) (a : nat) : R :=
  - (eta * rsum (map (fun b => H a b b + H b b a) (seq 0 D)) +
     (eta_b - 2 * eta / 3) * rsum (map (fun b => rsum (map (fun g => H g b g * delta a b) (seq 0 D))) (seq 0 D))).
