(* Model of strain_rate_tensor_getter (src/lbmpy/macroscopic_value_kernels.py:67-85).  The assignments are evaluated: populations,
   and the values of the symbols of density and velocity, are numbers. *)
From Coq Require Import List ZArith Bool Arith Reals.
From Verif Require Import StencilModel RealLib LinLib EqModel EqSpec CeModel.
Import ListNotations.
Local Open Scope R_scope.

(* second_order_moment_tensor, utils.py:4-7, the entry i, j *)
Definition second_order_moment_tensor (f : list R) (S : stencil) (i j : nat) : R :=
  rsum (map (fun fc => comp (snd fc) i * comp (snd fc) j * fst fc) (combine f S)).

(* get_field_accesses, macroscopic_value_kernels.py:14-26: the locations the populations are read from before the collision or,
   the default, those they are written to after it.  Simplification: the two sets of values are given; which locations these are
   is modelled in AccessModel. *)
Definition getter_pdfs (use_pre_collision_pdfs : bool) (pre post : list R) : list R := if use_pre_collision_pdfs then pre else post.

(* macroscopic_value_kernels.py:70-85.  omega_s: get_shear_relaxation_rate (ModeModel).  [eq] are the equilibrium terms, polynomials in
   the symbols rho and u of the method; no assignment of these symbols is returned, they have the values they have where the assignments
   are used.  The density of incompressible equilibria is replaced by the background density, 1.
   Each assignment: index of the entry of the tensor, its value; None: division by a zero density. *)
Definition strain_rate_tensor_getter (S : stencil) (eq : list epoly) (compressible : bool) (omega_s rho : R) (u : nat -> R) (pdfs : list R) : option (list (nat * R)) :=
  let D := dimD S in
  obind (rdiv omega_s (if compressible then rho else 1)) (fun q =>
  let f_neq := map (fun fe => fst fe - epoly_value rho u (snd fe)) (combine pdfs eq) in
  Some (flat_map (fun i => map (fun j => ((i * D + j)%nat, - (3 / 2) * q * second_order_moment_tensor f_neq S i j)) (seq 0 D)) (seq 0 D))).
