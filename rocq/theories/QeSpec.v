(* Specification for quadratic equilibria. *)
From Coq Require Import List ZArith Bool Arith Reals.
From Verif Require Import StencilModel RealLib EqModel EqSpec QeModel.
Import ListNotations.
Local Open Scope R_scope.

(* the quadratic form of direction d with coefficients that depend on the speed (number of steps along the axes) only *)
Definition quadratic_form (g : dof -> R) (d : vec) (u : list R) : R :=
  let s := abs_sum d in g (LA, s) + g (LB, s) * e_times_u d u + g (LC, s) * e_times_u d u ^ 2 + g (LD, s) * u_times_u u.
(* g has the values of the dictionary r *)
Definition extends (r : list (dof * R)) (g : dof -> R) : Prop := forall x v, lookup r x = Some v -> g x = v.
(* polynomials in D variables *)
Definition in_variables (D : nat) (p : upoly) : Prop := forall t, In t p -> length (fst t) = D.
