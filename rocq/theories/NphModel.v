(* Model of src/lbmpy/phasefield/n_phase_boyer.py.  Matrices are functions of two indices below the number of phases; the solutions
   of linear systems sympy finds and the integral of compute_ab are passed in. *)
From Coq Require Import List ZArith Bool Arith Reals.
From Verif Require Import StencilModel RealLib.
Import ListNotations.
Local Open Scope R_scope.

(* itertools.combinations, n_phase_boyer.py:41-46 capital_i *)
Fixpoint combinations {A} (k : nat) (l : list A) : list (list A) :=
  match k with
  | O => [[]]
  | Datatypes.S k' => match l with [] => [] | x :: r => map (cons x) (combinations k' r) ++ combinations k r end
  end.
Definition entry (c : list R) (i : nat) : R := nth i c 0.
Definition subset_sum (c : list R) (i : list nat) : R := rsum (map (entry c) i).
Definition minus_one_pow (k : nat) : R := if Nat.even k then 1 else - 1.
(* 49-54 *)
Definition capital_s (k : nat) (c : list R) (f : R -> R) : R := rsum (map (fun i => f (subset_sum c i)) (combinations k (seq 0 (length c)))).
(* 57-66 *)
Definition psi_value (k : nat) (c : list R) (f : R -> R) : R :=
  rsum (map (fun i => rsum (map (fun s => rsum (map (fun j => minus_one_pow (k - s) * f (subset_sum c j)) (combinations s i))) (seq 1 k))) (combinations k (seq 0 (length c)))).
Definition psi (k : nat) (c : list R) (f : R -> R) : res R := if Nat.leb k (length c) then Ok (psi_value k c f) else Err AssertionError.

(* 17-38: diagonal check, then the solution of the linear system if there is one *)
Definition zero_diagonal (n : nat) (sigma : nat -> nat -> R) : bool := forallb (fun k => if Req_EM_T (sigma k k) 0 then true else false) (seq 0 n).
Definition diffusion_coefficients (n : nat) (sigma : nat -> nat -> R) (solution : option ((nat -> nat -> R) * (nat -> R))) : res ((nat -> nat -> R) * (nat -> R)) :=
  if zero_diagonal n sigma then match solution with Some s => Ok s | None => Err AssertionError end else Err AssertionError.

(* 73-80; [integral]: of the square root of f over [0, 1] *)
Definition compute_ab (f : R -> R) (integral : R) : option (R * R) :=
  obind (rsqrt (f 0)) (fun s0 => obind (rsqrt (f (1 / 2))) (fun s1 => obind (rsqrt (f 1)) (fun s2 =>
  let m := Rmax (Rmax s0 s1) s2 in
  obind (rdiv m integral) (fun a => obind (rdiv 1 (2 * m * integral)) (fun b => Some (a, b)))))).
(* 83-88; [gradient]: derivatives of the free energy *)
Definition l_bar (n : nat) (alpha : nat -> nat -> R) (gradient : nat -> R) : list R := map (fun i => - rsum (map (fun j => alpha i j * gradient j) (seq 0 n))) (seq 0 n).
(* 91-96; [d]: derivatives of the order parameters along one direction *)
Definition free_energy_interfacial (d : list R) (sigma : nat -> nat -> R) (a epsilon : R) : R :=
  - epsilon * a / 2 * rsum (map (fun i => rsum (map (fun j => sigma i j * entry d i * entry d j) (seq 0 i))) (seq 0 (length d))).
(* 99-100 *)
Definition free_energy_bulk (capital_f b epsilon : R) : R := b / epsilon * capital_f.
(* 103-106: k is increased by one, range(1, k) *)
Definition lambda_equal_surface_tension (k : nat) (sigma lambda1 : R) : R := lambda1 - sigma / 2 * rsum (map (fun s => 1 / INR s) (seq 1 k)).
(* 109-112 *)
Definition capital_f_bulk_equal_surface_tension (c : list R) (f : R -> R) (sigma lambda1 : R) : R :=
  rsum (map (fun k => lambda_equal_surface_tension k sigma lambda1 * psi_value (Datatypes.S k) c f) (seq 0 (length c))).
(* 115-121 *)
Definition double_well (c : R) : R := c ^ 2 * (1 - c) ^ 2.
Definition capital_f0 (c : list R) (sigma : nat -> nat -> R) (f : R -> R) : R :=
  rsum (map (fun j => rsum (map (fun i => sigma i j / 2 * (f (entry c i) + f (entry c j) - f (entry c i + entry c j))) (seq 0 j))) (seq 0 (length c))).

(* 161-182: value and partial derivatives *)
Definition capital_h (u v : R) : R := if Req_EM_T u 0 then (if Req_EM_T v 0 then 0 else Rabs v * v / (Rabs v + u ^ 2)) else Rabs v * v / (Rabs v + u ^ 2).
Definition capital_h_fdiff (argindex : nat) (u v : R) : option R :=
  let zero_cond := if Req_EM_T u 0 then if Req_EM_T v 0 then true else false else false in
  match argindex with
  | 1%nat => Some (if zero_cond then 0 else - 2 * u * Rabs v * v / (Rabs v + u ^ 2) ^ 2)
  | 2%nat => Some (if zero_cond then 1 else (2 * Rabs v * u ^ 2 + v ^ 2) / (Rabs v + u ^ 2) ^ 2)
  | _ => None
  end.
(* 185-197; [lambda i s]: entry s of capital_lambda for the quadruple i without s *)
Definition rprod (l : list R) : R := fold_right Rmult 1 l.
Definition correction_g (lambda : list nat -> nat -> R) (c : list R) : R :=
  rsum (map (fun i => rsum (map (fun s => lambda (filter (fun e => negb (Nat.eqb e s)) i) s * capital_h (entry c s) (rprod (map (entry c) i))) i)) (combinations 4 (seq 0 (length c)))).
(* 233-250; [theta i j k l]: capital_theta *)
Definition stabilization_term (theta : nat -> nat -> nat -> nat -> R) (c : list R) : R :=
  let n := length c in
  rsum (map (fun i => rsum (map (fun j => rsum (map (fun k => entry c i ^ 2 * entry c j ^ 2 * entry c k ^ 2) (seq 0 j))) (seq 0 i))) (seq 0 n))
  - rsum (map (fun j => rsum (map (fun i =>
      entry c i ^ 2 * entry c j ^ 2 *
      rsum (map (fun l => if Nat.eqb l i || Nat.eqb l j then 0 else
        rsum (map (fun k => if Nat.eqb k i || Nat.eqb k j then 0 else
          theta i j k l * capital_h (entry c k) (entry c k * entry c l) + theta i j l k * capital_h (entry c l) (entry c k * entry c l)) (seq 0 l))) (seq 0 n)))
      (seq 0 j))) (seq 0 n)).
(* 124-138, 336-349: the bulk part with the double well *)
Definition bulk_free_energy (sigma : nat -> nat -> R) (lambda : list nat -> nat -> R) (theta : nat -> nat -> nat -> nat -> R) (factor b epsilon : R) (c : list R) : R :=
  free_energy_bulk (capital_f0 c sigma double_well + correction_g lambda c + factor * stabilization_term theta c) b epsilon.
