(* Model of the free energies in src/lbmpy/phasefield/analytical.py and of contact_angle_circle_fitting.py:6-36, 87-102.
   A symbolic energy is modelled by its value at given order parameters [phi] and given values [grad] of their derivatives (Diff) in one direction. *)
From Coq Require Import List Bool Arith Reals.
From Verif Require Import StencilModel RealLib.
Import ListNotations.
Local Open Scope R_scope.

(* 27-44 free_energy_functional_3_phases with transformed=False *)
Definition energy_3 (kappa : list R) (alpha : R) (bulk interface : bool) (c dc : list R) : R :=
  (if bulk then rsum (map (fun p => fst p * snd p ^ 2 * (1 - snd p) ^ 2 / 2) (combine kappa c)) else 0)
  + (if interface then rsum (map (fun p => alpha ^ 2 * fst p * snd p ^ 2 / 2) (combine kappa dc)) else 0).
(* 51-55: the order parameters rho, phi, psi of concentrations, and the solution of the linear system *)
Definition to_order_parameters (c : R * R * R) : R * R * R := let '(c0, c1, c2) := c in (c0 + c1 + c2, c0 - c1, c2).
Definition to_concentrations (o : R * R * R) : R * R * R := let '(rho, phi, psi) := o in ((rho + phi - psi) / 2, (rho - phi - psi) / 2, psi).
Definition list3 (c : R * R * R) : list R := let '(a, b, c) := c in [a; b; c].
(* 57-61; derivatives are linear in the order parameters *)
Definition energy_3_transformed (kappa : list R) (alpha : R) (bulk interface : bool) (o d_o : R * R * R) : R :=
  energy_3 kappa alpha bulk interface (list3 (to_concentrations o)) (list3 (to_concentrations d_o)).

Definition double_well (c : R) : R := c ^ 2 * (1 - c) ^ 2.
(* 64-80 free_energy_functional_n_phases_penalty_term *)
Definition energy_penalty (kappa : list R) (alpha penalty : R) (c dc : list R) : R :=
  rsum (map (fun p => double_well (fst p) * snd p / 2) (combine c kappa))
  + rsum (map (fun p => fst p ^ 2 / 2 * alpha ^ 2 * snd p) (combine dc kappa))
  + penalty * (1 - rsum c) ^ 2.
(* 83-98 *)
Definition n_phases_correction_function (beta : R) (power : nat) (c : R) : R :=
  if Rlt_dec c 0 then - beta * c ^ power else if Rlt_dec 1 c then - beta * (1 - c) ^ power else double_well c.
Definition n_phases_correction_function_sign_switch (beta c : R) : R :=
  if Rlt_dec c 0 then - beta * c ^ 2 * (1 - c) ^ 2 else if Rlt_dec 1 c then - beta * c ^ 2 * (1 - c) ^ 2 else double_well c.

(* 154-160: a constant surface tension *)
Definition constant_tension (t : R) (i j : nat) : R := if i =? j then 0 else t.
Section NPhase.
  Context (tau : nat -> nat -> R) (eta : R) (f1 f2 : R -> R) (triple_point_energy : R).
  (* 165 *)
  Definition width : R := eta * sqrt 2.
  (* 167-175, n = num_phases - 1 *)
  Definition lambda_coeff (n k l : nat) : R := 3 / sqrt 2 * width * (tau k n + tau l n - tau k l).
  (* 177-178 *)
  Definition bulk_term (phi : list R) (p : nat * nat) : R :=
    let '(i, j) := p in tau i j / 2 * (f1 (nth i phi 0) + f1 (nth j phi 0) - f2 (nth i phi 0 + nth j phi 0)).
  (* 149-150: the last phase completes the sum to one *)
  Definition all_phases (order_parameters : list R) : list R := order_parameters ++ [1 - rsum order_parameters].
  (* pystencils multidimensional_sum(2, n) *)
  Definition pairs (n : nat) : list (nat * nat) := list_prod (seq 0 n) (seq 0 n).
  (* 180, 183-186 *)
  Definition f_bulk (phi : list R) : R :=
    3 / sqrt 2 / width * rsum (map (bulk_term phi) (filter (fun p => negb (fst p =? snd p)) (pairs (length phi))))
    + rsum (map (fun i => rsum (map (fun j => rsum (map (fun k => triple_point_energy * nth i phi 0 * nth j phi 0 * nth k phi 0) (seq 0 j))) (seq 0 i))) (seq 0 (length phi))).
  (* 175 *)
  Definition f_interface (n : nat) (grad : list R) : R :=
    rsum (map (fun p => lambda_coeff n (fst p) (snd p) / 2 * nth (fst p) grad 0 * nth (snd p) grad 0) (pairs n)).
  (* 101-193 free_energy_functional_n_phases; 172-173: the assertion on the diagonal of the surface tensions *)
  Definition energy_n_phases (bulk interface : bool) (order_parameters grad : list R) : res R :=
    let n := length order_parameters in
    if forallb (fun l => if Req_EM_T (tau l l) 0 then true else false) (seq 0 n) then
      Ok ((if bulk then f_bulk (all_phases order_parameters) else 0) + (if interface then f_interface n grad else 0))
    else Err AssertionError.
End NPhase.
(* 210-228 analytic_interface_profile *)
Definition analytic_interface_profile (interface_width x : R) : R := (1 + tanh (x / (2 * interface_width))) / 2.

(* contact_angle_circle_fitting.py:97-102 surface_tension_from_kappas *)
Definition surface_tension_from_kappas (kappas : list R) (surface_width : R) (i j : nat) : R :=
  if i =? j then 0 else (nth i kappas 0 + nth j kappas 0) / 6 * surface_width.
(* 87-94 neumann_angles_from_surface_tensions, in degrees; the divisions are by products of positive tensions *)
Definition neumann_angles (g : nat -> nat -> R) : list R :=
  map (fun a => a * 180 / PI)
    [acos (- (g 0%nat 1%nat * g 0%nat 1%nat + g 0%nat 2%nat * g 0%nat 2%nat - g 1%nat 2%nat * g 1%nat 2%nat) / 2 / g 0%nat 1%nat / g 0%nat 2%nat);
     acos (- (g 0%nat 1%nat * g 0%nat 1%nat + g 1%nat 2%nat * g 1%nat 2%nat - g 0%nat 2%nat * g 0%nat 2%nat) / 2 / g 0%nat 1%nat / g 1%nat 2%nat);
     acos (- (g 1%nat 2%nat * g 1%nat 2%nat + g 0%nat 2%nat * g 0%nat 2%nat - g 0%nat 1%nat * g 0%nat 1%nat) / 2 / g 1%nat 2%nat / g 0%nat 2%nat)].
(* 6-36 circle_intersections; None stands for points with nan coordinates.  numpy divides by zero without an exception: for x0 = x1 (and y0 <> y1)
   the slope k1 is infinite, k2 = -1 / k1 is zero and b1 is infinite or nan; for y0 = y1 k2 and b2 are infinite or nan. *)
Definition circle_intersections (midpoint0 midpoint1 : R * R) (radius0 radius1 : R) : option (list (R * R)) :=
  let '(x0, y0) := midpoint0 in let '(x1, y1) := midpoint1 in
  let distance := sqrt ((x0 - x1) ^ 2 + (y0 - y1) ^ 2) in
  let k1 := (y0 - y1) / (x0 - x1) in
  let b1 := y1 - k1 * x1 in
  let k2 := if Req_EM_T x0 x1 then 0 else -1 / k1 in
  let b2 := (radius0 ^ 2 - radius1 ^ 2 - x0 ^ 2 + x1 ^ 2 - y0 ^ 2 + y1 ^ 2) / (2 * (y1 - y0)) in
  let one_point :=                                                                             (* 21-24 *)
    if Req_EM_T x0 x1 then None else if Req_EM_T y0 y1 then None
    else Some [(- (b1 - b2) / (k1 - k2), - (- b2 * k1 + b1 * k2) / (k1 - k2))] in
  let two_points :=                                                                            (* 25-34 *)
    if Req_EM_T y0 y1 then None
    else obind (rsqrt (- b2 ^ 2 + radius1 ^ 2 + k2 ^ 2 * radius1 ^ 2 - 2 * b2 * k2 * x1 - k2 ^ 2 * x1 ^ 2 + 2 * b2 * y1 + 2 * k2 * x1 * y1 - y1 ^ 2)) (fun s =>
      let xx1 := (- b2 * k2 + x1 + k2 * y1 - s) / (1 + k2 ^ 2) in
      let xx2 := (- b2 * k2 + x1 + k2 * y1 + s) / (1 + k2 ^ 2) in
      Some [(xx1, k2 * xx1 + b2); (xx2, k2 * xx2 + b2)]) in
  if Rlt_dec (radius0 + radius1) distance then Some []
  else if Req_EM_T (Rabs (radius1 - radius0)) distance then one_point
  else if Req_EM_T distance (radius0 + radius1) then one_point
  else if Rlt_dec (Rabs (radius1 - radius0)) distance then two_points
  else Some [].
