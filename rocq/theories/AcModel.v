(* Model of src/lbmpy/phasefield_allen_cahn: derivatives.py, the forces of kernel_equations.py, numerical_solver.py.
   A field around a cell is a function of the offset; fields are functions of the cell.  Real arithmetic.
   The finite difference weights are computed by pystencils (FiniteDifferenceStencilDerivation); here they are given as tables,
   taken from the expected values in tests/phasefield_allen_cahn/test_phase_field_derivatives.ipynb; a rotated stencil is the
   same stencil for another axis.  A stencil with 25 directions (none is predefined) is not modelled. *)
From Coq Require Import List ZArith Bool Arith Reals.
From Verif Require Import StencilModel RealLib LinLib.
Import ListNotations.
Local Open Scope R_scope.

Definition norm2 (c : vec) : Z := fold_right Z.add 0%Z (map (fun z => z * z)%Z c).
Definition entry (c : vec) (a : nat) : R := IZR (nth a c 0%Z).
(* derivatives.py:46-94: weight of direction c in the derivative along axis a, divided by c_a; by squared length *)
Definition gradient_table (D Q : nat) : option (Z -> R) :=
  match D, Q with
  | 2%nat, 9%nat => Some (fun n => if Z.eqb n 1 then 4 / 12 else 1 / 12)
  | 3%nat, 15%nat => Some (fun n => if Z.eqb n 1 then 8 / 24 else 1 / 24)
  | 3%nat, 19%nat => Some (fun n => if Z.eqb n 1 then 2 / 12 else 1 / 12)
  | 3%nat, 27%nat => Some (fun n => if Z.eqb n 1 then 16 / 72 else if Z.eqb n 2 then 4 / 72 else 1 / 72)
  | _, _ => None
  end.
(* derivatives.py:6-43: sum over the axes *)
Definition laplacian_table (D Q : nat) : option (Z -> R) :=
  match D, Q with
  | 2%nat, 9%nat => Some (fun n => if Z.eqb n 0 then - (20 / 6) else if Z.eqb n 1 then 4 / 6 else 1 / 6)
  | 3%nat, 15%nat => Some (fun n => if Z.eqb n 0 then - (256 / 72) else if Z.eqb n 1 then 28 / 72 else 11 / 72)
  | 3%nat, 19%nat => Some (fun n => if Z.eqb n 0 then - (24 / 6) else if Z.eqb n 1 then 2 / 6 else 1 / 6)
  | 3%nat, 27%nat => Some (fun n => if Z.eqb n 0 then - (152 / 36) else if Z.eqb n 1 then 16 / 36 else if Z.eqb n 2 then 4 / 36 else 1 / 36)
  | _, _ => None
  end.
Definition gradient (S : stencil) (phi : vec -> R) : res (list R) :=
  match gradient_table (dimD S) (sizeQ S) with
  | Some g => Ok (map (fun a => rsum (map (fun c => entry c a * g (norm2 c) * phi c) S)) (seq 0 (dimD S)) ++ (if Nat.eqb (dimD S) 2 then [0] else []))
  | None => Err ValueError
  end.
Definition laplacian (S : stencil) (phi : vec -> R) : res R :=
  match laplacian_table (dimD S) (sizeQ S) with
  | Some g => Ok (rsum (map (fun c => g (norm2 c) * phi c) S))
  | None => Err ValueError
  end.
Definition center (S : stencil) (phi : vec -> R) : R := phi (vzero (dimD S)).

(* ---- kernel_equations.py ---- *)
(* 19-34 *)
Definition chemical_potential (S : stencil) (beta kappa : R) (phi : vec -> R) : res R :=
  rbind (laplacian S phi) (fun lap => let p := center S phi in Ok (4 * beta * p * (p - 1) * (p - 1 / 2) - kappa * lap)).
(* 37-52 *)
Definition normalized_gradient (S : stencil) (phi : vec -> R) : res (list R) :=
  rbind (gradient S phi) (fun g => let tmp := sqrt (rsum (map (fun x => x * x) g) + 1 / 10 ^ 32) in Ok (map (fun x => x / tmp) g)).
(* 55-75; rho: density deviation *)
Definition pressure_force (S : stencil) (rho density_heavy density_light : R) (phi : vec -> R) : res (list R) :=
  rbind (gradient S phi) (fun g => Ok (map (fun x => -1 / 3 * rho * (density_heavy - density_light) * x) g)).
(* 78-109; S: stencil of the method, with non-equilibrium populations fneq; FS: finite difference stencil (same dimension).
   second_order_moment_tensor: utils.py:7-10 *)
Definition second_order_moment (S : stencil) (f : list R) (a b : nat) : R := rsum (map (fun fc => fst fc * entry (snd fc) a * entry (snd fc) b) (combine f S)).
Definition viscous_force (S FS : stencil) (fneq : list R) (tau density_heavy density_light : R) (phi : vec -> R) : res (list R) :=
  rbind (gradient FS phi) (fun g =>
  let normal := map (fun a => rsum (map (fun b => second_order_moment S fneq a b * nth b g 0) (seq 0 (dimD S)))) (seq 0 (dimD S)) in
  let f := map (fun n => (1 / 2 - tau) * n * (density_heavy - density_light)) normal in
  Ok (f ++ (if Nat.eqb (dimD S) 3 then [] else [0]))).
(* 112-130 *)
Definition surface_tension_force (S : stencil) (beta kappa : R) (phi : vec -> R) : res (list R) :=
  rbind (chemical_potential S beta kappa phi) (fun mu => rbind (gradient S phi) (fun g => Ok (map (fun x => mu * x) g))).
(* 133-166 *)
Definition thermocapillary_force (S : stencil) (sigma_ref sigma_t tmp_ref W : R) (temperature phi : vec -> R) : res (list R) :=
  let sigma := sigma_ref + sigma_t * (center S temperature - tmp_ref) in
  rbind (chemical_potential S (12 * (sigma / W)) (3 / 2 * sigma * W) phi) (fun mu =>
  rbind (gradient S phi) (fun gp => rbind (gradient S temperature) (fun gt =>
  let magnitude := rsum (map (fun x => x * x) gp) in
  let dot := rsum (map (fun xy => fst xy * snd xy) (combine gt gp)) in
  let delta := 3 / 2 * W * sigma_t in
  Ok (map (fun pt => mu * fst pt + delta * (magnitude * snd pt - dot * fst pt)) (combine gp gt))))).
(* 169-210; the surface force is passed in as a result (isothermal or thermocapillary) *)
Definition local_tau (tau_light tau_heavy p : R) : R := 1 / 2 + tau_light + p * (tau_heavy - tau_light).
Definition hydrodynamic_force (S FS : stencil) (fneq : list R) (rho density_heavy density_light tau_heavy tau_light : R) (surface : res (list R)) (body : list R) (phi : vec -> R) : res (list R) :=
  rbind (pressure_force FS rho density_heavy density_light phi) (fun fp =>
  rbind (viscous_force S FS fneq (local_tau tau_light tau_heavy (center FS phi)) density_heavy density_light phi) (fun fm =>
  rbind surface (fun fs => Ok (map (fun i => nth i fs 0 + nth i fp 0 + nth i fm 0 + nth i body 0) (seq 0 (dimD S)))))).
(* 213-239 *)
Definition interface_tracking_force (S FS : stencil) (W phi_heavy phi_light : R) (phi : vec -> R) : res (list R) :=
  let phi0 := 1 / 2 * (phi_light + phi_heavy) in
  rbind (normalized_gradient FS phi) (fun n => Ok (map (fun i => 1 / 3 * ((1 - 4 * (center FS phi - phi0) ^ 2) / W) * nth i n 0) (seq 0 (dimD S)))).

(* 242-300: hydrodynamic_force_assignments.  Order of the main assignments of the input equations
   (conservedquantitycomputation.py:222-248): the zeroth moment, the velocities, then the other density; afterwards sorted topologically.
   [topological_sort]: sympy.utilities.iterables.topological_sort with the default key; fuel: number of nodes *)
Fixpoint insert_desc (v : nat) (l : list nat) : list nat :=
  match l with [] => [v] | s :: r => if (s <? v)%nat then v :: s :: r else s :: insert_desc v r end.
Fixpoint topo (fuel : nat) (s : list nat) (edges : list (nat * nat)) : list nat :=
  match fuel, rev s with
  | S k, node :: _ =>
      let rest := removelast s in
      let '(s', e') := fold_left (fun st e => let '(s, es) := st in
                         if Nat.eqb (fst e) node then
                           let es := filter (fun x => negb (Nat.eqb (fst x) (fst e) && Nat.eqb (snd x) (snd e))) es in
                           if existsb (fun x => Nat.eqb (snd x) (snd e)) es then (s, es) else (insert_desc (snd e) s, es)
                         else (s, es)) edges (rest, edges) in
      node :: topo k s' e'
  | _, _ => []
  end.
Definition topological_sort (n : nat) (edges : list (nat * nat)) : list nat :=
  topo n (rev (filter (fun v => negb (existsb (fun e => Nat.eqb (snd e) v) edges)) (seq 0 n))) edges.
(* node 0: sum of the populations (density deviation for zero-centred storage, else density); nodes 1..D: velocities; node D+1: the
   other density.  The velocities depend on the density in the compressible case. *)
Definition input_edges (zc compr : bool) (D : nat) : list (nat * nat) :=
  let density := if zc then (D + 1)%nat else 0%nat in
  flat_map (fun c1 => flat_map (fun c2 =>
    if (Nat.eqb c1 0 && Nat.eqb c2 (D + 1)) || (compr && Nat.eqb c1 density && (1 <=? c2)%nat && (c2 <=? D)%nat) then [(c1, c2)] else []) (seq 0 (D + 2))) (seq 0 (D + 2)).
Definition input_order (zc compr : bool) (D : nat) : list nat := topological_sort (D + 2) (input_edges zc compr D).
(* value of node k, given both densities, the momentum j and component force F_k (already divided by the density field);
   [shift]: velocity shift of the force model for that component (a node other than i + 1 used for component i keeps its own,
   unsubstituted force symbol; the value of the shift is then not modelled) *)
Definition input_value (zc compr : bool) (D : nat) (sum_f : R) (j : list R) (shift : R -> R) (F : R) (k : nat) : R :=
  let rho := if zc then 1 + sum_f else sum_f in
  if Nat.eqb k 0 then sum_f
  else if Nat.eqb k (D + 1) then (if zc then rho else rho - 1)
  else nth (k - 1) j 0 / (if compr then rho else 1) + shift F.
(* 279-300: the values of aleph after each sub-iteration, and the final force *)
Section SubIterations.
  Context (zc compr : bool) (D : nat) (sum_f density : R) (j : list R) (shift : R -> R) (force : list R -> list R).
  Definition next_velocity (v : list R) : list R :=
    map (fun i => input_value zc compr D sum_f j shift (nth i (force v) 0 / density) (nth (i + 1) (input_order zc compr D) 0%nat)) (seq 0 D).
  Definition sub_iterated_force (sub_iterations : nat) (velocity : list R) : res (list R) :=
    match sub_iterations with
    | O => Err IndexError
    | Datatypes.S n => Ok (force (Nat.iter n next_velocity velocity))
    end.
End SubIterations.

(* ---- numerical_solver.py ---- *)
Notation field := (vec -> R).
Definition around (T : field) (x : vec) : vec -> R := fun o => T (vadd x o).
(* 103-104 *)
Definition interpolate (upper lower p : R) : R := lower + p * (upper - lower).
Section RungeKutta.
  (* the values of the stencil operations are taken from [gr] and [lp] (gradient and laplacian of a neighbourhood); velocity, phase field,
     density and material constants of the two phases *)
  Context (D : nat) (gr : (vec -> R) -> list R) (lp : (vec -> R) -> R) (u : vec -> list R) (phase : field) (density : field).
  Context (k_h k_l c_h c_l stabiliser : R).
  Definition dotD (a b : list R) : R := rsum (map (fun i => nth i a 0 * nth i b 0) (seq 0 D)).
  (* 80-100: each access of the phase field is replaced by the conductivity *)
  Definition grad_conduction (x : vec) : list R := gr (fun o => interpolate k_h k_l (around phase x o)).
  (* the bracket of 38, 44, 51, 56, 61 for the field T (density times heat capacity nonzero) *)
  Definition rate (T : field) (x : vec) : R :=
    -1 * dotD (u x) (gr (around T x)) +
    1 / (density x * interpolate c_h c_l (phase x)) * (dotD (grad_conduction x) (gr (around T x)) + interpolate k_h k_l (phase x) * lp (around T x)).
  (* 15-69: number of auxiliary fields -> new temperature field *)
  Definition runge_kutta (n : nat) (T : field) : res field :=
    match n with
    | 0%nat => Err IndexError
    | 1%nat =>
        let r0 := fun x => T x + stabiliser * (1 / 2) * rate T x in
        Ok (fun x => T x + stabiliser * rate r0 x)
    | 2%nat => Err IndexError
    | _ =>
        let r0 := fun x => T x + stabiliser * (1 / 2) * rate T x in
        let r1 := fun x => T x + stabiliser * (1 / 2) * rate r0 x in
        let r2 := fun x => T x + stabiliser * 1 * rate r1 x in
        Ok (fun x => (1 - 4 / 3) * T x + ((2 * r0 x + 4 * r1 x + 2 * r2 x) - stabiliser * 1 * rate r2 x) / 6)
    end.
End RungeKutta.
