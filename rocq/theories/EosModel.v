(* Model of src/lbmpy/phasefield/eos.py and src/lbmpy/phasefield/high_density_ratio_model.py (bulk part).  Real arithmetic; None: the
   expression has no finite value. *)
From Coq Require Import List ZArith Bool Arith Reals.
From Verif Require Import StencilModel RealLib.
Import ListNotations.
Local Open Scope R_scope.

(* eos.py:9-17 *)
Definition carnahan_starling_eos (density gas_constant temperature a b : R) : option R :=
  let e := b * density / 4 in
  obind (rdiv (1 + e + e ^ 2 - e ^ 3) ((1 - e) ^ 3)) (fun fraction =>
  Some (density * gas_constant * temperature * fraction - a * density ^ 2)).
(* eos.py:20-21 *)
Definition carnahan_starling_critical_temperature (a b gas_constant : R) : option R :=
  obind (rdiv (3773 / 10000 * a) b) (fun x => rdiv x gas_constant).
(* eos.py:24-27: sympy solves the linear equation (P + a density^2) (1/density - b) = gas_constant temperature for P *)
Definition van_der_walls_eos (density gas_constant temperature a b : R) : option R :=
  obind (rdiv 1 density) (fun v => obind (rdiv (gas_constant * temperature) (v - b)) (fun q => Some (q - a * density ^ 2))).
(* eos.py:30-31 *)
Definition van_der_walls_critical_temperature (a b gas_constant : R) : option R :=
  obind (rdiv (8 * a / 27) b) (fun x => rdiv x gas_constant).

(* eos.py:37-40; the derivative (sympy diff) is passed in *)
Definition eos_from_free_energy (free_energy chemical_potential : R -> R) (density : R) : R := density * chemical_potential density - free_energy density.
(* eos.py:43-50; [integral]: the antiderivative of eos / density^2 sympy finds *)
Definition free_energy_from_eos (integral : R -> R) (integration_constant density : R) : R := (integral density + integration_constant) * density.

(* high_density_ratio_model.py:31-35: the constant with psi(density_gas) = psi(density_liquid); for equal densities the list of
   solutions is empty *)
Definition integration_constant (integral : R -> R) (gas liquid : R) : res R :=
  match rdiv (integral liquid * liquid - integral gas * gas) (gas - liquid) with Some k => Ok k | None => Err AssertionError end.
(* high_density_ratio_model.py:25-47 without interface terms; lambdas[0..2], else IndexError *)
Definition well (c : R) : R := c ^ 2 * (1 - c) ^ 2.
Definition bulk_energy (integral : R -> R) (gas liquid : R) (lambdas : list R) (density c1 c2 : R) : res R :=
  rbind (integration_constant integral gas liquid) (fun k =>
  let psi := free_energy_from_eos integral k in
  match lambdas with
  | l0 :: l1 :: l2 :: _ => Ok (l0 / 2 * (psi density - psi gas) + l1 / 2 * well c1 + l2 / 2 * well c2)
  | _ => Err IndexError
  end).

(* ---- eos.py:53-104 maxwell_construction, in terms of the specific volume v ---- *)
Section Maxwell.
  Variable zeros : R -> list R.        (* sorted real solutions of eos + c = 0 *)
  Variable integral : R -> R.          (* antiderivative of eos; that of eos + c is integral + c v *)
  Variable tolerance : R.
  Definition deviation (lower upper c : R) : R := (integral upper + c * upper) - (integral lower + c * lower).
  (* 92-102: one round per unit of fuel; None: still running.  The loop has been entered. *)
  Fixpoint bisect (fuel : nat) (shift_min shift_max c : R) : option (res (R * R)) :=
    match fuel with
    | O => None
    | Datatypes.S k =>
        match rev (zeros c) with
        | upper :: _ :: lower :: _ =>
            let d := deviation lower upper c in
            if Rlt_dec tolerance (Rabs d) then
              (if Rlt_dec 0 d then bisect k shift_min c ((c + shift_min) / 2) else bisect k c shift_max ((shift_max + c) / 2))
            else match rdiv 1 upper, rdiv 1 lower with Some g, Some l => Some (Ok (g, l)) | _, _ => Some (Err ZeroDivisionError) end
        | _ => Some (Err IndexError)
        end
    end.
  (* 86-104: [p_max]: pressure at the larger stationary volume; the loop is entered if |2 tolerance| > tolerance *)
  Definition maxwell_construction (fuel : nat) (p_max : R) : option (res (R * R)) :=
    if Rlt_dec tolerance (Rabs (tolerance * 2)) then bisect fuel (- p_max) 0 ((0 + - p_max) / 2) else Some (Err UnboundLocalError).
End Maxwell.
