(* Model of src/lbmpy/analytical_solutions.py. *)
From Coq Require Import Reals.
From Verif Require Import RealLib.
Local Open Scope R_scope.

(* analytical_solutions.py:5-20 poiseuille_flow; None: division by zero *)
Definition poiseuille_flow (middle_distance height ext_force_density dyn_visc : R) : option R :=
  obind (rdiv (ext_force_density * 1) (2 * dyn_visc)) (fun q => Some (q * (height ^ 2 / 4 - middle_distance ^ 2))).
