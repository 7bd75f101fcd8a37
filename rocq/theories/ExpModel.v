(* Model of the evaluation in tanh_test and galilean_invariance_test, phasefield/experiments1D.py:98-197: the part of the domain that is
   compared with the analytic profile, and the number of time steps of a round.
   The simulation itself is not modelled, its order parameter is a function of the cell; real numbers instead of floats. *)
From Coq Require Import List ZArith Bool Reals.
From Verif Require Import EnergyModel.
Import ListNotations.

(* indices start, ..., stop - 1 *)
Definition zrange (start stop : Z) : list Z := map (fun k => (start + Z.of_nat k)%Z) (seq 0 (Z.to_nat (stop - start))).
(* the indices of a numpy slice of an axis with n entries: negative bounds count from the end, bounds outside are cut off *)
Definition numpy_slice (n start stop : Z) : list Z :=
  let bound b := (if b <? 0 then Z.max 0 (b + n) else Z.min b n)%Z in
  zrange (bound start) (bound stop).

(* vis_width, experiments1D.py:123, 174 *)
Definition vis_width : Z := 20.
(* the cells of the simulated profile, experiments1D.py:128-129, 173, 179 *)
Definition simulated_cells (nx : Z) : list Z :=
  let step_location := (nx / 4)%Z in numpy_slice nx (step_location - vis_width / 2) (step_location + vis_width / 2).
(* the analytic profile, experiments1D.py:124-126, 188-189 *)
Definition analytic_profile (expected_interface_width : R) : list R :=
  map (fun k => analytic_interface_profile expected_interface_width (IZR (k - vis_width / 2) - 1 / 2)) (zrange 0 vis_width).

(* tanh_test, experiments1D.py:129-134: the average deviation.  None: ValueError, arrays of different length.
   A single simulated value is compared with all entries (numpy broadcasting). *)
Definition average_deviation (simulated analytic : list R) : option R :=
  let average l := (fold_right Rplus 0 l / INR (length l))%R in
  match simulated with
  | [s] => Some (average (map (fun a => Rabs (s - a)) analytic))
  | _ => if (length simulated =? length analytic)%nat then Some (average (map (fun p => Rabs (fst p - snd p)) (combine simulated analytic))) else None
  end.
Definition tanh_test (nx : Z) (phi : Z -> R) (expected_interface_width : R) : option R :=
  average_deviation (map phi (simulated_cells nx)) (analytic_profile expected_interface_width).

(* int(...) of Python *)
Definition int_of (x : R) : Z := if Rle_dec 0 x then Int_part x else (- Int_part (- x))%Z.
(* experiments1D.py:158 *)
Definition round_time_steps (nx : Z) (velocity : R) : Z := int_of ((IZR nx + 1 / 4) / velocity).
