(* Model of the one-dimensional initial conditions of phasefield/experiments1D.py.
   An order parameter is a function of the index of a cell along x (all cells with the same index get the same value) and of the number of the phase.
   The populations that are set from it afterwards are not part of this model; real numbers instead of floats. *)
From Coq Require Import List ZArith Bool Arith Reals.
Import ListNotations.
Local Open Scope R_scope.

(* the positions of the interfaces, experiments1D.py:56-60 and 79-83: a quarter of the domain (integer division), and three times the first position *)
Definition positions (nx : Z) (x1 x2 : option R) : R * R :=
  let a := match x1 with None => IZR (nx / 4) | Some a => a end in
  let b := match x2 with None => 3 * a | Some b => b end in
  (a, b).

(* init_sharp_interface, experiments1D.py:55-75 *)
Definition init_sharp_interface (num_order_parameters : nat) (nx : Z) (phase_idx : nat) (x1 x2 : option R) (inverse : bool) (phi : Z -> nat -> R) : Z -> nat -> R :=
  let '(a, b) := positions nx x1 x2 in
  if (num_order_parameters <=? phase_idx)%nat then phi else
  fun x p =>
    let '(val1, val2) := if inverse then (1, 0) else (0, 1) in
    if (p =? phase_idx)%nat then if Rlt_dec a (IZR x) then if Rlt_dec (IZR x) b then val2 else val1 else val1 else phi x p.

(* init_tanh, experiments1D.py:78-95 *)
Definition init_tanh (num_order_parameters : nat) (nx : Z) (phase_idx : nat) (x1 x2 : option R) (width : R) (phi : Z -> nat -> R) : Z -> nat -> R :=
  let '(a, b) := positions nx x1 x2 in
  if (num_order_parameters <=? phase_idx)%nat then phi else
  fun x p => if (p =? phase_idx)%nat then (1 + tanh ((IZR x - a) / (2 * width))) / 2 + (1 + tanh ((- IZR x + b) / (2 * width))) / 2 - 1 else phi x p.
