(* Model of postprocessing.py: interpolators for fields and the vorticity of a plane velocity field.
   numpy.gradient and scipy's RegularGridInterpolator (multilinear, the default) are modelled after their documentation; real numbers instead of floats. *)
From Coq Require Import List ZArith Bool Arith Reals.
Import ListNotations.
Local Open Scope R_scope.

(* the cell centers along one axis, postprocessing.py:6,12: arange(s) + 0.5; the interval of them that contains x, and the position in it.
   None: ValueError, x is out of bounds.  Axes have at least two cells. *)
Definition locate (n : nat) (x : R) : option (nat * R) :=
  if Rlt_dec x (0 + 1 / 2) then None else if Rgt_dec x (INR (n - 1) + 1 / 2) then None else
  let i := Nat.min (Z.to_nat (up (x - 1 / 2) - 1)) (n - 2) in
  Some (i, x - (INR i + 1 / 2)).

(* scalar_field_interpolator, postprocessing.py:10-13: one axis after the other *)
Fixpoint interpolate (shape : list nat) (f : list nat -> R) (pos : list R) : option R :=
  match shape, pos with
  | [], [] => Some (f [])
  | n :: shape', x :: pos' =>
      match locate n x with
      | None => None
      | Some (i, t) =>
          match interpolate shape' (fun l => f (i :: l)) pos', interpolate shape' (fun l => f (Datatypes.S i :: l)) pos' with
          | Some a, Some b => Some ((1 - t) * a + t * b)
          | _, _ => None
          end
      end
  | _, _ => None
  end.
(* vector_field_interpolator, postprocessing.py:4-7: the last axis holds the components *)
Fixpoint all_components (l : list (option R)) : option (list R) :=
  match l with [] => Some [] | Some a :: l' => option_map (cons a) (all_components l') | None :: _ => None end.
Definition interpolate_vector (shape : list nat) (components : nat) (f : list nat -> nat -> R) (pos : list R) : option (list R) :=
  all_components (map (fun c => interpolate shape (fun l => f l c) pos) (seq 0 components)).

(* numpy.gradient along an axis with n points and unit spacing: central differences, one-sided at both ends; None: ValueError for less than 2 points *)
Definition gradient (n : nat) (f : nat -> R) (i : nat) : R :=
  if (i =? 0)%nat then f 1%nat - f 0%nat else if (i =? n - 1)%nat then f (n - 1)%nat - f (n - 2)%nat else (f (i + 1)%nat - f (i - 1)%nat) / 2.

(* vorticity_2d, postprocessing.py:16-21; the field has nx x ny x components entries.  None: AssertionError or ValueError *)
Definition vorticity_2d (nx ny components : nat) (v : nat -> nat -> nat -> R) : option (nat -> nat -> R) :=
  if negb (components =? 2)%nat then None else if (nx <? 2)%nat || (ny <? 2)%nat then None else
  Some (fun i j =>
    let grad_y_of_x := gradient ny (fun j' => v i j' 0%nat) j in
    let grad_x_of_y := gradient nx (fun i' => v i' j 1%nat) i in
    grad_x_of_y - grad_y_of_x).
