(* Model of src/lbmpy/oldroydb.py: polymer stress of an Oldroyd-B fluid.  Stress tensors are functions of two indices below the
   dimension.  Parts of pystencils: a staggered field stores one value per cell and direction of a half stencil; the value on the
   face towards another direction is that of the neighbour there, on its face towards the inverse direction. *)
From Coq Require Import String List ZArith Bool Arith Reals.
From Verif Require Import RealLib StencilModel StreamModel.
Import ListNotations.
Local Open Scope R_scope.

Definition tensor := nat -> nat -> R.
(* sympy Matrix.norm *)
Definition norm (d : vec) : R := sqrt (rsum (map (fun z => IZR z * IZR z) d)).
(* 21-30: half stencil and inverse directions; the leading "C" is left out *)
Definition full_stencil (half : list vec) : list vec := half ++ map vneg half.

Section Faces.
  Context (L : lattice).
  (* pystencils Field.staggered_access / staggered_vector_access, no sign change for fields which are not fluxes *)
  Definition staggered_access (half : list vec) (faces : cell L -> nat -> tensor) (x : cell L) (d : vec) : res tensor :=
    match index_of d half with
    | Some k => Ok (faces x k)
    | None => match index_of (vneg d) half with Some k => Ok (faces (shift x d) k) | None => Err ValueError end
    end.
  (* 50-53 tauface *)
  Definition tauface (half : list vec) (tau : cell L -> tensor) (x : cell L) (k : nat) : tensor :=
    let d := nth k half [] in fun i j => (tau x i j + tau (shift x d) i j) / 2.
  (* 55-63 force; division by zero for an empty half stencil *)
  Definition face_term (D : nat) (T : tensor) (d : vec) (j : nat) : R := rsum (map (fun i => T i j * IZR (nth i d 0%Z)) (seq 0 D)) / norm d.
  Definition force (D : nat) (half : list vec) (faces : cell L -> nat -> tensor) (x : cell L) : res (list R) :=
    rbind (mapM (fun d => rbind (staggered_access half faces x d) (fun T => Ok (d, T))) (full_stencil half)) (fun ts =>
    let a0 := rsum (map norm (full_stencil half)) in
    if Req_EM_T a0 0 then Err ZeroDivisionError else
    Ok (map (fun j => rsum (map (fun t => face_term D (snd t) (fst t) j) ts) / a0 * 2 * INR D) (seq 0 D))).

  (* 178-205 ForceOnBoundary: increment of the force vector of a boundary cell by its link in direction o *)
  Definition force_on_boundary (D : nat) (half : list vec) (faces : cell L -> nat -> tensor) (x : cell L) (o : vec) : res (list R) :=
    rbind (staggered_access half faces x o) (fun T => Ok (map (fun j => rsum (map (fun i => T i j * IZR (nth i o 0%Z)) (seq 0 D))) (seq 0 D))).

  (* 130-143 Extrapolation: weights *)
  Definition extrapolation_weights (order : nat) : res (list R) :=
    match order with
    | 0%nat => Ok [1]
    | 1%nat => Ok [3 / 2; - (1 / 2)]
    | 2%nat => Ok [15 / 8; - (10 / 8); 3 / 8]
    | _ => Err NotImplementedError
    end.
  (* 145-171: value on the face towards o from the cells behind it *)
  Definition extrapolate (order : nat) (src : cell L -> R) (x : cell L) (o : vec) : res R :=
    rbind (extrapolation_weights order) (fun ws =>
    Ok (rsum (map (fun e => snd e * src (shift x (map (fun i => (-1 * Z.of_nat (fst e) * i)%Z) o))) (combine (seq 0 (length ws)) ws)))).
End Faces.

(* 44-48 source; gradu i j: derivative of u_j along axis i *)
Definition matmul (D : nat) (A B : tensor) : tensor := fun i j => rsum (map (fun k => A i k * B k j) (seq 0 D)).
Definition transpose (A : tensor) : tensor := fun i j => A j i.
Definition source (D : nat) (lambda_p eta_p : R) (gradu tau : tensor) : tensor := fun i j =>
  matmul D tau gradu i j + matmul D (transpose gradu) tau i j + (eta_p * (gradu i j + transpose gradu i j) - tau i j) / lambda_p.

(* 71-78 continuity: copies of the old stress, then the assignments of pystencils' discrete_continuity with all accesses to the cell's own
   stress replaced by the copies.  [cont]: assigned component and right hand side, a function of the own stress.  Values: own stress
   and the copies; statements are executed one after another. *)
Record vars := { own : tensor; copies : tensor }.
Definition set_entry (T : tensor) (i j : nat) (v : R) : tensor := fun k l => if (Nat.eqb k i && Nat.eqb l j)%bool then v else T k l.
Definition pairs (D : nat) : list (nat * nat) := list_prod (seq 0 D) (seq 0 D).
Definition save (s : vars) (e : nat * nat) : vars := {| own := own s; copies := set_entry (copies s) (fst e) (snd e) (own s (fst e) (snd e)) |}.
Definition assign (s : vars) (a : (nat * nat) * (tensor -> R)) : vars :=
  {| own := set_entry (own s) (fst (fst a)) (snd (fst a)) (snd a (copies s)); copies := copies s |}.
Definition continuity (D : nat) (cont : list ((nat * nat) * (tensor -> R))) (s : vars) : vars :=
  fold_left assign cont (fold_left save (pairs D) s).
