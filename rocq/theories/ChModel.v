(* Model of src/lbmpy/phasefield/cahn_hilliard_lbm.py and src/lbmpy/phasefield/fd_stencils.py.  Real arithmetic. *)
From Coq Require Import List ZArith Bool Arith QArith Reals Qreals.
From Verif Require Import StencilModel RealLib LinLib EqModel CollModel.
Import ListNotations.
Local Open Scope R_scope.

(* cahn_hilliard_lbm.py:39-44; c_s = sqrt(1/3), so c_s ** 2 = 1/3 *)
Definition ch_term (D : nat) (mu gamma rho : R) (v : list R) (w : R) (d : vec) : R :=
  let e i := IZR (nth i d 0%Z) in
  let u i := nth i v 0 in
  w * (gamma * mu / (1 / 3)
       + rho * rsum (map (fun i => e i * u i) (seq 0 D)) / (1 / 3)
       + rho * rsum (map (fun i => rsum (map (fun j => u i * u j * (e i * e j - 1 / 3 * (if Nat.eqb i j then 1 else 0))) (seq 0 D))) (seq 0 D)) / (2 * (1 / 3) ^ 2)).
(* cahn_hilliard_lbm.py:23-46: the first entry is replaced by the rest *)
Definition ch_equilibrium (S : stencil) (mu gamma rho : R) (v : list R) : res (list R) :=
  rbind (get_weights S) (fun ws =>
  match map (fun wd => ch_term (dimD S) mu gamma rho v (Q2R (fst wd)) (snd wd)) (combine ws S) with
  | [] => Err IndexError
  | _ :: rest => Ok (rho - rsum rest :: rest)
  end).
(* Collision of the method (cahn_hilliard_lbm.py:47-49, creationfunctions.py:162-205: population space, the same rate for all
   moments) with a given velocity, the way PhaseFieldStep uses it (phasefieldstep.py:167-178, creationfunctions.py:660-690); the
   density is the sum of the populations.  M: moment matrix of the default moments, Minv its inverse; the equilibrium moments are the
   moments of the equilibrium populations (generic_discrete_equilibrium.py:88-89). *)
Definition ch_collision (S : stencil) (M Minv : mat) (omega gamma mu : R) (v f : list R) : res (list R) :=
  rbind (ch_equilibrium S mu gamma (pdf_density false f) v) (fun feq =>
  Ok (radd f (mv Minv (rmul (repeat omega (sizeQ S)) (rsub (mv M feq) (mv M f)))))).
(* collision followed by streaming: population q of the new field is the one of the neighbour against direction q *)
Definition ch_step (S : stencil) (M Minv : mat) (omega gamma : R) (mu : vec -> R) (v : vec -> list R) (f : vec -> list R) (x : vec) : res (list R) :=
  mapM (fun q => let y := vadd x (vneg (nth q S [])) in
    rbind (ch_collision S M Minv omega gamma (mu y) (v y) (f y)) (fun g => match nth_error g q with Some p => Ok p | None => Err IndexError end))
    (seq 0 (sizeQ S)).

(* ---- fd_stencils.py ---- *)
(* A field access is a function of the offset.  [standard]: pystencils' fd_stencils_standard, used for one dimension and mixed derivatives. *)
Section Fd.
  Variables (standard : list nat -> R) (dx : R) (fa : vec -> R).
  (* neighbour with offset a along axis idx and b along the other axis *)
  Definition fd_neighbor (idx : nat) (a b : Z) : R := fa (if Nat.eqb idx 0 then [a; b] else [b; a]).
  Definition isotropic_fd (dim : nat) (indices : list nat) : res R :=
    match dim with
    | 1%nat => Ok (standard indices)
    | 2%nat => match indices with
           | [i] => if (i <? 2)%nat then
                      let terms s := fd_neighbor i s (-1) * (1 / 12 / dx) + fd_neighbor i s 0 * (1 / 3 / dx) + fd_neighbor i s 1 * (1 / 12 / dx) in
                      Ok (terms 1%Z - terms (-1)%Z)
                    else Err AssertionError
           | [i; j] => if Nat.eqb i j then
                         let diagonals := 1 / 8 * (fa [-1; -1]%Z + fa [-1; 1]%Z + fa [1; -1]%Z + fa [1; 1]%Z) in
                         let div_direction := 1 / 2 * (fd_neighbor i (-1) 0 + fd_neighbor i 1 0) in
                         let center := - (3 / 2) * fa [0; 0]%Z in
                         Ok ((diagonals + div_direction + center) / dx ^ 2)
                       else Ok (standard indices)
           | _ => Err NotImplementedError
           end
    | _ => Err NotImplementedError
    end.
End Fd.
