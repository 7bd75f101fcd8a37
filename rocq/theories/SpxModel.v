(* Model of src/lbmpy/phasefield/simplex_projection.pyx: projection of phase fractions onto the Gibbs simplex.
   Values are real numbers.  The bit mask is a set of phase numbers: shifts of the 32 bit mask beyond its width (more than 31
   phases) are not modelled. *)
From Coq Require Import List Bool Arith ZArith Reals.
From Verif Require Import RealLib.
Import ListNotations.
Local Open Scope R_scope.

(* c[x, y, :], and the bits of handled_mask *)
Definition phases := nat -> R.
Definition mask := nat -> bool.
Definition set_phase (c : phases) (a : nat) (v : R) : phases := fun b => if Nat.eqb a b then v else c b.
Definition set_bit (m : mask) (a : nat) : mask := fun b => if Nat.eqb a b then true else m b.
Record work := { vals : phases; handled : mask; local_phases : Z }.

Section Cell.
  (* simplex_projection.pyx:11 threshold = 1e-18; number of phases *)
  Context (threshold : R) (n : nat).

  (* simplex_projection.pyx:20-25 (3d: 65-70): mark zero phases *)
  Definition mark_zero (w : work) (a : nat) : work :=
    if Rlt_dec (- threshold) (vals w a)
    then if Rlt_dec (vals w a) threshold
         then {| vals := set_phase (vals w) a 0; handled := set_bit (handled w) a; local_phases := local_phases w - 1 |}
         else w
    else w.
  Definition mark_zeros (w : work) : work := fold_left mark_zero (seq 0 n) w.

  (* simplex_projection.pyx:33-35: distribute phase a to the phases whose bit is not set *)
  Definition distribute (a : nat) (m : mask) (l : Z) (c : phases) : option phases :=
    fold_left (fun o b => obind o (fun c => if m b then Some c else obind (rdiv (c a) (IZR l)) (fun q => Some (set_phase c b (c b + q)))))
      (seq 0 n) (Some c).

  (* simplex_projection.pyx:30-38: one pass through the body of the while loop *)
  Definition body (a : nat) (w : work) : option (nat * work) :=
    if Rlt_dec (vals w a) 0
    then let m := set_bit (handled w) a in
         let l := (local_phases w - 1)%Z in
         obind (distribute a m l (vals w)) (fun c => Some (0%nat, {| vals := set_phase c a 0; handled := m; local_phases := l |}))
    else Some (S a, w).

  (* simplex_projection.pyx:28-38: the while loop, at most [fuel] passes; None: out of fuel or division by zero *)
  Fixpoint while_loop (fuel : nat) (a : nat) (w : work) : option work :=
    if (a <? n)%nat
    then match fuel with
         | O => None
         | S k => obind (body a w) (fun aw => while_loop k (fst aw) (snd aw))
         end
    else Some w.

  (* simplex_projection.pyx:40-46; a zero sum gives NaN *)
  Definition normalize (c : phases) : option phases :=
    let s := rsum (map c (seq 0 n)) in
    if Req_EM_T s 0 then None else Some (fun a => c a / s).

  (* simplex_projection.pyx:18-46: one cell, entered with the mask [m]; also returns the mask it leaves *)
  Definition fuel_bound : nat := ((n + 1) * (n + 1))%nat.
  Definition project_cell (m : mask) (c : phases) : option (phases * mask) :=
    let w := mark_zeros {| vals := c; handled := m; local_phases := Z.of_nat n |} in
    obind (while_loop fuel_bound 0 w) (fun w' =>
    obind (normalize (vals w')) (fun y => Some (y, handled w'))).

  (* simplex_projection.pyx:8-46 simplex_projection_2d and 52-91 simplex_projection_3d: the mask is cleared once (line 10),
     before the loops over the cells *)
  Fixpoint project_cells (m : mask) (cells : list phases) : option (list phases) :=
    match cells with
    | [] => Some []
    | c :: rest => obind (project_cell m c) (fun ym => obind (project_cells (snd ym) rest) (fun ys => Some (fst ym :: ys)))
    end.
  Definition simplex_projection (cells : list phases) : option (list phases) := project_cells (fun _ => false) cells.
End Cell.
