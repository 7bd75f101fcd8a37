(* Model of analytical_solution_microchannel (src/lbmpy/phasefield_allen_cahn/analytical.py:18-89): temperature and flow in a
   channel with two fluids, heated from below.  Real numbers instead of floats; lengths are integers; None: division by zero. *)
From Coq Require Import List ZArith Bool Reals.
From Verif Require Import RealLib.
Import ListNotations.
Local Open Scope R_scope.

(* the local constants, lines 26-60 *)
Record channel := {
  ch_mp : R; ch_w : R; ch_a : R; ch_b : R; ch_kstar : R; ch_f : R;
  ch_Ca1 : R; ch_Ca2 : R; ch_Ca3 : R; ch_Cb1 : R; ch_Cb2 : R; ch_Cb3 : R;
  ch_umax : R; ch_tt : R; ch_nom : R; ch_denom : R; ch_t0 : R }.

(* line 30: l_ref // 2 rounds down *)
Definition channel_mp (l_ref : Z) : R := IZR (l_ref / 2 - 1).

Definition channel_constants (l_ref : Z) (kappa_top kappa_bottom t_h t_c t_0 sigma_t mu : R) : option channel :=
  obind (rdiv kappa_top kappa_bottom) (fun kstar =>
  let mp := channel_mp l_ref in
  obind (rdiv PI (IZR l_ref)) (fun w =>
  let a := mp * w in
  let b := mp * w in
  obind (rdiv 1 (kstar * sinh b * cosh a + sinh a * cosh b)) (fun f =>
  let g := sinh a * f in
  obind (rdiv ((sinh a ^ 2 - a ^ 2) * (sinh b ^ 2 - b ^ 2))
              ((sinh b ^ 2 - b ^ 2) * (sinh (2 * a) - 2 * a) + (sinh a ^ 2 - a ^ 2) * (sinh (2 * b) - 2 * b))) (fun h =>
  obind (rdiv (sinh a ^ 2) (sinh a ^ 2 - a ^ 2)) (fun Ca1 =>
  obind (rdiv (-1 * mp * a) (sinh a ^ 2 - a ^ 2)) (fun Ca2 =>
  obind (rdiv (2 * a - sinh (2 * a)) (2 * (sinh a ^ 2 - a ^ 2))) (fun Ca3 =>
  obind (rdiv (sinh b ^ 2) (sinh b ^ 2 - b ^ 2)) (fun Cb1 =>
  obind (rdiv (-1 * mp * b) (sinh b ^ 2 - b ^ 2)) (fun Cb2 =>
  obind (rdiv (-2 * b + sinh (2 * b)) (2 * (sinh b ^ 2 - b ^ 2))) (fun Cb3 =>
  obind (rdiv (t_0 * sigma_t) mu) (fun q =>
  Some {| ch_mp := mp; ch_w := w; ch_a := a; ch_b := b; ch_kstar := kstar; ch_f := f;
          ch_Ca1 := Ca1; ch_Ca2 := Ca2; ch_Ca3 := Ca3; ch_Cb1 := Cb1; ch_Cb2 := Cb2; ch_Cb3 := Cb3;
          ch_umax := -1 * q * g * h; ch_tt := t_c - t_h; ch_nom := kstar * t_c * mp + t_h * mp; ch_denom := mp + kstar * mp; ch_t0 := t_0 |}))))))))))).

(* the values computed in the loop, lines 61-84 (the division by denom happens here) *)
Definition temperature_at (k : channel) (x y : R) : R :=
  if Rlt_dec 0 y then (ch_tt k * y + ch_nom k) / ch_denom k + ch_t0 k * ch_f k * sinh (ch_a k - y * ch_w k) * cos (ch_w k * x)
  else (ch_kstar k * ch_tt k * y + ch_nom k) / ch_denom k +
       ch_t0 k * ch_f k * (sinh (ch_a k) * cosh (ch_w k * y) - ch_kstar k * sinh (ch_w k * y) * cosh (ch_a k)) * cos (ch_w k * x).
Definition velocity_x_at (k : channel) (x y : R) : R :=
  if Rlt_dec 0 y then
    ch_umax k * ((ch_Ca1 k + ch_w k * (ch_Ca2 k + ch_Ca3 k * y)) * cosh (ch_w k * y) + (ch_Ca3 k + ch_w k * ch_Ca1 k * y) * sinh (ch_w k * y)) * sin (ch_w k * x)
  else
    ch_umax k * ((ch_Cb1 k + ch_w k * (ch_Cb2 k + ch_Cb3 k * y)) * cosh (ch_w k * y) + (ch_Cb3 k + ch_w k * ch_Cb1 k * y) * sinh (ch_w k * y)) * sin (ch_w k * x).
Definition velocity_y_at (k : channel) (x y : R) : R :=
  if Rlt_dec 0 y then
    - ch_w k * ch_umax k * (ch_Ca1 k * y * cosh (ch_w k * y) + (ch_Ca2 k + ch_Ca3 k * y) * sinh (ch_w k * y)) * cos (ch_w k * x)
  else
    - ch_w k * ch_umax k * (ch_Cb1 k * y * cosh (ch_w k * y) + (ch_Cb2 k + ch_Cb3 k * y) * sinh (ch_w k * y)) * cos (ch_w k * x).

(* numpy: linspace (one point: the start), arrays as lists of rows *)
Definition linspace (lo hi : R) (n : nat) : list R :=
  match n with O => [] | 1%nat => [lo] | _ => map (fun i => lo + INR i * ((hi - lo) / INR (n - 1))) (seq 0 n) end.
Definition array := list (list R).
(* u[ii, jj]: first index along x *)
Definition filled (g : R -> R -> R) (xx yy : list R) : array := map (fun x => map (fun y => g x y) yy) xx.
(* u.T *)
Definition transposed (n m : nat) (u : array) : array := map (fun j => map (fun i => nth j (nth i u []) 0) (seq 0 n)) (seq 0 m).
(* np.meshgrid(xx, yy): the first index runs along y *)
Definition meshgrid (xx yy : list R) : array * array := (map (fun _ => xx) yy, map (fun y => map (fun _ => y) xx) yy).

Record solution := { so_x : array; so_y : array; so_ux : array; so_uy : array; so_t : array }.
(* lines 18-89; if a loop runs, a zero [denom] raises *)
Definition analytical_solution_microchannel (l_ref : Z) (length_x length_y : nat) (kappa_top kappa_bottom t_h t_c t_0 sigma_t mu : R) (transpose : bool) : option solution :=
  obind (channel_constants l_ref kappa_top kappa_bottom t_h t_c t_0 sigma_t mu) (fun k =>
  let xx := linspace (- IZR l_ref - 1 / 2) (IZR l_ref - 1 / 2) length_x in
  let yy := linspace (- ch_mp k) (ch_mp k) length_y in
  obind (match xx, yy with [], _ | _, [] => Some tt | _, _ => if Req_EM_T (ch_denom k) 0 then None else Some tt end) (fun _ =>
  let T := if transpose then transposed (length xx) (length yy) else fun u => u in
  let (x, y) := meshgrid xx yy in
  Some {| so_x := x; so_y := y; so_ux := T (filled (velocity_x_at k) xx yy); so_uy := T (filled (velocity_y_at k) xx yy); so_t := T (filled (temperature_at k) xx yy) |})).
