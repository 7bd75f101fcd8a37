(* Model of src/lbmpy/maxwellian_equilibrium.py (get_weights, discrete_equilibrium,
   discrete_maxwellian_equilibrium), src/lbmpy/equilibrium/discrete_hydro_maxwellian.py and of the moment
   values of src/lbmpy/equilibrium/continuous_hydro_maxwellian.py. *)
From Coq Require Import List ZArith Bool Arith QArith Reals Qreals.
From Verif Require Import StencilModel RealLib.
Import ListNotations.

(* maxwellian_equilibrium.py:35-60, python dict stencil size -> (abs sum -> weight) *)
Definition weight_table (size : nat) : option (list (Z * Q)) :=
  match size with
  | 9 => Some [(0%Z, 4 # 9); (1%Z, 1 # 9); (2%Z, 1 # 36)]
  | 7 => Some [(0%Z, 0 # 1); (1%Z, 1 # 6)]
  | 15 => Some [(0%Z, 2 # 9); (1%Z, 1 # 9); (3%Z, 1 # 72)]
  | 19 => Some [(0%Z, 1 # 3); (1%Z, 1 # 18); (2%Z, 1 # 36)]
  | 27 => Some [(0%Z, 8 # 27); (1%Z, 2 # 27); (2%Z, 1 # 54); (3%Z, 1 # 216)]
  | _ => None
  end%nat.

(* maxwellian_equilibrium.py:29 *)
Definition abs_sum (d : vec) : Z := fold_right Z.add 0%Z (map Z.abs d).

(* maxwellian_equilibrium.py:28-30; KeyError for unknown sizes and unknown speeds *)
Definition weight_for_direction (size : nat) (d : vec) : res Q :=
  match weight_table size with
  | None => Err KeyError
  | Some t => match find (fun kw => Z.eqb (fst kw) (abs_sum d)) t with Some kw => Ok (snd kw) | None => Err KeyError end
  end.

(* maxwellian_equilibrium.py:24-31; the warning for c_s^2 <> 1/3 is not modelled *)
Definition get_weights (S : stencil) : res (list Q) := mapM (weight_for_direction (sizeQ S)) S.

Local Open Scope R_scope.

(* maxwellian_equilibrium.py:101-103: e_times_u, loop over zip(v, u) *)
Definition e_times_u (v : vec) (u : list R) : R := rsum (map (fun cu => IZR (fst cu) * snd cu) (combine v u)).
(* maxwellian_equilibrium.py:110-112 *)
Definition u_times_u (u : list R) : R := rsum (map (fun a => a * a) u).

(* maxwellian_equilibrium.py:85-121; c_s_sq <> 0 is the caller's obligation *)
Definition discrete_equilibrium (v : vec) (u : list R) (rho weight : R) (order : Z) (c_s_sq : R) (compressible : bool) : R :=
  let rho_outside := if compressible then rho else 1 in
  let rho_inside := if compressible then 1 else rho in
  let cu := e_times_u v u in
  let fq := rho_inside + cu / c_s_sq in
  if (order <=? 1)%Z then fq * rho_outside * weight
  else
    let fq := fq + (1 / 2 / c_s_sq ^ 2 * cu ^ 2 - 1 / 2 / c_s_sq * u_times_u u) in
    if (order <=? 2)%Z then fq * rho_outside * weight
    else
      let fq := fq + (1 / 6 / c_s_sq ^ 3 * cu ^ 3 - 1 / 2 / c_s_sq ^ 2 * u_times_u u * cu) in
      fq * rho_outside * weight.

(* maxwellian_equilibrium.py:64-82; u = u[:D] *)
Definition discrete_maxwellian_equilibrium (S : stencil) (rho : R) (u : list R) (order : Z) (c_s_sq : R)
  (compressible : bool) : res (list R) :=
  rbind (get_weights S) (fun ws =>
  Ok (map (fun wc => discrete_equilibrium (snd wc) (firstn (dimD S) u) rho (Q2R (fst wc)) order c_s_sq compressible)
          (combine ws S))).

(* discrete_hydro_maxwellian.py:59-88: the populations; order None means 4; with deviation_only the rest
   state (background density 1, order 0, incompressible form) is subtracted *)
Definition hydro_maxwellian (S : stencil) (compressible deviation_only : bool) (order : option Z) (rho : R) (u : list R)
  (c_s_sq : R) : res (list R) :=
  let order := match order with Some o => o | None => 4%Z end in
  rbind (discrete_maxwellian_equilibrium S rho u order c_s_sq compressible) (fun pdfs =>
  if deviation_only
  then rbind (discrete_maxwellian_equilibrium S 1 (repeat 0 (dimD S)) 0 c_s_sq false) (fun shift =>
       Ok (map (fun fs => fst fs - snd fs) (combine pdfs shift)))
  else Ok pdfs).

(* discrete_hydro_maxwellian.py:118-124 *)
Definition background_distribution (S : stencil) (order : option Z) (c_s_sq : R) : res (list R) :=
  hydro_maxwellian S true false order 1 (repeat 0 (dimD S)) c_s_sq.

(* Moments of the continuous Maxwellian.  The integrals in continuous_distribution_measures.py are evaluated by
   sympy; their value is the product over the axes of the raw moments of a normal distribution with mean u_a and
   variance c_s^2 (m_0 = 1, m_1 = u, m_{n+2} = u m_{n+1} + (n+1) c_s^2 m_n). *)
Fixpoint normal_moment (n : nat) (u cs2 : R) : R :=
  match n with
  | O => 1
  | S m => match m with O => u | S k => u * normal_moment m u cs2 + INR m * cs2 * normal_moment k u cs2 end
  end.
Definition psi_moment (rho : R) (u : list R) (cs2 : R) (e : list nat) : R :=
  rho * fold_right Rmult 1 (map (fun en => normal_moment (fst en) (snd en) cs2) (combine e u)).
(* continuous_hydro_maxwellian.py:84-110 and 190-199 (order None): base equation plus corrections;
   background density 1, delta_rho = rho - 1 *)
Definition continuous_maxwellian_moment (D : nat) (compressible deviation_only : bool) (rho : R) (u : list R) (cs2 : R)
  (e : list nat) : R :=
  let base := psi_moment (if compressible then rho else 1) (firstn D u) cs2 e in
  let corr1 := if compressible then 0 else 1 * psi_moment (rho - 1) (repeat 0 D) cs2 e in
  let corr2 := if deviation_only then -1 * psi_moment 1 (repeat 0 D) cs2 e else 0 in
  base + corr1 + corr2.
