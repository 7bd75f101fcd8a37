(* Model of src/lbmpy/boundaries/wall_function_models.py and of WallFunctionBounce in boundaries/boundaryconditions.py:489-719.
   Real arithmetic; [None] stands for an undefined operation (nan or inf in the kernel).  The symbolic derivative that sympy
   takes in newton_iteration is written out; PropsWall proves that it is the derivative.
   Where density and velocity are sampled (639-640 and get_shifted) is not modelled: they are arguments. *)
From Coq Require Import List ZArith Bool Arith Reals.
From Verif Require Import StencilModel AccessModel StreamModel RealLib LinLib TransSpec CollModel BoundModel.
Import ListNotations.
Local Open Scope R_scope.

Definition rln (x : R) : option R := if Rlt_dec 0 x then Some (ln x) else None.

(* wall_function_models.py:51-53 *)
Definition most_stress (z0 kappa phi rho u d : R) : option R :=
  obind (rdiv d z0) (fun q => obind (rln (q + phi)) (fun l => obind (rdiv (u * kappa) l) (fun ut => Some (ut ^ 2 * rho)))).

(* 89-95 and 124-133 and 158-164: u_plus, y_plus and the law *)
Definition with_plus (nu d u t : R) (f : R -> R -> option R) : option R :=
  obind (rdiv u t) (fun up => obind (rdiv (d * t) nu) (fun yp => f up yp)).
Definition log_law (nu kappa b d u t : R) : option R :=
  with_plus nu d u t (fun up yp => obind (rdiv 1 kappa) (fun k => obind (rln yp) (fun l => Some (k * l + b - up)))).
Definition spalding_law (nu kappa b d u t : R) : option R :=
  with_plus nu d u t (fun up yp => let k := kappa * up in
    Some (up + exp (- kappa * b) * (exp k - 1 - k - k ^ 2 / 2 - k ^ 3 / 6) - yp)).
Definition musker_a := 119760479041916168 / 10 ^ 18.
Definition musker_b := 488023952095808383 / 10 ^ 18.
Definition musker_c := 350727901936264842 / 10 ^ 17.
Definition musker_A (y : R) : R := y ^ 2 - 815 / 100 * y + 86.
(* (y_p + 10.6) ** 9.6 is a real power: undefined for y_p + 10.6 <= 0 *)
Definition musker_law (nu d u t : R) : option R :=
  with_plus nu d u t (fun up yp =>
    if Rlt_dec 0 (yp + 106 / 10) then
      obind (rdiv (Rpower (yp + 106 / 10) (96 / 10)) (musker_A yp ^ 2)) (fun q => obind (rln q) (fun l =>
      Some (5424 / 1000 * atan (musker_a * yp - musker_b) + 434 / 1000 * l - musker_c - up)))
    else None).
(* wall_law.diff(u_tau) *)
Definition log_diff (kappa u t : R) : option R :=
  obind (rdiv 1 (kappa * t)) (fun a => obind (rdiv u (t ^ 2)) (fun b => Some (a + b))).
Definition spalding_diff (nu kappa b d u t : R) : option R :=
  obind (rdiv u t) (fun up => obind (rdiv u (t ^ 2)) (fun up' => obind (rdiv d nu) (fun c => let k := kappa * up in
  Some (- up' - exp (- kappa * b) * (exp k - 1 - k - k ^ 2 / 2) * kappa * up' - c)))).
Definition musker_diff (nu d u t : R) : option R :=
  with_plus nu d u t (fun up yp =>
    obind (rdiv d nu) (fun c => obind (rdiv u (t ^ 2)) (fun up' =>
    obind (rdiv (96 / 10) (yp + 106 / 10)) (fun q1 => obind (rdiv (2 * (2 * yp - 815 / 100)) (musker_A yp)) (fun q2 =>
    Some (5424 / 1000 * (musker_a * c / (1 + (musker_a * yp - musker_b) ^ 2)) + 434 / 1000 * (q1 - q2) * c + up')))))).

(* 68-76: u_tau_0, ..., u_tau_n *)
Fixpoint newton_iteration (law diff : R -> option R) (steps : nat) (t : R) : option (list R) :=
  match steps with
  | O => Some [t]
  | S n => obind (law t) (fun v => obind (diff t) (fun dv => obind (rdiv (- v) dv) (fun delta =>
           obind (newton_iteration law diff n (t + delta)) (fun l => Some (t :: l)))))
  end.
(* 97: u_tau_target if u_tau_target else velocity / 100 *)
Definition initial_guess (target : option R) (u : R) : R :=
  match target with Some x => if Req_EM_T x 0 then u / 100 else x | None => u / 100 end.
(* 99-102 *)
Definition implicit_stress (law diff : R -> option R) (steps : nat) (target : option R) (rho u : R) : option R :=
  obind (newton_iteration law diff steps (initial_guess target u)) (fun l => Some (last l 0 ^ 2 * rho)).
Inductive wall_model :=
| MOST (z0 kappa phi : R)
| LogLaw (nu : R) (steps : nat) (kappa b : R)
| Spalding (nu : R) (steps : nat) (kappa b : R)
| Musker (nu : R) (steps : nat).
Definition shear_stress (m : wall_model) (rho u d : R) (target : option R) : option R :=
  match m with
  | MOST z0 kappa phi => most_stress z0 kappa phi rho u d
  | LogLaw nu n kappa b => implicit_stress (log_law nu kappa b d u) (log_diff kappa u) n target rho u
  | Spalding nu n kappa b => implicit_stress (spalding_law nu kappa b d u) (spalding_diff nu kappa b d u) n target rho u
  | Musker nu n => implicit_stress (musker_law nu d u) (musker_diff nu d u) n target rho u
  end.

(* ---------- WallFunctionBounce ---------- *)
(* boundaryconditions.py:531-595: the checks of the constructor, in order; result: the axis of the normal.  A symbolic shift
   differs from 1 (571). *)
Inductive sample_shift := IntShift (z : Z) | SymbolShift.
Definition shift_ok (s : sample_shift) : bool := match s with IntShift z => (1 <=? z)%Z | SymbolShift => true end.
Definition shift_is_one (s : sample_shift) : bool := match s with IntShift z => (z =? 1)%Z | SymbolShift => false end.
Definition truthy (s : option sample_shift) : bool := match s with Some (IntShift z) => negb (z =? 0)%Z | Some SymbolShift => true | None => false end.
Definition wfb_create (Q : nat) (mean_velocity : bool) (sampling : sample_shift) (maronga : option sample_shift) (normal : vec) : res nat :=
  if negb (Nat.eqb Q 19 || Nat.eqb Q 27) then Err ValueError
  else if negb (shift_ok sampling) then Err AssertionError
  else if truthy maronga && negb mean_velocity then Err AssertionError
  else if truthy maronga && negb (match maronga with Some s => shift_ok s | None => true end) then Err AssertionError
  else if negb (shift_is_one sampling) && truthy maronga then Err ValueError
  else free_slip_axis normal.
(* 592-595 *)
Definition tangential_axes (axis : nat) : list nat := filter (fun i => negb (Nat.eqb i axis)) (seq 0 3).
(* 681 and 686: distance handed to the wall function; the argument y of the constructor is not used *)
Definition wall_distance (shift dy : R) : R := shift - 1 / 2 * dy.
(* 676 *)
Definition tangential_speed (axis : nat) (u : list R) : R := sqrt (rsum (map (fun i => nth i u 0 ^ 2) (tangential_axes axis))).
(* 664-673 *)
Definition maronga_factor (axis : nat) (velocities : option (list R * list R)) : option R :=
  match velocities with
  | Some (inst, mean) => rdiv (tangential_speed axis inst) (tangential_speed axis mean)
  | None => Some 1
  end.
(* 691-692 *)
Definition stress_component (u_m tau fix_ ui : R) : option R := obind (rdiv (- ui) u_m) (fun q => Some (q * tau * fix_)).
(* 696-713 *)
Inductive weight_method := LatticeWeight | GeometricWeight.
Definition wfb_ab (m : weight_method) : R * R :=
  match m with LatticeWeight => (1 / 3, 1 / 12) | GeometricWeight => (sqrt 2 / (2 * sqrt 2 + 4), 1 / (2 * sqrt 2 + 4)) end.
Definition wfb_weight (Q : nat) (m : weight_method) (c : vec) (axis : nat) : R :=
  if Nat.eqb Q 19 then 1 / 2
  else let k := fold_right Z.add 0%Z (map (fun i => (nth i c 0 * nth i c 0)%Z) (tangential_axes axis)) in
       if (k =? 0)%Z then 0 else if (k =? 1)%Z then fst (wfb_ab m) else snd (wfb_ab m).
(* 715-716 *)
Definition wfb_drag (Q : nat) (m : weight_method) (axis : nat) (dt dy : R) (stress : list R) (c : vec) : option R :=
  obind (rdiv dt dy) (fun q =>
  Some (rsum (map (fun i => IZR (nth i c 0%Z) * (q * wfb_weight Q m c axis) * nth i stress 0) (tangential_axes axis)))).
(* 608-719: the rule for link i of a cell; [u], [rho]: sampled velocity and density (rho = 1 with a mean velocity) *)
Definition wall_stress (axis : nat) (model : wall_model) (target : option R) (d rho : R) (u : list R) (velocities : option (list R * list R)) : option (list R) :=
  let u_m := tangential_speed axis u in
  obind (maronga_factor axis velocities) (fun fix_ =>
  obind (shear_stress model rho u_m d target) (fun tau =>
  obind (stress_component u_m tau fix_ (nth 0 u 0)) (fun s0 => obind (stress_component u_m tau fix_ (nth 1 u 0)) (fun s1 =>
  obind (stress_component u_m tau fix_ (nth 2 u 0)) (fun s2 => Some [s0; s1; s2]))))).
Definition wfb_rule (S : stencil) (inv mirrored : list nat) (normal : vec) (axis : nat) (m : weight_method) (dt dy : R) (stress : list R) (i : nat) : option (brule R) :=
  obind (wfb_drag (sizeQ S) m axis dt dy stress (offset_of S i)) (fun drag =>
  Some {| b_reads := [FOut (vadd (offset_of S i) normal) (tget inv (tget mirrored i))]; b_fun := fun l => nth 0 l 0 - drag |}).
