(* Model: collision with prescribed density and velocity (creationfunctions.py:642-690), the velocity setting collision rule
   (macroscopic_value_kernels.py:245-280) and the iterative initialisation (lbstep.py:349-432).
   Simplification: no force model in the collisions of this file. *)
From Coq Require Import List ZArith Bool Arith Reals.
From Verif Require Import StencilModel RealLib LinLib TransSpec CollModel.
Import ListNotations.
Local Open Scope R_scope.

(* creationfunctions.py:673-675: zip(velocity_symbols, u_in) replaces as many components as are given *)
Definition overwrite (u given : list R) : list R := firstn (length u) given ++ skipn (length given) u.
(* creationfunctions.py:661-677: density and velocity entering the equilibrium.  [density_input] without [velocity_input]
   is a ValueError. *)
Definition input_quantities (D : nat) (S : stencil) (zc compr : bool) (rho_in : option R) (u_in : option (list R)) (f : list R) : res (R * list R) :=
  let rho := pdf_density zc f in
  let u := equilibrium_velocity D S zc compr None f in
  match rho_in, u_in with
  | None, None => Ok (rho, u)
  | Some _, None => Err ValueError
  | None, Some v => Ok (rho, overwrite u v)
  | Some r, Some v => Ok (r, overwrite u v)
  end.
(* creationfunctions.py:679-684 with momentbasedmethod.py:320-416 (moment transform) *)
Definition raw_input_collision (D : nat) (S : stencil) (ps : list poly) (zc compr : bool) (eqm : R -> list R -> list nat -> R)
  (fwd bwd : list R -> res (list R)) (d : list R) (rho_in : option R) (u_in : option (list R)) (f : list R) : res (list R) :=
  rbind (input_quantities D S zc compr rho_in u_in f) (fun q =>
  collide fwd bwd d (equilibrium_values ps (eqm (fst q) (snd q))) (rzero (length S)) f).
(* the same with centralmomentbasedmethod.py:305-394: the frame moves with the velocity that is used *)
Definition central_input_collision (D : nat) (S : stencil) (ps : list poly) (zc compr : bool) (eqc : R -> list R -> list nat -> R)
  (fwd bwd : list R -> list R -> res (list R)) (d : list R) (rho_in : option R) (u_in : option (list R)) (f : list R) : res (list R) :=
  rbind (input_quantities D S zc compr rho_in u_in f) (fun q =>
  collide (fwd (snd q)) (bwd (snd q)) d (equilibrium_values ps (eqc (fst q) (snd q))) (rzero (length S)) f).

(* momentbasedmethod.py:198-203, centralmomentbasedmethod.py:143-147: the rates d belong to the moments ps in this order
   (insertion order of _relaxation_dict); a moment x_a that is missing is an AssertionError *)
Definition is_monomial (e : list nat) (p : poly) : bool :=
  match p with [(c, e')] => (if Req_EM_T c 1 then true else false) && if list_eq_dec Nat.eq_dec e' e then true else false | _ => false end.
Definition is_first (D : nat) (p : poly) : bool := existsb (fun a => is_monomial (unit_tuple D a) p) (seq 0 D).
Definition set_first_moment_relaxation_rate (D : nat) (ps : list poly) (d : list R) (rate : R) : res (list R) :=
  if forallb (fun a => existsb (is_monomial (unit_tuple D a)) ps) (seq 0 D)
  then Ok (map (fun p => if is_first D (fst p) then rate else snd p) (combine ps d)) else Err AssertionError.
(* macroscopic_value_kernels.py:258-280: density from the populations, velocity from the field, first moments relaxed with the
   given rate *)
Definition velocity_setter_raw (D : nat) (S : stencil) (ps : list poly) (zc compr : bool)
  (eqm : R -> list R -> list nat -> R) (fwd bwd : list R -> res (list R)) (d : list R) (rate : R) (v f : list R) : res (list R) :=
  rbind (set_first_moment_relaxation_rate D ps d rate) (fun d' =>
  raw_input_collision D S ps zc compr eqm fwd bwd d' None (Some v) f).
Definition velocity_setter_central (D : nat) (S : stencil) (ps : list poly) (zc compr : bool)
  (eqc : R -> list R -> list nat -> R) (fwd bwd : list R -> list R -> res (list R)) (d : list R) (rate : R) (v f : list R) : res (list R) :=
  rbind (set_first_moment_relaxation_rate D ps d rate) (fun d' =>
  central_input_collision D S ps zc compr eqc fwd bwd d' None (Some v) f).

(* lbstep.py:401-406: None is nan.  [blocks] are the averages of |backup - velocity| of the blocks of one process *)
Definition local_residuum (blocks : list (option R)) : option R := fold_left (fun _ b => b) blocks (Some 0).
Definition oplus (x y : option R) : option R := match x, y with Some a, Some b => Some (a + b) | _, _ => None end.
(* dh.reduce_float_sequence([residuum, 1.0], 'sum') and the quotient: sum over the processes by their number *)
Definition compute_residuum (processes : list (list (option R))) : option R :=
  match fold_left oplus (map local_residuum processes) (Some 0) with
  | Some s => Some (s / INR (length processes))
  | None => None
  end.

Section Initialisation.
  Context {P V : Type}.
  (* one pass of lbstep.py:417-421: communication, boundary handling, velocity setting kernel with the given rate reading the
     backup velocities, swap of the arrays *)
  Variable sweep : R -> V -> P -> P.
  Variable getter : P -> V.                   (* _getterKernel *)
  Variable residuum : V -> V -> option R.     (* compute_residuum: backup, velocity *)
  Variable separate : bool.                   (* first moments are relaxed separately by the method *)

  (* pdfs, velocity array, backup array, relaxation rate compiled into _velocity_init_kernel *)
  Record lb_state := { pdfs : P; velocity : V; backup : V; kernel_rate : option R }.
  Fixpoint sweeps (k : nat) (rate : R) (v : V) (p : P) : P := match k with O => p | Datatypes.S k' => sweeps k' rate v (sweep rate v p) end.
  (* np.isnan(residuum) or residuum < threshold *)
  Definition stops (threshold : R) (r : option R) : bool :=
    match r with None => true | Some x => if Rlt_dec x threshold then true else false end.
  (* lbstep.py:414-426; [last] is global_residuum *)
  Fixpoint outer (n c : nat) (rate threshold : R) (st : lb_state) (steps : nat) (last : option (option R)) : lb_state * nat * option (option R) :=
    match n with
    | O => (st, steps, last)
    | Datatypes.S n' =>
        let p := sweeps c rate (backup st) (pdfs st) in
        let st' := {| pdfs := p; velocity := getter p; backup := backup st; kernel_rate := kernel_rate st |} in
        let r := residuum (backup st) (getter p) in
        if stops threshold r then (st', (steps + c)%nat, Some r) else outer n' c rate threshold st' (steps + c) (Some r)
    end.
  (* lbstep.py:349-432.  // is floor division, range of a negative number is empty. *)
  Definition run_iterative_initialization (rate threshold : R) (max_steps check : Z) (st : lb_state) : res (R * nat) * lb_state :=
    match (match kernel_rate st with Some r => Some r | None => if separate then Some rate else None end) with
    | None => (Err AssertionError, st)
    | Some r =>
      let st1 := {| pdfs := pdfs st; velocity := velocity st; backup := velocity st; kernel_rate := Some r |} in
      if (check =? 0)%Z then (Err ZeroDivisionError, st1) else
      let '(st2, steps, last) := outer (Z.to_nat (max_steps / check)) (Z.to_nat check) r threshold st1 0 None in
      match last with
      | None => (Err AssertionError, st2)
      | Some None => (Err ValueError, {| pdfs := pdfs st2; velocity := backup st2; backup := backup st2; kernel_rate := kernel_rate st2 |})
      | Some (Some x) => if Rlt_dec x threshold then (Ok (x, steps), st2)
                         else (Err ValueError, {| pdfs := pdfs st2; velocity := backup st2; backup := backup st2; kernel_rate := kernel_rate st2 |})
      end
    end.
End Initialisation.
Arguments lb_state : clear implicits.
