(* Model: cumulant collisions with prescribed density and velocity (creationfunctions.py:642-690 with cumulantbasedmethod.py:296-402), and the velocity
   setting collision rule (macroscopic_value_kernels.py:245-280) for cumulant methods and for methods with a force. *)
From Coq Require Import List ZArith Bool Arith Reals.
From Verif Require Import StencilModel RealLib LinLib TransSpec TransModel CumModel CollModel MacroModel IniModel TrackModel.
Import ListNotations.
Local Open Scope R_scope.

(* creationfunctions.py:661-677 with or without force model *)
Definition given_quantities (D : nat) (S : stencil) (zc compr : bool) (force : option (force_model * list R)) (rho_in : option R) (u_in : option (list R)) (f : list R) : res (R * list R) :=
  match force with None => input_quantities D S zc compr rho_in u_in f | Some p => forced_quantities D S zc compr p rho_in u_in f end.
(* creationfunctions.py:679-684 with cumulantbasedmethod.py:296-402: the density and velocity symbols of the cumulant transform (345), of the central
   moment transform (353), of the force terms (361) and of the equilibrium (374) are all the given ones *)
Definition cumulant_input_collision (D : nat) (S : stencil) (ps : list poly) (zc dev compr : bool) (ws : list R) (cexps cms : list (list nat)) (P Pinv Mmono_inv : mat)
  (eqC : R -> list R -> list nat -> R) (fwd bwd : list R -> list R -> res (list R)) (d : list R) (force : option (force_model * list R))
  (rho_in : option R) (u_in : option (list R)) (f : list R) : res (list R) :=
  rbind (given_quantities D S zc compr force rho_in u_in f) (fun q => let rho := fst q in let u := snd q in
  if zc && dev then Err AssertionError else
  rbind (match force with
         | None => Ok (rzero (length S), rzero (length S))
         | Some (fm, F) => symmetric_forcing fm D S cms (mv (shift_matrix (length S) (monomial_matrix cms S u) Mmono_inv)) ws u F
         end) (fun g =>
  rbind (fwd u f) (fun kappa =>
  let C := cumulant_forward D u rho cexps P (lookup cms (radd kappa (fst g))) in
  bwd u (radd (cumulant_backward D u rho cexps Pinv (relax d (equilibrium_values ps (eqC rho u)) C) cms) (snd g))))).

(* macroscopic_value_kernels.py:258-280.  The velocity of the field minus half the force over the density (conservedquantitycomputation.py:251-272) enters the
   equilibrium; cumulantbasedmethod.py:141-146 sets the rates of the first cumulants *)
Definition velocity_setter_cumulant (D : nat) (S : stencil) (ps : list poly) (zc dev compr : bool) (ws : list R) (cexps cms : list (list nat)) (P Pinv Mmono_inv : mat)
  (eqC : R -> list R -> list nat -> R) (fwd bwd : list R -> list R -> res (list R)) (d : list R) (force : option (force_model * list R)) (rate : R) (v f : list R) : res (list R) :=
  rbind (set_first_moment_relaxation_rate D ps d rate) (fun d' =>
  cumulant_input_collision D S ps zc dev compr ws cexps cms P Pinv Mmono_inv eqC fwd bwd d' force None (Some (init_velocity D compr (pdf_density zc f) v force)) f).
Definition velocity_setter_forced_raw (D : nat) (S : stencil) (ps : list poly) (zc compr : bool) (eqm : R -> list R -> list nat -> R) (ws : list R) (M : mat)
  (fwd bwd : list R -> res (list R)) (d : list R) (fm : force_model) (F : list R) (rate : R) (v f : list R) : res (list R) :=
  rbind (set_first_moment_relaxation_rate D ps d rate) (fun d' =>
  raw_forced_collision D S ps zc compr eqm ws M fwd bwd d' fm F None (Some (init_velocity D compr (pdf_density zc f) v (Some (fm, F)))) f).
Definition velocity_setter_forced_central (D : nat) (S : stencil) (ps : list poly) (zc compr : bool) (eqc : R -> list R -> list nat -> R) (ws : list R) (M Minv : mat)
  (fwd bwd : list R -> list R -> res (list R)) (d : list R) (fm : force_model) (F : list R) (rate : R) (v f : list R) : res (list R) :=
  rbind (set_first_moment_relaxation_rate D ps d rate) (fun d' =>
  central_forced_collision D S ps zc compr eqc ws M Minv fwd bwd d' fm F None (Some (init_velocity D compr (pdf_density zc f) v (Some (fm, F)))) f).
