(* What a configuration means, in the words of the documentation of LBMConfig. *)
From Coq Require Import String List Bool Arith.
From Verif Require Import StencilModel AccessModel CollModel ConfigModel.
Import ListNotations.

Definition two_rates (m : lb_method_name) : Prop := m = TRT \/ m = TRT_KBC_N1 \/ m = TRT_KBC_N2 \/ m = TRT_KBC_N3 \/ m = TRT_KBC_N4.
Definition is_cumulant (m : lb_method_name) : Prop := m = CUMULANT \/ m = MONOMIAL_CUMULANT.

(* the spaces a method can be relaxed in *)
Inductive collides_in : lb_method_name -> space -> Prop :=
| srt_pop : collides_in SRT POPULATIONS | srt_raw : collides_in SRT RAW_MOMENTS
| trt_pop : collides_in TRT POPULATIONS | trt_raw : collides_in TRT RAW_MOMENTS
| mrt_pop : collides_in MRT POPULATIONS | mrt_raw : collides_in MRT RAW_MOMENTS
| raw_pop : collides_in MRT_RAW POPULATIONS | raw_raw : collides_in MRT_RAW RAW_MOMENTS
| kbc1_pop : collides_in TRT_KBC_N1 POPULATIONS | kbc2_pop : collides_in TRT_KBC_N2 POPULATIONS
| kbc3_pop : collides_in TRT_KBC_N3 POPULATIONS | kbc4_pop : collides_in TRT_KBC_N4 POPULATIONS
| cm_cm : collides_in CENTRAL_MOMENT CENTRAL_MOMENTS
| cum_cum : collides_in CUMULANT CUMULANTS | mcum_cum : collides_in MONOMIAL_CUMULANT CUMULANTS.
(* the space used if none is given *)
Definition default_space (m : lb_method_name) : space :=
  match m with
  | SRT | TRT | TRT_KBC_N1 | TRT_KBC_N2 | TRT_KBC_N3 | TRT_KBC_N4 => POPULATIONS
  | MRT | MRT_RAW => RAW_MOMENTS
  | CENTRAL_MOMENT => CENTRAL_MOMENTS
  | CUMULANT | MONOMIAL_CUMULANT => CUMULANTS
  end.

Section Spec.
  Context {E other : Type}.
  Local Notation config := (config E other).

  (* the method argument denotes m *)
  Definition method_is (c : config) (m : lb_method_name) : Prop :=
    match method _ _ c with MEnum m' => m' = m | MStr s => In (upper s, m) method_names end.
  Definition space_given (c : config) (s : space) : Prop :=
    collision_space_info _ _ c = Some (CSEnum s) \/ collision_space_info _ _ c = Some (CSInfo s).
  Definition known_force_model (c : config) : Prop :=
    match fmodel _ _ c with
    | Some (FMStr _ s) => In (upper s) force_model_names
    | Some (FMEnum _ name) => In name force_model_names
    | _ => True
    end.
  (* no two fields contradict each other *)
  Definition consistent (c : config) (m : lb_method_name) : Prop :=
    method_is c m /\
    (is_cumulant m -> compressible _ _ c = true) /\
    ~ (zero_centered _ _ c = true /\ entropic _ _ c = true) /\
    (delta_equilibrium _ _ c = Some true -> zero_centered _ _ c = true /\ ~ is_cumulant m) /\
    (forall s, space_given c s -> collides_in m s /\ (entropic _ _ c = true \/ fluctuating _ _ c = true -> s = POPULATIONS)) /\
    known_force_model c.
  (* an enum member is one of the enumeration's members *)
  Definition enum_ok (c : config) : Prop := match fmodel _ _ c with Some (FMEnum _ name) => In name force_model_names | _ => True end.

  (* changing one field and nothing else *)
  Definition set_dim (x : nat) (c : config) : config := mkC E other x (method _ _ c) (relaxation_rates _ _ c) (relaxation_rate _ _ c) (compressible _ _ c) (zero_centered _ _ c) (delta_equilibrium _ _ c) (continuous_equilibrium _ _ c) (maxwellian_moments _ _ c) (fmodel _ _ c) (force _ _ c) (collision_space_info _ _ c) (entropic _ _ c) (fluctuating _ _ c) (psm_fraction _ _ c) (velocity_input _ _ c) (density_input _ _ c) (conserved_moments _ _ c) (kernel_type _ _ c) (streaming_pattern _ _ c) (step _ _ c) (rest _ _ c).
  Definition set_method (x : method_arg) (c : config) : config := mkC E other (dim _ _ c) x (relaxation_rates _ _ c) (relaxation_rate _ _ c) (compressible _ _ c) (zero_centered _ _ c) (delta_equilibrium _ _ c) (continuous_equilibrium _ _ c) (maxwellian_moments _ _ c) (fmodel _ _ c) (force _ _ c) (collision_space_info _ _ c) (entropic _ _ c) (fluctuating _ _ c) (psm_fraction _ _ c) (velocity_input _ _ c) (density_input _ _ c) (conserved_moments _ _ c) (kernel_type _ _ c) (streaming_pattern _ _ c) (step _ _ c) (rest _ _ c).
  Definition set_relaxation_rates (x : option (list E)) (c : config) : config := mkC E other (dim _ _ c) (method _ _ c) x (relaxation_rate _ _ c) (compressible _ _ c) (zero_centered _ _ c) (delta_equilibrium _ _ c) (continuous_equilibrium _ _ c) (maxwellian_moments _ _ c) (fmodel _ _ c) (force _ _ c) (collision_space_info _ _ c) (entropic _ _ c) (fluctuating _ _ c) (psm_fraction _ _ c) (velocity_input _ _ c) (density_input _ _ c) (conserved_moments _ _ c) (kernel_type _ _ c) (streaming_pattern _ _ c) (step _ _ c) (rest _ _ c).
  Definition set_relaxation_rate (x : option E) (c : config) : config := mkC E other (dim _ _ c) (method _ _ c) (relaxation_rates _ _ c) x (compressible _ _ c) (zero_centered _ _ c) (delta_equilibrium _ _ c) (continuous_equilibrium _ _ c) (maxwellian_moments _ _ c) (fmodel _ _ c) (force _ _ c) (collision_space_info _ _ c) (entropic _ _ c) (fluctuating _ _ c) (psm_fraction _ _ c) (velocity_input _ _ c) (density_input _ _ c) (conserved_moments _ _ c) (kernel_type _ _ c) (streaming_pattern _ _ c) (step _ _ c) (rest _ _ c).
  Definition set_compressible (x : bool) (c : config) : config := mkC E other (dim _ _ c) (method _ _ c) (relaxation_rates _ _ c) (relaxation_rate _ _ c) x (zero_centered _ _ c) (delta_equilibrium _ _ c) (continuous_equilibrium _ _ c) (maxwellian_moments _ _ c) (fmodel _ _ c) (force _ _ c) (collision_space_info _ _ c) (entropic _ _ c) (fluctuating _ _ c) (psm_fraction _ _ c) (velocity_input _ _ c) (density_input _ _ c) (conserved_moments _ _ c) (kernel_type _ _ c) (streaming_pattern _ _ c) (step _ _ c) (rest _ _ c).
  Definition set_zero_centered (x : bool) (c : config) : config := mkC E other (dim _ _ c) (method _ _ c) (relaxation_rates _ _ c) (relaxation_rate _ _ c) (compressible _ _ c) x (delta_equilibrium _ _ c) (continuous_equilibrium _ _ c) (maxwellian_moments _ _ c) (fmodel _ _ c) (force _ _ c) (collision_space_info _ _ c) (entropic _ _ c) (fluctuating _ _ c) (psm_fraction _ _ c) (velocity_input _ _ c) (density_input _ _ c) (conserved_moments _ _ c) (kernel_type _ _ c) (streaming_pattern _ _ c) (step _ _ c) (rest _ _ c).
  Definition set_delta_equilibrium (x : option bool) (c : config) : config := mkC E other (dim _ _ c) (method _ _ c) (relaxation_rates _ _ c) (relaxation_rate _ _ c) (compressible _ _ c) (zero_centered _ _ c) x (continuous_equilibrium _ _ c) (maxwellian_moments _ _ c) (fmodel _ _ c) (force _ _ c) (collision_space_info _ _ c) (entropic _ _ c) (fluctuating _ _ c) (psm_fraction _ _ c) (velocity_input _ _ c) (density_input _ _ c) (conserved_moments _ _ c) (kernel_type _ _ c) (streaming_pattern _ _ c) (step _ _ c) (rest _ _ c).
  Definition set_continuous_equilibrium (x : bool) (c : config) : config := mkC E other (dim _ _ c) (method _ _ c) (relaxation_rates _ _ c) (relaxation_rate _ _ c) (compressible _ _ c) (zero_centered _ _ c) (delta_equilibrium _ _ c) x (maxwellian_moments _ _ c) (fmodel _ _ c) (force _ _ c) (collision_space_info _ _ c) (entropic _ _ c) (fluctuating _ _ c) (psm_fraction _ _ c) (velocity_input _ _ c) (density_input _ _ c) (conserved_moments _ _ c) (kernel_type _ _ c) (streaming_pattern _ _ c) (step _ _ c) (rest _ _ c).
  Definition set_maxwellian_moments (x : option bool) (c : config) : config := mkC E other (dim _ _ c) (method _ _ c) (relaxation_rates _ _ c) (relaxation_rate _ _ c) (compressible _ _ c) (zero_centered _ _ c) (delta_equilibrium _ _ c) (continuous_equilibrium _ _ c) x (fmodel _ _ c) (force _ _ c) (collision_space_info _ _ c) (entropic _ _ c) (fluctuating _ _ c) (psm_fraction _ _ c) (velocity_input _ _ c) (density_input _ _ c) (conserved_moments _ _ c) (kernel_type _ _ c) (streaming_pattern _ _ c) (step _ _ c) (rest _ _ c).
  Definition set_fmodel (x : option (fmodel_arg E)) (c : config) : config := mkC E other (dim _ _ c) (method _ _ c) (relaxation_rates _ _ c) (relaxation_rate _ _ c) (compressible _ _ c) (zero_centered _ _ c) (delta_equilibrium _ _ c) (continuous_equilibrium _ _ c) (maxwellian_moments _ _ c) x (force _ _ c) (collision_space_info _ _ c) (entropic _ _ c) (fluctuating _ _ c) (psm_fraction _ _ c) (velocity_input _ _ c) (density_input _ _ c) (conserved_moments _ _ c) (kernel_type _ _ c) (streaming_pattern _ _ c) (step _ _ c) (rest _ _ c).
  Definition set_force (x : force_arg E) (c : config) : config := mkC E other (dim _ _ c) (method _ _ c) (relaxation_rates _ _ c) (relaxation_rate _ _ c) (compressible _ _ c) (zero_centered _ _ c) (delta_equilibrium _ _ c) (continuous_equilibrium _ _ c) (maxwellian_moments _ _ c) (fmodel _ _ c) x (collision_space_info _ _ c) (entropic _ _ c) (fluctuating _ _ c) (psm_fraction _ _ c) (velocity_input _ _ c) (density_input _ _ c) (conserved_moments _ _ c) (kernel_type _ _ c) (streaming_pattern _ _ c) (step _ _ c) (rest _ _ c).
  Definition set_collision_space_info (x : option space_arg) (c : config) : config := mkC E other (dim _ _ c) (method _ _ c) (relaxation_rates _ _ c) (relaxation_rate _ _ c) (compressible _ _ c) (zero_centered _ _ c) (delta_equilibrium _ _ c) (continuous_equilibrium _ _ c) (maxwellian_moments _ _ c) (fmodel _ _ c) (force _ _ c) x (entropic _ _ c) (fluctuating _ _ c) (psm_fraction _ _ c) (velocity_input _ _ c) (density_input _ _ c) (conserved_moments _ _ c) (kernel_type _ _ c) (streaming_pattern _ _ c) (step _ _ c) (rest _ _ c).
  Definition set_entropic (x : bool) (c : config) : config := mkC E other (dim _ _ c) (method _ _ c) (relaxation_rates _ _ c) (relaxation_rate _ _ c) (compressible _ _ c) (zero_centered _ _ c) (delta_equilibrium _ _ c) (continuous_equilibrium _ _ c) (maxwellian_moments _ _ c) (fmodel _ _ c) (force _ _ c) (collision_space_info _ _ c) x (fluctuating _ _ c) (psm_fraction _ _ c) (velocity_input _ _ c) (density_input _ _ c) (conserved_moments _ _ c) (kernel_type _ _ c) (streaming_pattern _ _ c) (step _ _ c) (rest _ _ c).
  Definition set_fluctuating (x : bool) (c : config) : config := mkC E other (dim _ _ c) (method _ _ c) (relaxation_rates _ _ c) (relaxation_rate _ _ c) (compressible _ _ c) (zero_centered _ _ c) (delta_equilibrium _ _ c) (continuous_equilibrium _ _ c) (maxwellian_moments _ _ c) (fmodel _ _ c) (force _ _ c) (collision_space_info _ _ c) (entropic _ _ c) x (psm_fraction _ _ c) (velocity_input _ _ c) (density_input _ _ c) (conserved_moments _ _ c) (kernel_type _ _ c) (streaming_pattern _ _ c) (step _ _ c) (rest _ _ c).
  Definition set_psm_fraction (x : bool) (c : config) : config := mkC E other (dim _ _ c) (method _ _ c) (relaxation_rates _ _ c) (relaxation_rate _ _ c) (compressible _ _ c) (zero_centered _ _ c) (delta_equilibrium _ _ c) (continuous_equilibrium _ _ c) (maxwellian_moments _ _ c) (fmodel _ _ c) (force _ _ c) (collision_space_info _ _ c) (entropic _ _ c) (fluctuating _ _ c) x (velocity_input _ _ c) (density_input _ _ c) (conserved_moments _ _ c) (kernel_type _ _ c) (streaming_pattern _ _ c) (step _ _ c) (rest _ _ c).
  Definition set_velocity_input (x : bool) (c : config) : config := mkC E other (dim _ _ c) (method _ _ c) (relaxation_rates _ _ c) (relaxation_rate _ _ c) (compressible _ _ c) (zero_centered _ _ c) (delta_equilibrium _ _ c) (continuous_equilibrium _ _ c) (maxwellian_moments _ _ c) (fmodel _ _ c) (force _ _ c) (collision_space_info _ _ c) (entropic _ _ c) (fluctuating _ _ c) (psm_fraction _ _ c) x (density_input _ _ c) (conserved_moments _ _ c) (kernel_type _ _ c) (streaming_pattern _ _ c) (step _ _ c) (rest _ _ c).
  Definition set_density_input (x : bool) (c : config) : config := mkC E other (dim _ _ c) (method _ _ c) (relaxation_rates _ _ c) (relaxation_rate _ _ c) (compressible _ _ c) (zero_centered _ _ c) (delta_equilibrium _ _ c) (continuous_equilibrium _ _ c) (maxwellian_moments _ _ c) (fmodel _ _ c) (force _ _ c) (collision_space_info _ _ c) (entropic _ _ c) (fluctuating _ _ c) (psm_fraction _ _ c) (velocity_input _ _ c) x (conserved_moments _ _ c) (kernel_type _ _ c) (streaming_pattern _ _ c) (step _ _ c) (rest _ _ c).
  Definition set_conserved_moments (x : bool) (c : config) : config := mkC E other (dim _ _ c) (method _ _ c) (relaxation_rates _ _ c) (relaxation_rate _ _ c) (compressible _ _ c) (zero_centered _ _ c) (delta_equilibrium _ _ c) (continuous_equilibrium _ _ c) (maxwellian_moments _ _ c) (fmodel _ _ c) (force _ _ c) (collision_space_info _ _ c) (entropic _ _ c) (fluctuating _ _ c) (psm_fraction _ _ c) (velocity_input _ _ c) (density_input _ _ c) x (kernel_type _ _ c) (streaming_pattern _ _ c) (step _ _ c) (rest _ _ c).
  Definition set_kernel_type (x : kernel_arg) (c : config) : config := mkC E other (dim _ _ c) (method _ _ c) (relaxation_rates _ _ c) (relaxation_rate _ _ c) (compressible _ _ c) (zero_centered _ _ c) (delta_equilibrium _ _ c) (continuous_equilibrium _ _ c) (maxwellian_moments _ _ c) (fmodel _ _ c) (force _ _ c) (collision_space_info _ _ c) (entropic _ _ c) (fluctuating _ _ c) (psm_fraction _ _ c) (velocity_input _ _ c) (density_input _ _ c) (conserved_moments _ _ c) x (streaming_pattern _ _ c) (step _ _ c) (rest _ _ c).
  Definition set_streaming_pattern (x : string) (c : config) : config := mkC E other (dim _ _ c) (method _ _ c) (relaxation_rates _ _ c) (relaxation_rate _ _ c) (compressible _ _ c) (zero_centered _ _ c) (delta_equilibrium _ _ c) (continuous_equilibrium _ _ c) (maxwellian_moments _ _ c) (fmodel _ _ c) (force _ _ c) (collision_space_info _ _ c) (entropic _ _ c) (fluctuating _ _ c) (psm_fraction _ _ c) (velocity_input _ _ c) (density_input _ _ c) (conserved_moments _ _ c) (kernel_type _ _ c) x (step _ _ c) (rest _ _ c).
  Definition set_step (x : timestep) (c : config) : config := mkC E other (dim _ _ c) (method _ _ c) (relaxation_rates _ _ c) (relaxation_rate _ _ c) (compressible _ _ c) (zero_centered _ _ c) (delta_equilibrium _ _ c) (continuous_equilibrium _ _ c) (maxwellian_moments _ _ c) (fmodel _ _ c) (force _ _ c) (collision_space_info _ _ c) (entropic _ _ c) (fluctuating _ _ c) (psm_fraction _ _ c) (velocity_input _ _ c) (density_input _ _ c) (conserved_moments _ _ c) (kernel_type _ _ c) (streaming_pattern _ _ c) x (rest _ _ c).
  Definition set_rest (x : other) (c : config) : config := mkC E other (dim _ _ c) (method _ _ c) (relaxation_rates _ _ c) (relaxation_rate _ _ c) (compressible _ _ c) (zero_centered _ _ c) (delta_equilibrium _ _ c) (continuous_equilibrium _ _ c) (maxwellian_moments _ _ c) (fmodel _ _ c) (force _ _ c) (collision_space_info _ _ c) (entropic _ _ c) (fluctuating _ _ c) (psm_fraction _ _ c) (velocity_input _ _ c) (density_input _ _ c) (conserved_moments _ _ c) (kernel_type _ _ c) (streaming_pattern _ _ c) (step _ _ c) x.

  (* changes of one field which do not depend on what other fields were resolved to *)
  Inductive independent_update (c : config) : (config -> config) -> Prop :=
  | ind_rest o : independent_update c (set_rest o)
  | ind_rate w : independent_update c (set_relaxation_rate (Some w))
  | ind_rates rs rs0 : relaxation_rates _ _ c = Some rs0 -> relaxation_rate _ _ c = None -> independent_update c (set_relaxation_rates (Some rs))
  | ind_compressible b : independent_update c (set_compressible b)
  | ind_delta b : independent_update c (set_delta_equilibrium (Some b))
  | ind_space s : independent_update c (set_collision_space_info (Some s))
  | ind_continuous b : independent_update c (set_continuous_equilibrium b)
  | ind_maxwellian b : independent_update c (set_maxwellian_moments (Some b))
  | ind_fmodel m : independent_update c (set_fmodel (Some m))
  | ind_velocity_input : independent_update c (set_velocity_input true)
  | ind_density_input : independent_update c (set_density_input true)
  | ind_kernel_type s k : kernel_type _ _ c = KStr s -> sget s kernel_type_to_streaming_pattern = None -> independent_update c (set_kernel_type k)
  | ind_streaming_pattern s p : kernel_type _ _ c = KStr s -> sget s kernel_type_to_streaming_pattern = None -> independent_update c (set_streaming_pattern p)
  | ind_step s t : kernel_type _ _ c = KStr s -> sget s kernel_type_to_streaming_pattern = None -> independent_update c (set_step t).
End Spec.
