{
 "claims": [
  {
   "property": "C01",
   "status": "proved",
   "theorems": [
    "C01_streaming_torus",
    "C01_streaming_lattice"
   ],
   "note": ""
  },
  {
   "property": "C02",
   "status": "proved",
   "theorems": [
    "C02_exclusive_slots",
    "C02_sequential_is_simultaneous",
    "C02_order_independent",
    "C02_race_free"
   ],
   "note": ""
  },
  {
   "property": "C03",
   "status": "proved",
   "theorems": [
    "C03_boundary_simulation",
    "C03_boundary_kernel",
    "C03_link_order_independent"
   ],
   "note": ""
  },
  {
   "property": "C04",
   "status": "proved",
   "theorems": [
    "C04_translation_arrays"
   ],
   "note": ""
  },
  {
   "property": "C05",
   "status": "proved",
   "theorems": [
    "C05_exchange",
    "C05_interior_unchanged",
    "C05_copy_order",
    "C05_torus",
    "C05_two_ghost_layers_refuted"
   ],
   "note": "one ghost layer (the default) and nearest-neighbour stencils; refuted for two ghost layers (finding)"
  },
  {
   "property": "C06",
   "status": "proved",
   "theorems": [
    "C06_loads",
    "C06_rejects_long",
    "C06_simulation"
   ],
   "note": ""
  },
  {
   "property": "C07",
   "status": "proved",
   "theorems": [
    "C07_predefined_well_formed",
    "C07_orderings_are_permutations",
    "C07_index",
    "C07_index_raises",
    "C07_inverse_index",
    "C07_inverse_index_involution"
   ],
   "note": ""
  },
  {
   "property": "C08",
   "status": "partial",
   "theorems": [
    "C08_equality_is_equivalence",
    "C08_equality_meaning",
    "C08_equal_hash_refuted",
    "C08_equal_hash_predefined_partial"
   ],
   "note": "equality is an equivalence relation; the hash half is refuted for tuple stencils (finding) and proved for stencils constructed by name"
  },
  {
   "property": "C09",
   "status": "proved",
   "theorems": [
    "C09_weights",
    "C09_all_moments",
    "C09_gaussian_quadrature",
    "C09_rejected",
    "C09_d3q7_refuted"
   ],
   "note": "D3Q7 is a quadrature only to third order (C09_d3q7_refuted)"
  },
  {
   "property": "C10",
   "status": "proved",
   "theorems": [
    "C10_defined",
    "C10_density",
    "C10_momentum",
    "C10_euler_stress",
    "C10_linear_stress",
    "C10_third_moment",
    "C10_matches_continuous",
    "C10_background",
    "C10_d3q7_refuted"
   ],
   "note": "for D3Q7 with the default order the first moment differs from the momentum (C10_d3q7_refuted, finding)"
  },
  {
   "property": "C11",
   "status": "proved",
   "theorems": [
    "C11_equilibria",
    "C11_raw_moments_conserve",
    "C11_central_moments_conserve",
    "C11_population_form_conserves",
    "C11_population_form_rejects",
    "C11_cumulants_conserve"
   ],
   "note": "Raw-moment, central-moment, population-form and cumulant collision conserve mass and momentum for all rates, with every transform and equilibrium of the library (D3Q7 with equilibrium order <= 2)."
  },
  {
   "property": "C12",
   "status": "proved",
   "theorems": [
    "C12_raw_moments_impulse",
    "C12_central_moments_impulse",
    "C12_population_form_impulse",
    "C12_cumulants_impulse",
    "C12_rejected_models",
    "C12_he_density_free"
   ],
   "note": "All force models in all collision spaces that accept them; rejected combinations raise. He in population form with one rate is covered for stencils other than D3Q7."
  },
  {
   "property": "C13",
   "status": "proved",
   "theorems": [
    "C13_equal_rates_is_SRT",
    "C13_SRT_discrete_equilibrium",
    "C13_TRT_parts",
    "C13_basis_change",
    "C13_population_form",
    "C13_cumulants_relax"
   ],
   "note": "SRT, TRT, basis change inside groups of equal rates, population form = moment form, cumulant relaxation mode by mode."
  },
  {
   "property": "C14",
   "status": "proved",
   "theorems": [
    "C14_matrix_computes_moments",
    "C14_matrix_round_trip",
    "C14_background",
    "C14_partial_sums",
    "C14_chimera_is_moment_matrix",
    "C14_chimera_round_trip",
    "C14_monomial_round_trip",
    "C14_polynomialisation",
    "C14_dealiasing",
    "C14_multispeed_refuted"
   ],
   "note": "fast transform drops populations on stencils with components beyond -1,0,1 (C14_multispeed_refuted)"
  },
  {
   "property": "C15",
   "status": "proved",
   "theorems": [
    "C15_transforms_compute_central_moments",
    "C15_round_trips",
    "C15_binomial_formula",
    "C15_frame_independent",
    "C15_shifts_compose",
    "C15_shift_matrix",
    "C15_reduced_polynomialisation",
    "C15_backward_regrouping",
    "C15_binomial_missing_moment_refuted"
   ],
   "note": "binomial transform raises for exponent sets that are not downward closed (C15_binomial_missing_moment_refuted)"
  },
  {
   "property": "C16",
   "status": "proved",
   "theorems": [
    "C16_moments_of_cumulants_of_moments",
    "C16_cumulants_of_moments_of_cumulants",
    "C16_transform_round_trips",
    "C16_partition_formula",
    "C16_partition_round_trips",
    "C16_frame_independent",
    "C16_polynomial_cumulants",
    "C16_shift_invariant",
    "C16_low_orders",
    "C16_central_wrappers",
    "C16_maxwellian",
    "C16_differentiation",
    "C16_required_central_moments"
   ],
   "note": "Any dimension and order. Generating functions are modelled syntactically with sympy differentiation rules, which are proved to be real derivatives; round trips for the transform classes and the partition formulas, frame independence, Maxwellian cumulants."
  },
  {
   "property": "C17",
   "status": "proved",
   "theorems": [
    "C17_getter",
    "C17_raw_moments_round_trip",
    "C17_central_moments_round_trip",
    "C17_population_form_round_trip",
    "C17_cumulants_round_trip",
    "C17_rejected_setters",
    "C17_setter_region_refuted"
   ],
   "note": "Setter (raw moments, central moments, population form, cumulants) followed by the getter returns density, velocity, momentum density for every force, storage and compressibility; independent of previous populations. Finding: compile_macroscopic_values_setter ignores ghost_layers and iteration_slice."
  },
  {
   "property": "C18",
   "status": "proved",
   "theorems": [
    "C18_partial_sums",
    "C18_shared_sums",
    "C18_predefined"
   ],
   "note": "Shared partial sums evaluate to the plain moments for every stencil with two velocities along each axis, hence for all predefined ones."
  },
  {
   "property": "C19",
   "status": "proved",
   "theorems": [
    "C19_mass_conserved",
    "C19_force_is_lost_momentum",
    "C19_force_vector"
   ],
   "note": "Total mass of whole simulations (setter, n bounce-back and stream-collide steps, getter) for every geometry, pattern and cell/link order; reported force and in-kernel force vector equal the momentum lost. Populations are real numbers; for zero-centred storage the force omits the constant background pressure."
  },
  {
   "property": "C20",
   "status": "partial",
   "theorems": [
    "C20_bouzidi_formula",
    "C20_bouzidi_interpolation",
    "C20_bouzidi_linear_exact",
    "C20_bouzidi_second_cell_refuted",
    "C20_quadratic_formula",
    "C20_quadratic_equilibrium",
    "C20_quadratic_default_refuted"
   ],
   "note": "Formula, bounce-back limit, continuity, nonnegative weights and linear exactness of the linear condition; formula and equilibrium behaviour of the quadratic one (at rest equilibrium is unchanged). Refuted: documented fallback without a second fluid cell; default distance of the quadratic condition is not bounce back."
  },
  {
   "property": "C21",
   "status": "proved",
   "theorems": [
    "C21_zero_velocity",
    "C21_errors",
    "C21_equilibrium",
    "C21_lid_conserves_mass",
    "C21_zero_density_refuted"
   ],
   "note": "Zero velocity, equilibrium of the wall velocity (exact for order 2, stated cubic term otherwise), closed tangential lid conserves mass. Refuted detail: prescribed density 0 is ignored."
  },
  {
   "property": "C22",
   "status": "partial",
   "theorems": [
    "C22_fixed_density_anti_bounce_back",
    "C22_fixed_density_fixed_point",
    "C22_diffusion_dirichlet",
    "C22_diffusion_velocity_refuted",
    "C22_simple_outflow",
    "C22_extrapolation_outflow",
    "C22_neumann_by_copy_partial",
    "C22_neumann_thin_wall_refuted",
    "C22_stream_in_constant"
   ],
   "note": "FixedDensity, DiffusionDirichlet (no velocity), outflows, StreamInConstant in full; NeumannByCopy when no fluid cell lies directly behind the wall cell (refuted otherwise); DiffusionDirichlet with velocity refuted."
  },
  {
   "property": "C23",
   "status": "partial",
   "theorems": [
    "C23_mirrored_directions",
    "C23_mirror_errors",
    "C23_normals",
    "C23_plane_walls",
    "C23_specular",
    "C23_normal_from_geometry",
    "C23_simulation_conserves_mass_partial",
    "C23_edge_3d_refuted",
    "C23_mixed_corner_refuted"
   ],
   "note": "Mirror table, accepted normals, specular rule, mass and momentum on plane walls in any dimension, whole simulations in 2D geometries and plane walls with normals from the geometry. Refuted: 3D edges and corners with another boundary read a non-fluid cell."
  },
  {
   "property": "C24",
   "status": "proved",
   "theorems": [
    "C24_viscosity_round_trip",
    "C24_rate_round_trip",
    "C24_positive_viscosities",
    "C24_decreasing",
    "C24_magic_number",
    "C24_magic_unique",
    "C24_level_scaling",
    "C24_level_scaling_compose",
    "C24_level_scaling_one"
   ],
   "note": ""
  },
  {
   "property": "C25",
   "status": "proved",
   "theorems": [
    "C25_reynolds_number_current",
    "C25_fixed_lattice_velocity",
    "C25_diffusive",
    "C25_acoustic"
   ],
   "note": ""
  },
  {
   "property": "C26",
   "status": "partial",
   "theorems": [
    "C26_smagorinsky",
    "C26_qr_nonzero_stress",
    "C26_qr_refuted",
    "C26_casson_bounds",
    "C26_casson_law",
    "C26_casson_refuted",
    "C26_casson_equilibrium_refuted",
    "C26_zero_constant_refuted"
   ],
   "note": "closed laws proved where the square roots and divisions are defined; QR model is 0/0 at equilibrium, Casson undefined far below yield stress and at equilibrium, constant 0 replaced by default (refuted, findings)"
  },
  {
   "property": "C27",
   "status": "partial",
   "theorems": [
    "C27_entropy_maximal",
    "C27_newton_maximal",
    "C27_zero_centered_rejected",
    "C27_forced_refuted"
   ],
   "note": "maximality proved without forcing; refuted with forcing (finding)"
  },
  {
   "property": "C28",
   "status": "proved",
   "theorems": [
    "C28_batch_statistics",
    "C28_order_independent",
    "C28_layout_checks"
   ],
   "note": ""
  },
  {
   "property": "C29",
   "status": "proved",
   "theorems": [
    "C29_zero_fraction",
    "C29_mass",
    "C29_mass_maxwellian",
    "C29_force",
    "C29_force_per_particle",
    "C29_zero_rates",
    "C29_solid_option3",
    "C29_solid_option1",
    "C29_option2_transparent",
    "C29_option2_mrt_refuted",
    "C29_invalid_option",
    "C29_kernel_fluid",
    "C29_kernel_solid",
    "C29_kernel_single",
    "C29_stale_force_refuted",
    "C29_inplace_refuted"
   ],
   "note": "Zero fraction, mass, force balance (total and per particle), solid limit for options 1 and 3, transparency of option 2 for SRT, conditional kernels. Refuted and stated as such: option 2 with several relaxation rates, force field of particles that left the cell, in-place streaming with several particles."
  },
  {
   "property": "C30",
   "status": "proved",
   "theorems": [
    "C30_accepted",
    "C30_rates",
    "C30_resolution",
    "C30_kernel_type",
    "C30_force_model",
    "C30_idempotent",
    "C30_idempotent_spaces_refuted",
    "C30_idempotent_psm_refuted",
    "C30_force_model_stable",
    "C30_psm_default_force_refuted",
    "C30_replace",
    "C30_replace_rates_refuted",
    "C30_replace_method_refuted",
    "C30_replace_zero_centered_refuted",
    "C30_replace_force_refuted",
    "C30_replace_pattern_refuted",
    "C30_replace_inputs_refuted",
    "C30_replace_fluctuating_refuted",
    "C30_both_rates_refuted",
    "C30_create_method",
    "C30_cumulant_conserved_refuted",
    "C30_fourth_order_guard_refuted",
    "C30_access",
    "C30_periodicity_refuted"
   ],
   "note": "Acceptance characterised exactly, resolution table, force model, idempotence and replace for independent fields. Refuted and stated as such: idempotence with PSM and for entropic/fluctuating central moments or cumulants; replace for relaxation_rates, method, zero_centered, force, streaming_pattern after old kernel names, inputs, fluctuating; PSM default force; default cumulants ignore conserved_moments; fourth-order guard; periodicity with patterns other than pull."
  },
  {
   "property": "C31",
   "status": "proved",
   "theorems": [
    "C31_single_rate",
    "C31_rate_per_moment",
    "C31_rate_per_group",
    "C31_documented_number",
    "C31_shear_and_bulk_refuted",
    "C31_unbound_refuted",
    "C31_callable",
    "C31_modifier",
    "C31_viscosity_roundtrip",
    "C31_ambiguous_viscosity"
   ],
   "note": "For all moments, groupings and rate lists. Findings: shear and bulk rates alone are rejected when there are no higher modes (D3Q7), UnboundLocalError without conserved moments and shear modes."
  },
  {
   "property": "C32",
   "status": "proved",
   "theorems": [
    "C32_moments_of_order",
    "C32_moments_up_to_order",
    "C32_component_order",
    "C32_contained_moments",
    "C32_permutations",
    "C32_multiplicity",
    "C32_extend_with_permutations",
    "C32_pick_representatives_partial",
    "C32_pick_representatives_refuted",
    "C32_index_conversions",
    "C32_exponent_conversions",
    "C32_parity",
    "C32_non_aliased",
    "C32_groups_of_same_order"
   ],
   "note": "pick_representative_moments only for permutation-closed sets (refuted otherwise, finding)"
  },
  {
   "property": "C33",
   "status": "proved",
   "theorems": [
    "C33_orthogonal",
    "C33_rejects_dependent",
    "C33_rejects_dependent_unweighted",
    "C33_invalid_arguments",
    "C33_direction_order",
    "C33_dependent_last_refuted"
   ],
   "note": "For all moment lists, stencils and weights. Finding: a dependent last moment is not rejected (C33_dependent_last_refuted), so the rejection holds exactly for the moments before the last."
  },
  {
   "property": "C34",
   "status": "proved",
   "theorems": [
    "C34_substitution_transparent",
    "C34_name_clash_refuted",
    "C34_force_symbols",
    "C34_force_clash_refuted"
   ],
   "note": "Holds when no user symbol is named rr_<i>; refuted otherwise. Also the analogous statement for force symbols."
  },
  {
   "property": "C35",
   "status": "proved",
   "theorems": [
    "C35_cells",
    "C35_cell_idx",
    "C35_index",
    "C35_pull_unique",
    "C35_accepts",
    "C35_errors",
    "C35_rest_first",
    "C35_injective",
    "C35_streaming",
    "C35_rearranges",
    "C35_mass",
    "C35_default_layout_refuted",
    "C35_one_sided_wall_refuted",
    "C35_periodic_wall_refuted",
    "C35_bulk_missing_refuted",
    "C35_collide_only_refuted"
   ],
   "note": "For every flag field, symmetric velocity set with components -1..1 and rest first, and ghost layers around the fluid. Acceptance and errors characterised; injectivity and mass need walls that close a periodic border on both sides or not at all (refuted otherwise). Refuted and stated as such: default AoS list layout, wall as periodic image, bulk lookup of missing cells, collide_only kernel."
  },
  {
   "property": "C36",
   "status": "proved",
   "theorems": [
    "C36_run_is_single_steps",
    "C36_time_step",
    "C36_result",
    "C36_result_gpu",
    "C36_counter",
    "C36_compose",
    "C36_history",
    "C36_velocity_input_refuted"
   ],
   "note": "For arbitrary kernels, boundary handling and synchronisation, both time step orders, CPU and GPU. Composition needs kernels that do not read the density and velocity arrays which run recomputes; refuted otherwise. TimeLoop.run of pystencils is modelled, not proved."
  },
  {
   "property": "C37",
   "status": "proved",
   "theorems": [
    "C37_split",
    "C37_split_succeeds",
    "C37_cse",
    "C37_cse_succeeds",
    "C37_cse_no_rates",
    "C37_cse_outputs_refuted",
    "C37_factor_relaxation_rates",
    "C37_factor_density",
    "C37_replace_density_and_velocity",
    "C37_replace_common_term",
    "C37_insert_subexpressions",
    "C37_pure_products_only",
    "C37_substitute_moments",
    "C37_strategies",
    "C37_errors"
   ],
   "note": "for every collision rule and every computer-algebra backend that satisfies the stated contract: splitting by symmetry, common subexpressions in opposing directions, all passes on main assignments and the strategies for each method kind keep the main symbols and the computed values; refuted: main assignments beyond the stencil size (output equations) are dropped by the opposing-direction pass"
  },
  {
   "property": "C38",
   "status": "proved",
   "theorems": [
    "C38_lbm_kernel",
    "C38_lbm_outputs",
    "C38_stream_only",
    "C38_streaming",
    "C38_stream_only_given",
    "C38_stream_with_output",
    "C38_copy",
    "C38_destination_required",
    "C38_pdf_array",
    "C38_same_field_refuted"
   ],
   "note": "Kernels are modelled as assignment lists over symbols and field accesses, run cell by cell. For all expressions, memories, cell orders, supported patterns and stencils: the main kernel is the update of the streaming model, stream-only and stream-with-output are that update without collision, copy preserves what the getter reads; outputs and untouched fields are stated. The fresh symbols of pystencils.add_subexpressions_for_field_reads are modelled. Refuted: a two-field accessor with the source as destination is accepted."
  },
  {
   "property": "C39",
   "status": "proved",
   "theorems": [
    "C39_bulk",
    "C39_shear",
    "C39_bulk_cross_term_refuted",
    "C39_order_refuted",
    "C39_cascaded_basis",
    "C39_cascaded_only",
    "C39_default_basis",
    "C39_default_by_size_refuted",
    "C39_literature_orthogonal",
    "C39_orthogonal_default"
   ],
   "note": "For every order of the directions of the five standard stencils; classification for all polynomials. Findings: bulk accepts cross terms, order is that of the leading monomial, default sets are chosen by stencil size only."
  },
  {
   "property": "C40",
   "status": "proved",
   "theorems": [
    "C40_contact_angle",
    "C40_contact_neutral",
    "C40_contact_errors",
    "C40_contact_range_refuted",
    "C40_relaxation_rates",
    "C40_mobility_rate",
    "C40_interface_coefficients",
    "C40_parameter_map",
    "C40_rti",
    "C40_rti_atwood_refuted",
    "C40_rti_errors",
    "C40_rising_bubble",
    "C40_taylor_bubble",
    "C40_taylor_succeeds",
    "C40_taylor_density_refuted",
    "C40_droplet_migration",
    "C40_droplet_width_refuted",
    "C40_droplet_succeeds",
    "C40_pure_phases",
    "C40_correction_functions",
    "C40_diagonal",
    "C40_two_phase_energy",
    "C40_profile_stationary",
    "C40_profile_connects",
    "C40_surface_tension",
    "C40_penalty_minimum",
    "C40_penalty_profile",
    "C40_tension_from_kappas",
    "C40_transformation",
    "C40_neumann_angles",
    "C40_circle_intersections",
    "C40_circles_defined",
    "C40_circles_level_refuted"
   ],
   "note": "Contact angle (exact solution, uniqueness, copy branch, errors), the four parameter calculations with their dimensionless numbers, derived relaxation rates and free energy coefficients, n-phase, penalty and three-phase free energies (pure phases, two-phase reduction, stationarity of the analytic profile, surface tension as integral), Neumann angles, circle intersections. Refuted: Atwood number not enforced, Taylor bubble light density only for density_heavy=1, droplet migration drops interface_width and reference_surface_tension, wall value outside [0,1] for thin interfaces, circle intersections nan for level midpoints."
  },
  {
   "property": "C41",
   "status": "proved",
   "theorems": [
    "C41_partition",
    "C41_pairs",
    "C41_other_fields",
    "C41_precomputed",
    "C41_single",
    "C41_single_other_fields_refuted",
    "C41_order_refuted"
   ],
   "note": "All symmetric stencils and all collision rules whose first Q main assignments store the populations in stencil order. The default lists every population store exactly once, the rest population and other fields in the first group, and one group for each opposite pair. Refuted: with opposing_directions=False a store to another field is in two groups; main assignments in another order lose a population. What pystencils generates from the groups is not modelled."
  },
  {
   "property": "C42",
   "status": "proved",
   "theorems": [
    "C42_mass",
    "C42_momentum",
    "C42_outputs",
    "C42_moments",
    "C42_rejected",
    "C42_accepted",
    "C42_fluctuation_dissipation",
    "C42_default_bases",
    "C42_literature_bases",
    "C42_rotated_basis_refuted",
    "C42_amplitudes_refuted"
   ],
   "note": "fluctuatinglb.py on values: mass and momentum of the populations unchanged for all random sequences, temperatures and rates whenever 1, x, y(, z) are among the moments (shown for all default and literature bases of create_mrt_orthogonal), output assignments unchanged, each other moment changes by its own draw times sqrt(mu N (1-(1-s)^2)), fluctuation-dissipation balance for any expectation functional with the first two moments of independent uniform numbers (including weighted orthogonality), exact acceptance conditions. Refuted: a weighted orthogonal basis with x+y, x-y is accepted and its momentum fluctuates; amplitudes alone are always rejected although the message offers them."
  },
  {
   "property": "C43",
   "status": "proved",
   "theorems": [
    "C43_symbols_distinct",
    "C43_symbols_refuted"
   ],
   "note": "collides for exponents >= 10 (C43_symbols_refuted)"
  },
  {
   "property": "C44",
   "status": "proved",
   "theorems": [
    "C44_gradients",
    "C44_vanishes",
    "C44_axes",
    "C44_equal_rates",
    "C44_rates",
    "C44_impulse",
    "C44_effect",
    "C44_rejected",
    "C44_orderings_refuted"
   ],
   "note": "All populations of positive density, rates, accepted force models and transforms: exact impulse, exact change of the cumulants of the new populations, gradients characterised as the unique solution of the Chapman-Enskog relations, vanishing terms, symmetry under all exchanges of axes, error cases. Refuted: D3Q27 with a direction ordering other than the default is rejected although the method is the same."
  },
  {
   "property": "C45",
   "status": "partial",
   "theorems": [
    "C45_impulse",
    "C45_impulse_with_galilean",
    "C45_effect",
    "C45_vanishes",
    "C45_axes_partial",
    "C45_changes",
    "C45_axes_refuted",
    "C45_limiter",
    "C45_rates_partial",
    "C45_rates_refuted",
    "C45_limiter_axes_refuted",
    "C45_rejected",
    "C45_stencil_check_refuted"
   ],
   "note": "Proved: exact impulse (also together with the Galilean correction), effect on the cumulants, vanishing in equilibrium, limiter bounds, axis symmetry of the trace and mixed terms and under the exchange of x and z, admissible rates for bulk rate 1 and shear rate between 7/4 and 2. The full statement is false of the code and refuted: the diagonal terms of yyzz and xxyy use the gradients of the wrong axes, the limiter only looks at the x axis, rates are undefined or negative for other shear rates, equal shear and bulk rates divide by zero, create_lb_method accepts D3Q19."
  },
  {
   "property": "C46",
   "status": "partial",
   "theorems": [
    "C46_derivative",
    "C46_friction_velocity",
    "C46_spalding",
    "C46_log_law",
    "C46_log_start_below",
    "C46_log_start_refuted",
    "C46_log_default",
    "C46_musker_partial",
    "C46_most",
    "C46_most_undefined",
    "C46_nonnegative",
    "C46_zero_velocity_refuted"
   ],
   "note": "Existence and uniqueness of the friction velocity for all three profiles, derivatives, MOST, non-negativity, convergence for Spalding from every positive start and for the logarithmic law exactly for starts below a proved bound (beyond it the stress is undefined, refuted). Missing: Musker convergence is shown for starts between y+ = 1/5 and the friction velocity only. Refuted: velocity zero."
  },
  {
   "property": "C47",
   "status": "proved",
   "theorems": [
    "C47_momentum",
    "C47_defined",
    "C47_stress",
    "C47_friction_opposes",
    "C47_rest_refuted",
    "C47_distance_refuted",
    "C47_create"
   ],
   "note": "Both 3D stencils, all orderings, six normals, both weightings, symbolic stress: reads of free slip, no mass exchange, normal momentum, tangential momentum; direction and magnitude of the stress; constructor characterised. Refuted: fluid at rest, wall distance for dy other than 1."
  },
  {
   "property": "C48",
   "status": "partial",
   "theorems": [
    "C48_gradient",
    "C48_gradient_exact",
    "C48_laplacian_exact",
    "C48_laplacian",
    "C48_laplacian_isotropic_refuted",
    "C48_affine",
    "C48_unsupported",
    "C48_heat_equation",
    "C48_midpoint",
    "C48_rk4_refuted",
    "C48_advection",
    "C48_steady",
    "C48_fields"
   ],
   "note": "All supported stencils and orderings: gradient up to degree four and Laplacian up to degree five with their error terms, invariance under constants and scaling for all fields, rejection of other stencils, midpoint rule, heat equation, steady states. Refuted: three auxiliary fields are not the classical Runge-Kutta rule (exact formula proved), two fields, isotropy for D3Q15."
  },
  {
   "property": "C49",
   "status": "partial",
   "theorems": [
    "C49_bulk",
    "C49_composition",
    "C49_exchange",
    "C49_pressure",
    "C49_viscous_refuted",
    "C49_thermocapillary",
    "C49_interface",
    "C49_interface_profile",
    "C49_phase_values_refuted",
    "C49_sub_iterations",
    "C49_no_sub_iterations",
    "C49_sub_iterations_refuted"
   ],
   "note": "Bulk, exchange of phases, pressure force, thermocapillary force, direction of the interface force, equilibrium profile, sub-iterations. Refuted: viscous force is tau times the right one, phase values that do not differ by one, sub-iterations for compressible zero-centred methods. The continuum force of a curved interface is not treated."
  },
  {
   "property": "C50",
   "status": "partial",
   "theorems": [
    "C50_expand",
    "C50_bulk_potential",
    "C50_potential",
    "C50_gamma",
    "C50_force",
    "C50_equilibrium",
    "C50_symmetric",
    "C50_forms",
    "C50_bulk_pressure",
    "C50_accepted",
    "C50_single_term_refuted",
    "C50_rejected",
    "C50_sqrt_form",
    "C50_sqrt_form_refuted",
    "C50_slots",
    "C50_slots_used"
   ],
   "note": "All polynomial energies with constant gradient coefficients, all smooth fields, every dimension: Euler-Lagrange, Gibbs-Duhem, symmetry, both forms, bulk pressure, accepted energies, storage slots. Refuted: single-term energies, square-root form where the bulk pressure exceeds the ideal gas pressure."
  },
  {
   "property": "C51",
   "status": "partial",
   "theorems": [
    "C51_moments",
    "C51_rejected",
    "C51_d3q7_refuted",
    "C51_collision",
    "C51_total",
    "C51_diffusion",
    "C51_diffusion_exact",
    "C51_advection",
    "C51_first_derivative",
    "C51_second_derivative",
    "C51_second_derivative_refuted",
    "C51_laplacian",
    "C51_isotropy_refuted",
    "C51_fd_rejected"
   ],
   "note": "All weighted stencils and orderings: moments, conservation, mobility as a limit for all initial populations and exactly for one family, advection and flux of affine fields, first derivative, Laplacian, rejections. Refuted: single second derivatives, isotropy of the Laplacian error, second moments of D3Q7."
  },
  {
   "property": "C52",
   "status": "partial",
   "theorems": [
    "C52_prescribed_cumulant",
    "C52_prescribed_cumulants_relax",
    "C52_cumulant_density_refuted",
    "C52_velocity_setter_cumulant",
    "C52_velocity_setter_cumulant_forced",
    "C52_velocity_setter_forced_raw",
    "C52_velocity_setter_forced_central",
    "C52_forced_setter_settles_raw",
    "C52_forced_setter_settles_central",
    "C52_forced_setter_settles_cumulant",
    "C52_forced_setter_refuted",
    "C52_forced_setter_refuted_cumulant",
    "C52_prescribed_raw",
    "C52_prescribed_central",
    "C52_density_needs_velocity",
    "C52_no_input",
    "C52_given_components",
    "C52_velocity_setter_raw",
    "C52_velocity_setter_central",
    "C52_setter_rejected",
    "C52_setter_decay",
    "C52_initialisation",
    "C52_initialisation_rejected",
    "C52_rate_of_first_call",
    "C52_rate_refuted",
    "C52_budget_refuted",
    "C52_residuum",
    "C52_residuum_nan",
    "C52_residuum_refuted"
   ],
   "note": "Raw and central moment and cumulant methods, without and with forces: collision with given density/velocity, velocity setter, decay in homogeneous flow; complete account of the driver over abstract sweeps. Refuted: average residuum with several blocks per process, rate of a second call, the whole budget being used, linear approach of a given density by cumulant methods, and prescribed velocities being reached under a force (the distance to a shifted velocity decays instead)."
  },
  {
   "property": "C53",
   "status": "partial",
   "theorems": [
    "C53_van_der_waals",
    "C53_van_der_waals_rejected",
    "C53_ideal_gas",
    "C53_van_der_waals_critical",
    "C53_van_der_waals_critical_point",
    "C53_carnahan_starling_critical_partial",
    "C53_carnahan_starling_critical_refuted",
    "C53_free_energy",
    "C53_free_energy_unique",
    "C53_integrals",
    "C53_integration_constant",
    "C53_equal_densities",
    "C53_few_lambdas",
    "C53_coexistence",
    "C53_double_well",
    "C53_bulk_energy",
    "C53_maxwell_sound",
    "C53_maxwell_ends",
    "C53_maxwell_zero_tolerance",
    "C53_maxwell_near_critical_refuted"
   ],
   "note": "Values, critical temperatures, free energies, double well and bisection over an exact solver for the volumes at a pressure level. Refuted: the rounded Carnahan-Starling constant is exact; the Maxwell construction works at all subcritical temperatures. The symbolic solvers and integration of sympy, caching and the removal of small floats are not modelled."
  },
  {
   "property": "C54",
   "status": "proved",
   "theorems": [
    "C54_diffusion",
    "C54_rejected",
    "C54_dissipation",
    "C54_equal_tensions",
    "C54_absent_phase",
    "C54_psi_rejected",
    "C54_psi",
    "C54_two_phase_energy",
    "C54_two_phase_dynamics",
    "C54_interface_dynamics",
    "C54_equal_tension_energy",
    "C54_h",
    "C54_ab",
    "C54_surface_tension",
    "C54_profile"
   ],
   "note": "Real arithmetic; the linear solver satisfies solver_ok; the coefficients of correction and stabilisation are arbitrary, so their own consistency for three and four present phases is not covered."
  },
  {
   "property": "C55",
   "status": "partial",
   "theorems": [
    "C55_simplex",
    "C55_identity",
    "C55_nearest_partial",
    "C55_first_cell_partial",
    "C55_empty_cell",
    "C55_later_cells_refuted"
   ],
   "note": "Real arithmetic, mask as a set (at most 31 phases). Refuted: later cells are projected to the nearest point (the mask is not cleared between cells)."
  },
  {
   "property": "C56",
   "status": "partial",
   "theorems": [
    "C56_equivalence",
    "C56_simulation",
    "C56_border_cells",
    "C56_faces",
    "C56_rejected",
    "C56_two_field_patterns_refuted",
    "C56_free_slip_refuted"
   ],
   "note": "Boundary rules that read populations of their own cell, nearest neighbour stencils, all faces listed. Refuted: the default two-field patterns on the single field, and FreeSlip."
  },
  {
   "property": "C57",
   "status": "proved",
   "theorems": [
    "C57_channel_flow",
    "C57_collision",
    "C57_collision_defined",
    "C57_equilibria",
    "C57_no_slip_wall",
    "C57_moving_wall",
    "C57_torus_channel",
    "C57_slip",
    "C57_couette",
    "C57_magic",
    "C57_srt_exact_refuted",
    "C57_poiseuille"
   ],
   "note": "Row-wise initial states with uniform pressure; moment-based methods in raw moment space, all force models but CentralMoment; the exponents of order up to three across the channel belong to the moment set. Refuted: SRT reproduces poiseuille_flow."
  },
  {
   "property": "C58",
   "status": "proved",
   "theorems": [
    "C58_force_divergence",
    "C58_force_cubic_refuted",
    "C58_momentum",
    "C58_force_defined",
    "C58_reaction",
    "C58_reaction_refuted",
    "C58_extrapolation",
    "C58_extrapolation_beyond_refuted",
    "C58_source",
    "C58_conformation",
    "C58_simple_shear",
    "C58_update"
   ],
   "note": "Staggered fields, finite difference stencils of the velocity gradient and the finite volume fluxes are those of pystencils: passed in or modelled as neighbour accesses. Refuted: action and reaction with diagonal faces."
  },
  {
   "property": "C59",
   "status": "proved",
   "theorems": [
    "C59_collision",
    "C59_single_rate",
    "C59_two_rates",
    "C59_orthogonal_modes",
    "C59_passive_walls",
    "C59_stable",
    "C59_rate_bounds_needed",
    "C59_second_order_refuted"
   ],
   "note": "Moment-based methods in raw moment space without force, equilibrium of order one; D3Q7 has rest weight 0 and is excluded. For compressible equilibria the density has to stay nonzero (hypothesis). Refuted: energy decay for equilibria of second order."
  },
  {
   "property": "C60",
   "status": "proved",
   "theorems": [
    "C60_raw_collision",
    "C60_central_collision",
    "C60_equilibria",
    "C60_rates",
    "C60_classes",
    "C60_walls",
    "C60_grids",
    "C60_translations",
    "C60_collisions",
    "C60_simulation",
    "C60_symmetric_flow",
    "C60_rates_needed",
    "C60_cumulant_collision",
    "C60_cumulant_equilibrium",
    "C60_cumulant_collisions"
   ],
   "note": "Moment-based methods in raw and central moment space with all force models but CentralMoment, and cumulant methods with all their force models. For compressible methods the density of the arriving populations has to be nonzero, for cumulant methods positive (hypothesis)."
  },
  {
   "property": "C61",
   "status": "proved",
   "theorems": [
    "C61_shear_wave",
    "C61_convergence",
    "C61_start",
    "C61_moment_methods"
   ],
   "note": "Moment-based methods in raw moment space without force; waves along an axis."
  },
  {
   "property": "C62",
   "status": "partial",
   "theorems": [
    "C62_closed_box",
    "C62_cavity_walls",
    "C62_cavity_closed",
    "C62_cavity_mass",
    "C62_cavity_mass_compressible",
    "C62_cavity_mass_compressible_refuted",
    "C62_channel",
    "C62_channel_errors",
    "C62_pipe_wall",
    "C62_pipe_wall_refuted",
    "C62_pipe_velocity",
    "C62_pipe_poiseuille",
    "C62_pipe_velocity_refuted",
    "C62_narrow_inflow_refuted",
    "C62_sphere",
    "C62_sphere_3d_refuted",
    "C62_neumann_angles",
    "C62_shear_layers"
   ],
   "note": "Refuted parts: total mass with compressible methods, symmetry and sign of the profiles for odd widths, centring of a narrow plane inflow, spheres in three dimensions."
  },
  {
   "property": "C63",
   "status": "partial",
   "theorems": [
    "C63_collision",
    "C63_slow_flows",
    "C63_rates_sharp",
    "C63_walls",
    "C63_positive",
    "C63_comparison",
    "C63_range",
    "C63_contraction",
    "C63_dirichlet_refuted",
    "C63_incompressible_refuted"
   ],
   "note": "One relaxation rate and moments in raw space. Refuted parts: walls of fixed concentration and methods that are not compressible."
  },
  {
   "property": "C64",
   "status": "partial",
   "theorems": [
    "C64_forced_raw",
    "C64_forced_central",
    "C64_zero_force",
    "C64_zero_force_central",
    "C64_no_input",
    "C64_phase_step",
    "C64_phase_step_central",
    "C64_flux",
    "C64_total_phase",
    "C64_uniform",
    "C64_uniform_simulation",
    "C64_initial",
    "C64_initial_velocity_refuted",
    "C64_hydro_step",
    "C64_hydro_step_central",
    "C64_hydro_initial"
   ],
   "note": "Raw and central moment methods (cumulant methods not). Refuted parts: velocity of the initial phase-field populations for compressible methods; for force models without half-force velocity the mobility is larger by 1/6."
  },
  {
   "property": "C65",
   "status": "proved",
   "theorems": [
    "C65_accepted",
    "C65_simulation"
   ],
   "note": "Layout fzyx (the default layout is refuted in C35). No-slip walls and periodic directions."
  },
  {
   "property": "C66",
   "status": "proved",
   "theorems": [
    "C66_hydro",
    "C66_init",
    "C66_missing_parameter",
    "C66_direct_runs",
    "C66_direct_phase",
    "C66_direct_fluid",
    "C66_direct_sum",
    "C66_direct_uniform",
    "C66_tensor_runs",
    "C66_tensor_phase",
    "C66_tensor_fluid",
    "C66_nestler_step",
    "C66_nestler_run",
    "C66_nestler_phase",
    "C66_direct_exists",
    "C66_tensor_exists",
    "C66_interfacial"
   ],
   "note": "Periodic domains, Lattice-Boltzmann option of the pressure tensor variant. The chemical potential kernel and the projection are arbitrary functions; C66_hydro shows that the moment-based methods meet the condition on the hydrodynamic method."
  },
  {
   "property": "C67",
   "status": "proved",
   "theorems": [
    "C67_sound",
    "C67_complete",
    "C67_rejected",
    "C67_ansatz",
    "C67_maxwellian",
    "C67_constraints",
    "C67_values",
    "C67_navier_stokes",
    "C67_exists",
    "C67_third_order"
   ],
   "note": "From two dimensions on; in one dimension the coefficients are not unique. Values are compared as real numbers, not as sympy expressions; the conversion of the moment values to incompressible methods is not modelled."
  },
  {
   "property": "C68",
   "status": "partial",
   "theorems": [
    "C68_derivatives",
    "C68_orders",
    "C68_recombination",
    "C68_library_equilibria",
    "C68_equilibrium_values",
    "C68_compressible",
    "C68_stress_of_populations",
    "C68_first_order_populations",
    "C68_exact_stress",
    "C68_newtonian",
    "C68_shear_viscosity",
    "C68_agrees_with_relaxation_rates",
    "C68_rate_from_viscosity",
    "C68_bulk_candidates",
    "C68_bulk_viscosity_partial",
    "C68_bulk_viscosity_refuted",
    "C68_negative_bulk_viscosity_refuted",
    "C68_newtonian_rates",
    "C68_navier_stokes_check_partial",
    "C68_navier_stokes_check",
    "C68_navier_stokes_check_refuted"
   ],
   "note": "All parts proved except two. The reported bulk viscosity is refuted for different shear and bulk rates (C68_bulk_viscosity_refuted) and proved for equal rates (C68_bulk_viscosity_partial). The Navier-Stokes check accepts all methods with a Newtonian stress (C68_navier_stokes_check_partial) but also others (C68_navier_stokes_check, C68_navier_stokes_check_refuted). Methods with more than three rates for the second moments are not covered."
  },
  {
   "property": "C69",
   "status": "partial",
   "theorems": [
    "C69_derivatives",
    "C69_orders",
    "C69_unique_orders",
    "C69_orders_of_equations",
    "C69_leading_order",
    "C69_steady_states",
    "C69_flows",
    "C69_flows_without_force",
    "C69_compressible_force_refuted",
    "C69_single_rate",
    "C69_viscosities"
   ],
   "note": "All parts proved except the momentum equation of compressible methods with a force, which is refuted (C69_compressible_force_refuted). Statements about flows are for polynomial fields, where the expansion is exact; for other fields the statement is the one about powers of the expansion parameter (C69_orders, C69_unique_orders)."
  },
  {
   "property": "C70",
   "status": "partial",
   "theorems": [
    "C70_defined",
    "C70_arrays",
    "C70_untransposed",
    "C70_untransposed_refuted",
    "C70_temperature",
    "C70_flow",
    "C70_stress",
    "C70_light_viscosity_refuted",
    "C70_last_column"
   ],
   "note": "All parts proved, except that the coordinates match the arrays only when transposed (C70_untransposed_refuted) and the stress balance holds for the mean viscosity, not for the viscosity of the light phase (C70_light_viscosity_refuted)."
  },
  {
   "property": "C71",
   "status": "partial",
   "theorems": [
    "C71_assignments",
    "C71_equilibrium",
    "C71_value",
    "C71_strain_rate",
    "C71_at_rest",
    "C71_default_refuted",
    "C71_bulk_rate_refuted",
    "C71_free_symbols_refuted"
   ],
   "note": "Proved for the populations before the collision. The default, which reads those after the collision, is off by the factor 1 - omega (C71_default_refuted), the trace is wrong with a separate bulk rate (C71_bulk_rate_refuted), and the result depends on free symbols (C71_free_symbols_refuted)."
  },
  {
   "property": "C72",
   "status": "partial",
   "theorems": [
    "C72_general_position",
    "C72_sound",
    "C72_rising",
    "C72_falling_refuted",
    "C72_axis_parallel_refuted",
    "C72_axis_parallel_raises_refuted",
    "C72_closest",
    "C72_centers",
    "C72_triple_points",
    "C72_no_intersections_refuted",
    "C72_far_apart",
    "C72_angle",
    "C72_angle_range",
    "C72_angle_sum",
    "C72_angle_sum_refuted"
   ],
   "note": "Proved for lines in general position, closest points, centers and angles. Refuted: falling segments that end on the other line, segments parallel to an axis, the empty result, and the sum of the angles if all branches lie in one half plane (the _refuted theorems)."
  },
  {
   "property": "C73",
   "status": "partial",
   "theorems": [
    "C73_fits",
    "C73_square_and_cube",
    "C73_in_place",
    "C73_monotone",
    "C73_units",
    "C73_other_units",
    "C73_overview",
    "C73_printed_refuted",
    "C73_ghost_layers_refuted"
   ],
   "note": "Proved: exact bounds, monotonicity, texts with units, the overview. Refuted: the printed values (rounded to the nearest tenth) and domains with ghost layers."
  },
  {
   "property": "C74",
   "status": "partial",
   "theorems": [
    "C74_centers",
    "C74_linear",
    "C74_bounds",
    "C74_between_neighbours",
    "C74_border_refuted",
    "C74_corner_refuted",
    "C74_vorticity_linear",
    "C74_rigid_rotation",
    "C74_vorticity_inner",
    "C74_channel",
    "C74_channel_walls_refuted",
    "C74_periodic_refuted",
    "C74_errors"
   ],
   "note": "Proved: values at centers, linear fields, bounds, vorticity of linear fields and inner cells, errors. Refuted: positions in the outer halves of the border cells, vorticity of quadratic profiles in the border cells and of periodic fields."
  },
  {
   "property": "C75",
   "status": "partial",
   "theorems": [
    "C75_triple_points",
    "C75_angles",
    "C75_sum",
    "C75_equilibrium",
    "C75_order_refuted",
    "C75_bulging_refuted",
    "C75_range",
    "C75_no_lens",
    "C75_rotated"
   ],
   "note": "Proved: triple points, angles of lenses below 180 degrees, sum, agreement with the tensions, range, errors. Refuted: the order of the enclosing phases and drops with more than 180 degrees at the rim. The circle fit itself is not modelled."
  },
  {
   "property": "C76",
   "status": "partial",
   "theorems": [
    "C76_sharp_pair",
    "C76_last_phase",
    "C76_default_positions",
    "C76_sharp_count",
    "C76_half_refuted",
    "C76_tanh_interfaces",
    "C76_tanh_range",
    "C76_tanh_symmetric",
    "C76_tanh_tail",
    "C76_tanh_order_refuted",
    "C76_second_position_refuted"
   ],
   "note": "Proved: complementary sharp phases, cell counts, default positions, smooth profile (range, symmetry, tails). Refuted: one half per phase, the default second position, and positions in the wrong order."
  },
  {
   "property": "C77",
   "status": "partial",
   "theorems": [
    "C77_replaced",
    "C77_number",
    "C77_missing",
    "C77_value",
    "C77_local_rate",
    "C77_expression",
    "C77_equal_number_refuted",
    "C77_sympy_number_refuted",
    "C77_shared_rate_refuted",
    "C77_separate_rate"
   ],
   "note": "Proved: exchange of symbols, numbers and expressions, errors, bounds of the local rate. Refuted: numbers that appear in an earlier assignment, sympy numbers, other rates with the same number."
  },
  {
   "property": "C78",
   "status": "partial",
   "theorems": [
    "C78_blocks",
    "C78_extruded",
    "C78_exact",
    "C78_stretched",
    "C78_aspect_ratio",
    "C78_outside",
    "C78_black_refuted",
    "C78_plane_order_refuted",
    "C78_plane_shape_refuted"
   ],
   "note": "Proved: exact copy, stretching, aspect ratio, region, blocks, extrusion. Refuted: only black pixels are set, and planes with axes in decreasing order. Reading the image file is not modelled."
  },
  {
   "property": "C79",
   "status": "partial",
   "theorems": [
    "C79_pure",
    "C79_lens",
    "C79_two_drops",
    "C79_position",
    "C79_apart",
    "C79_equal_drops_refuted",
    "C79_middle_refuted"
   ],
   "note": "Proved: pure phases, arrangement, positions, distance of the drops. Refuted: equal drops, and a lens exactly in the middle of the interface."
  },
  {
   "property": "C80",
   "status": "partial",
   "theorems": [
    "C80_deviation",
    "C80_centre",
    "C80_zero",
    "C80_short_refuted",
    "C80_single_cell_refuted",
    "C80_round",
    "C80_rounds_refuted",
    "C80_negative_refuted"
   ],
   "note": "Proved: deviation, centre, zero for the profile, one round to a quarter of a cell. Refuted: domains below 40 cells, several rounds, negative velocities. The simulation between start and evaluation is not modelled."
  }
 ]
}