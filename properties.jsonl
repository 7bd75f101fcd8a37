{"id": "C01", "title": "Every streaming pattern computes the same simulation", "statement": "Initialising a PDF field through the pattern-aware setter, running any number of alternating even/odd update kernels with streaming pattern P (pull, push, aa, esotwist, esopull, esopush) and reading the populations back through the pattern-aware getter yields, cell by cell and direction by direction, exactly the reference lattice Boltzmann recursion post_{n+1}(x) = C_n(x, (post_n(x - c_j))_j); in particular the result does not depend on P.", "quantifier": "all stencils closed under negation (and all four stencils with a Lehmann ordering for esopull/esopush), all six patterns, all starting parities, all numbers of time steps, all initial populations, all space- and time-dependent local collision operators, the infinite lattice and every torus", "why_tests_cant": "A test fixes one stencil, one collision rule and a handful of steps; the slot bookkeeping of in-place patterns has to be right for every direction, parity and step count.", "anchors": ["src/lbmpy/fieldaccess.py: all accessor classes", "src/lbmpy/advanced_streaming/utility.py: get_accessor, Timestep.next", "src/lbmpy/updatekernels.py: create_lbm_kernel", "src/lbmpy/macroscopic_value_kernels.py: get_field_accesses"]}
{"id": "C02", "title": "In-place update kernels are free of data races", "statement": "Executing an in-place update kernel (aa, esotwist, esopull, esopush) cell by cell, in place, in any order of the cells gives the same memory as updating all cells simultaneously from the old memory; every slot a cell reads is written by that same cell and by no other.", "quantifier": "all processing orders (permutations) of all finite cell sets, all memories, both parities, all four in-place patterns, all collision operators", "why_tests_cant": "The number of schedules is factorial in the number of cells; a test run exercises one.", "anchors": ["src/lbmpy/fieldaccess.py: AA*/EsoTwist*/EsoPull*/EsoPush* accessors, is_inplace", "src/lbmpy/updatekernels.py: create_lbm_kernel"]}
{"id": "C03", "title": "Boundary conditions mean the same thing under every streaming pattern", "statement": "Running the boundary kernel between two time steps (link list of fluid-cell/direction pairs whose neighbour is not fluid) and then the update kernel gives, for every streaming pattern, the population arriving at a fluid cell from a non-fluid neighbour the value prescribed by the boundary rule evaluated on the post-collision populations of that fluid cell, leaves every other population untouched, and does not depend on the order in which links are processed.", "quantifier": "all geometries (arbitrary fluid sets), all link orders, all cell-local boundary rules (NoSlip, UBB, FixedDensity, DiffusionDirichlet, StreamInConstant ...), all patterns, parities and step counts", "why_tests_cant": "Geometries and link orders are unbounded; wrong slots would only be visible for particular wall orientations and parities.", "anchors": ["src/lbmpy/advanced_streaming/indexing.py: BetweenTimestepsIndexing", "src/lbmpy/boundaries/boundaryhandling.py: LatticeBoltzmannBoundaryHandling", "src/lbmpy/boundaries/boundaryconditions.py: NoSlip, UBB, FixedDensity, StreamInConstant"]}
{"id": "C04", "title": "Index translation arrays agree with the field accesses", "statement": "For boundary kernels with a run-time direction variable, looking the direction up in the generated index/offset translation arrays (including the inverse-direction variants and the omitted trivial arrays) addresses exactly the slot the accessor addresses for that direction.", "quantifier": "all patterns, parities, stencils closed under negation, all run-time directions, in/out and direct/inverse accesses", "why_tests_cant": "Tests check particular boundary kernels; the trivial-array elimination has to be right for all combinations.", "anchors": ["src/lbmpy/advanced_streaming/indexing.py: substitute_proxies, _collect_trivial_translations, create_code_node"]}
{"id": "C05", "title": "Periodic ghost-layer exchange implements a torus", "statement": "Calling the periodicity handling after each kernel makes the ghost-layered array behave like the periodic domain: for every interior cell and direction the slot read by the next kernel holds the post-collision population written by the periodic image of its upstream neighbour, for every streaming pattern; executing the slice copies in any order gives the same result.", "quantifier": "all domain sizes (including one-cell domains), dimensions 1 to 3, all subsets of periodic axes, all patterns and parities, all memories, all copy orders", "why_tests_cant": "Domain shapes, periodicity subsets and copy orders cannot be enumerated; corner and edge populations are the classical failure.", "anchors": ["src/lbmpy/advanced_streaming/communication.py: LBMPeriodicityHandling, get_communication_slices, _trim_slice_in_direction, _get_neighbour_transform"]}
{"id": "C06", "title": "Kernel-builtin periodicity equals periodic streaming", "statement": "The pull accessor with built-in periodicity reads, at every cell of the domain and for every direction, the slot of the periodic image of the upstream neighbour in the periodic axes and the plain neighbour in the others.", "quantifier": "all domain sizes, ghost layer counts, periodicity tuples, nearest-neighbour stencils and cells; rejection of longer stencils", "why_tests_cant": "Needs all domain sizes and border combinations.", "anchors": ["src/lbmpy/fieldaccess.py: PeriodicTwoFieldsAccessor"]}
{"id": "C07", "title": "Predefined stencils are well formed and orderings are interchangeable", "statement": "Every predefined stencil has pairwise different velocities of equal length, starts with the rest velocity, is closed under negation and under coordinate permutations and sign flips; any two orderings of the same stencil are permutations of each other; inverse_index is an involution that maps a direction to its opposite; index and inverse_index are total exactly on the stencil's directions.", "quantifier": "all predefined stencils and orderings; all user supplied tuple stencils accepted by the constructor for the index laws", "why_tests_cant": "A typo in one table entry only shows in configurations using it; tuple stencils are unbounded.", "anchors": ["src/lbmpy/stencils.py: LBStencil, _predefined_stencils"]}
{"id": "C08", "title": "Equal stencils have equal hashes", "statement": "Two stencils that compare equal have the same hash, and equality is an equivalence relation (so that stencils can be used as dictionary keys and in caches).", "quantifier": "all pairs of stencils a user can construct", "why_tests_cant": "Requires reasoning over all pairs of velocity lists.", "anchors": ["src/lbmpy/stencils.py: LBStencil.__eq__, __hash__"]}
{"id": "C09", "title": "Lattice weights are a correct quadrature", "statement": "For every supported stencil the weights are non-negative, sum to one and reproduce the Gaussian moments (isotropy) up to the order of the lattice; weights depend on the velocity only through its number of nonzero components.", "quantifier": "all predefined orderings of D2Q9, D3Q7, D3Q15, D3Q19, D3Q27 and all moment exponents up to the claimed order; sizes without weights are rejected", "why_tests_cant": "Covers all velocities and exponents, including which moments are not reproduced.", "anchors": ["src/lbmpy/maxwellian_equilibrium.py: get_weights"]}
{"id": "C10", "title": "Discrete equilibrium carries exactly the prescribed density, momentum and pressure", "statement": "The sum of the discrete Maxwellian equilibrium over the stencil is the density, its first moment the momentum and its second moment the Euler stress, for compressible and incompressible formulations, absolute and zero-centred storage, and every truncation order >= 2 (D3Q7, whose weights are only third-order isotropic: density for every order, momentum for orders <= 2).", "quantifier": "all densities, all velocities, all supported stencils (D3Q7 up to its order) and orders", "why_tests_cant": "Identity over the reals in all densities and velocities.", "anchors": ["src/lbmpy/maxwellian_equilibrium.py: discrete_equilibrium, discrete_maxwellian_equilibrium", "src/lbmpy/equilibrium/discrete_hydro_maxwellian.py"]}
{"id": "C11", "title": "Collision conserves mass and momentum", "statement": "Without forcing, the post-collision populations have the same mass and momentum as the pre-collision populations, for raw-moment, central-moment and cumulant collision, whatever the relaxation rates assigned to the non-conserved modes and whatever the rates assigned to the conserved ones.", "quantifier": "all populations with nonzero density (where needed), all relaxation rates, all invertible moment sets containing 1 and the velocities", "why_tests_cant": "Real-valued populations and arbitrary rate vectors.", "anchors": ["src/lbmpy/methods/momentbased/momentbasedmethod.py: _collision_rule_with_relaxation_matrix", "src/lbmpy/methods/momentbased/centralmomentbasedmethod.py", "src/lbmpy/methods/cumulantbased/cumulantbasedmethod.py"]}
{"id": "C12", "title": "Forcing adds exactly the prescribed impulse", "statement": "With a force model the collision leaves mass unchanged and changes momentum by exactly the force F per time step, in the combination of source term and macroscopic velocity shift that the model uses.", "quantifier": "all forces, populations, velocities and relaxation rates; force models Simple, Luo, Guo, He, Buick, EDM, Shan-Chen, central-moment forcing", "why_tests_cant": "Real-valued identity over all states and rates.", "anchors": ["src/lbmpy/forcemodels.py", "src/lbmpy/methods/momentbased/momentbasedmethod.py"]}
{"id": "C13", "title": "SRT, TRT and MRT agree when rates coincide", "statement": "An MRT method whose relaxation rates are all equal computes the SRT update for any invertible moment set; a TRT method is the MRT method with even and odd rates and equals the symmetric/antisymmetric population form; the choice of an invertible basis inside groups of equal rate does not matter.", "quantifier": "all populations, equilibria, rates and invertible moment matrices", "why_tests_cant": "Quantifies over all bases.", "anchors": ["src/lbmpy/methods/creationfunctions.py: create_srt, create_trt, create_mrt_orthogonal, create_mrt_raw"]}
{"id": "C14", "title": "Raw moment transforms invert each other", "statement": "Transforming populations to raw moments and back returns the populations; the fast (chimera / partial-sum) transform equals multiplication with the moment matrix.", "quantifier": "all populations, all full-rank moment sets of all supported stencils", "why_tests_cant": "Real-valued populations.", "anchors": ["src/lbmpy/moment_transforms/rawmomenttransforms.py", "src/lbmpy/moments.py: moment_matrix"]}
{"id": "C15", "title": "Central moments are raw moments in the moving frame", "statement": "The binomial/shift transform from raw to central moments computes sum_i f_i (c_i - u)^k, its inverse undoes it, shifting by u then v equals shifting by u+v, and central moments of a distribution moved by u are independent of u.", "quantifier": "all populations, velocities and exponents (unbounded order)", "why_tests_cant": "Unbounded exponents and real velocities.", "anchors": ["src/lbmpy/moment_transforms/centralmomenttransforms.py", "src/lbmpy/moments.py: set_up_shift_matrix"]}
{"id": "C16", "title": "Cumulants and moments determine each other", "statement": "Cumulants computed from moments and moments computed from cumulants are mutually inverse; cumulants of order >= 2 are invariant under shifts; the set-partition formula agrees with the generating-function formula.", "quantifier": "all moment sequences with nonzero mass, all exponents", "why_tests_cant": "Unbounded order; combinatorial identity over set partitions.", "anchors": ["src/lbmpy/cumulants.py", "src/lbmpy/moment_transforms/cumulanttransforms.py"]}
{"id": "C17", "title": "Macroscopic setter and getter round-trip", "statement": "Initialising populations to equilibrium with density rho and velocity u and reading density and velocity back returns rho and u, for compressible/incompressible, zero-centred or absolute storage and with a force model's half-force shift.", "quantifier": "all densities, velocities and forces, all storage/compressibility combinations", "why_tests_cant": "Real-valued inputs; eight configuration combinations.", "anchors": ["src/lbmpy/methods/conservedquantitycomputation.py: DensityVelocityComputation", "src/lbmpy/macroscopic_value_kernels.py"]}
{"id": "C18", "title": "Optimised density/velocity sums equal the plain moments", "statement": "The shared partial sums used to compute density and momentum from populations give sum_i f_i and sum_i c_i f_i exactly.", "quantifier": "all populations, all stencils with velocity components in {-1,0,1}", "why_tests_cant": "All populations and all stencils.", "anchors": ["src/lbmpy/methods/conservedquantitycomputation.py: get_equations_for_zeroth_and_first_order_moment"]}
{"id": "C19", "title": "Bounce-back conserves mass and turns momentum around", "statement": "In a closed domain with no-slip walls, streaming plus bounce-back conserves total mass exactly for arbitrary geometry, and the reported wall force equals the momentum lost by the fluid at the link.", "quantifier": "all finite fluid sets, all populations, all symmetric stencils", "why_tests_cant": "Arbitrary geometries.", "anchors": ["src/lbmpy/boundaries/boundaryconditions.py: NoSlip", "src/lbmpy/boundaries/boundaryhandling.py: force_on_boundary"]}
{"id": "C20", "title": "Interpolated bounce-back degenerates correctly", "statement": "The linear (Bouzidi) condition equals plain bounce-back at wall distance 1/2 and for the default (unset) distance, is continuous across the switch at 1/2, is exact for populations varying linearly and uses non-negative interpolation weights; the quadratic condition leaves equilibrium unchanged and equals its stated interpolation.", "quantifier": "all wall distances in (0,1], all populations and relaxation rates != 1", "why_tests_cant": "Continuous parameter.", "anchors": ["src/lbmpy/boundaries/boundaryconditions.py: NoSlipLinearBouzidi, QuadraticBounceBack"]}
{"id": "C21", "title": "Velocity bounce-back prescribes the wall velocity", "statement": "UBB with zero velocity is NoSlip; applied to an equilibrium of the wall velocity it returns the equilibrium population to the order of the scheme; over a closed wall with tangential motion it adds no mass.", "quantifier": "all velocities, densities, directions", "why_tests_cant": "Continuous parameters.", "anchors": ["src/lbmpy/boundaries/boundaryconditions.py: UBB"]}
{"id": "C22", "title": "Pressure, diffusion and outflow conditions return their prescribed values", "statement": "FixedDensity, DiffusionDirichlet, NeumannByCopy, StreamInConstant and the extrapolation outflows assign the documented population: equilibrium populations of the prescribed density/concentration are fixed points, and a steady uniform state passes the outflow unchanged.", "quantifier": "all densities, velocities and populations", "why_tests_cant": "Continuous parameters.", "anchors": ["src/lbmpy/boundaries/boundaryconditions.py: FixedDensity, DiffusionDirichlet, SimpleExtrapolationOutflow, ExtrapolationOutflow"]}
{"id": "C23", "title": "Free-slip reflects specularly", "statement": "The free-slip rule takes the population from the mirror direction at the tangential neighbour, which makes the wall-normal momentum flux vanish and leaves tangential momentum and mass unchanged; the mirrored direction table is an involution on the stencil.", "quantifier": "all wall normals along a coordinate axis, all directions, all populations", "why_tests_cant": "All directions and orientations.", "anchors": ["src/lbmpy/boundaries/boundaryconditions.py: FreeSlip", "src/lbmpy/custom_code_nodes.py: MirroredStencilDirections"]}
{"id": "C24", "title": "Relaxation rates and viscosities are inverse parametrisations", "statement": "relaxation_rate_from_lattice_viscosity and lattice_viscosity_from_relaxation_rate are mutually inverse and map positive viscosities onto rates in (0,2); the magic-number rate realises the magic number and the level scaling keeps physical viscosity.", "quantifier": "all positive viscosities, all rates in (0,2), all magic numbers and level scalings", "why_tests_cant": "Continuous parameters.", "anchors": ["src/lbmpy/relaxationrates.py"]}
{"id": "C25", "title": "Unit scalings preserve the Reynolds number", "statement": "Each scaling (fixed lattice velocity, diffusive, acoustic) returns lattice parameters whose Reynolds number equals the physical Reynolds number and whose relaxation rate corresponds to the scaled viscosity.", "quantifier": "all positive physical parameters and resolutions", "why_tests_cant": "Continuous parameters.", "anchors": ["src/lbmpy/parameterization.py: Scaling"]}
{"id": "C26", "title": "Subgrid and non-Newtonian models return admissible rates", "statement": "With the Smagorinsky or QR model the effective viscosity implied by the adapted relaxation rate equals molecular plus reported eddy viscosity, and the adapted rate never exceeds the molecular one; the Casson rate always stays within the configured bounds.", "quantifier": "all stresses, densities, model constants and rates in (0,2)", "why_tests_cant": "Continuous parameters; fixed-point equations.", "anchors": ["src/lbmpy/turbulence_models.py", "src/lbmpy/non_newtonian_models.py"]}
{"id": "C27", "title": "Entropic relaxation maximises the quadratic entropy", "statement": "The free relaxation rate computed by the closed-form entropy condition is the unique maximiser of the discrete approximated entropy among all choices of that rate.", "quantifier": "all populations with positive equilibrium, all shear rates, all splittings with mass-free high-order part", "why_tests_cant": "Optimality over a continuum.", "anchors": ["src/lbmpy/methods/momentbased/entropic.py: add_entropy_condition, _get_entropy_maximizing_omega"]}
{"id": "C28", "title": "Running statistics equal batch statistics", "statement": "After feeding any sequence of velocity samples to the Welford update, the mean, the sum of squares and the sum of cubes fields equal the batch mean, sum_k (x_k-m)(y_k-m') and sum_k of triple products, independent of sample order.", "quantifier": "all sample sequences of any length and dimension", "why_tests_cant": "Unbounded histories.", "anchors": ["src/lbmpy/flow_statistics.py: welford_assignments"]}
{"id": "C29", "title": "Partially saturated cells interpolate between fluid and solid", "statement": "With zero solid fraction the PSM update is the plain update, with the solid collision operators mass is conserved, and the reported particle force is the momentum taken from the fluid.", "quantifier": "all populations, fractions, particle velocities, all solid collision types", "why_tests_cant": "Continuous parameters.", "anchors": ["src/lbmpy/partially_saturated_cells.py", "src/lbmpy/creationfunctions.py: create_psm_update_rule"]}
{"id": "C30", "title": "Configuration objects have a stable meaning", "statement": "Constructing an LBM configuration resolves the relaxation rate(s), equilibrium, collision space, kernel type and force model by documented rules; normalisation is idempotent and copying a configuration with a changed field gives the configuration one would get by constructing it with that field.", "quantifier": "all combinations of configuration fields", "why_tests_cant": "Combinatorial space of configurations and histories of replacements.", "anchors": ["src/lbmpy/creationfunctions.py: LBMConfig.__post_init__, update_with_default_parameters"]}
{"id": "C31", "title": "Relaxation rates are assigned to the documented modes", "statement": "From a list of relaxation rates every mode receives the rate of the documented rule: a single rate relaxes the shear modes and every other mode relaxes with one; a longer list gives the shear rate, the bulk rate and one rate for each group with higher-order modes; a list as long as the number of modes gives each mode its own rate. Conserved modes relax with zero (unless a rate is given for every mode). Too few rates are rejected and surplus rates are ignored. The shear and bulk rates can be read back from the method.", "quantifier": "all lists of rates and all groupings of moments", "why_tests_cant": "Arbitrary list lengths and groupings.", "anchors": ["src/lbmpy/methods/creationfunctions.py: _get_relaxation_info_dict", "src/lbmpy/relaxationrates.py: get_shear_relaxation_rate, get_bulk_relaxation_rate"]}
{"id": "C32", "title": "Moment enumeration is complete and duplicate free", "statement": "moments_of_order / moments_up_to_order / moments_up_to_component_order return exactly the exponent tuples of the given order, each once; multiplicities count permutations; exponent/index conversions are inverse; parity decides oddness.", "quantifier": "all orders and dimensions", "why_tests_cant": "Unbounded orders.", "anchors": ["src/lbmpy/moments.py"]}
{"id": "C33", "title": "Gram-Schmidt orthogonalises without changing the span", "statement": "Orthogonalisation of moments with respect to the (weighted) stencil inner product returns pairwise orthogonal moments spanning the same space, in the same nesting, and rejects linearly dependent input.", "quantifier": "all lists of moment vectors, all positive weights", "why_tests_cant": "Arbitrary dimension.", "anchors": ["src/lbmpy/moments.py: gram_schmidt"]}
{"id": "C34", "title": "Renaming relaxation rates to symbols is transparent", "statement": "Replacing numeric relaxation rates by shared symbols and substituting them back gives the original diagonal matrix; equal rates share a symbol and different rates do not.", "quantifier": "all lists of symbolic and numeric rates", "why_tests_cant": "Arbitrary lists.", "anchors": ["src/lbmpy/methods/abstractlbmethod.py: _generate_symbolic_relaxation_matrix, subs_dict_relaxation_rate"]}
{"id": "C35", "title": "Sparse streaming equals dense streaming", "statement": "The sparse index list addresses, for every fluid cell and direction, the same population that dense pull streaming with bounce-back and periodicity would read; the map from pulls to slots is injective so that a closed domain conserves mass.", "quantifier": "all flag fields, domain sizes and symmetric stencils", "why_tests_cant": "Arbitrary geometries.", "anchors": ["src/lbmpy/sparse/mapping.py: SparseLbMapper.create_index_array, cell_idx, cell_idx_bulk"]}
{"id": "C36", "title": "Running n steps composes", "statement": "LatticeBoltzmannStep.run(a) followed by run(b) leaves the same fields as run(a+b), and run(n) is n single time steps, for every n including odd n with the two-step unrolled loop.", "quantifier": "all step counts, histories of calls and kernels", "why_tests_cant": "Unbounded histories.", "anchors": ["src/lbmpy/lbstep.py: run, time_step, get_time_loop"]}
{"id": "C37", "title": "Simplification passes keep the collision rule", "statement": "Common-subexpression elimination in opposing directions and splitting by symmetry return assignments with the same values for the populations.", "quantifier": "all populations and rates", "why_tests_cant": "Arbitrary expressions.", "anchors": ["src/lbmpy/methods/momentbased/momentbasedsimplifications.py: cse_in_opposing_directions, split_pdf_main_assignments_by_symmetry"]}
{"id": "C38", "title": "Auxiliary kernels address the right slots", "statement": "Stream-only, stream-with-output and copy kernels move exactly the populations the main kernel would, without collision.", "quantifier": "all stencils, accessors and memories", "why_tests_cant": "All memories.", "anchors": ["src/lbmpy/updatekernels.py"]}
{"id": "C39", "title": "Default moment sets are bases with hydrodynamic grouping", "statement": "Each predefined moment set of a stencil is a basis (full rank on the stencil), the weighted orthogonal sets are orthogonal under the lattice weights, and the shear/bulk classification picks exactly the second-order traceless and trace modes.", "quantifier": "all stencils with predefined sets", "why_tests_cant": "Rank and orthogonality over all entries.", "anchors": ["src/lbmpy/methods/default_moment_sets.py", "src/lbmpy/moments.py: is_shear_moment, is_bulk_moment"]}
{"id": "C40", "title": "Phase-field helpers satisfy their defining equations", "statement": "The wetting boundary value solves the discretised contact-angle condition; the phase-field parameters reproduce the dimensionless numbers they are computed from; n-phase free energy vanishes in pure phases.", "quantifier": "all angles, interface widths, phase values and dimensionless numbers", "why_tests_cant": "Continuous parameters.", "anchors": ["src/lbmpy/phasefield_allen_cahn/contact_angle.py", "src/lbmpy/phasefield_allen_cahn/parameter_calculation.py", "src/lbmpy/phasefield/analytical.py"]}
{"id": "C41", "title": "Split groups partition the kernel", "statement": "Inner-loop splitting puts every population store into exactly one group, pairing opposite directions.", "quantifier": "all symmetric stencils", "why_tests_cant": "All stencils and orderings.", "anchors": ["src/lbmpy/innerloopsplit.py"]}
{"id": "C42", "title": "Fluctuations leave conserved quantities alone", "statement": "Adding thermal fluctuations never changes mass or momentum and the amplitudes satisfy the fluctuation-dissipation relation.", "quantifier": "all random numbers, temperatures, rates, invertible moment matrices", "why_tests_cant": "All random draws.", "anchors": ["src/lbmpy/fluctuatinglb.py"]}
{"id": "C43", "title": "Distinct moments get distinct symbols", "statement": "The symbol generated for a statistical quantity (moment, central moment, cumulant) identifies its exponent tuple: two different exponent tuples of the same length with single-digit exponents never share a symbol.", "quantifier": "all names and all exponent tuples of equal length with entries below ten", "why_tests_cant": "a name collision silently merges two quantities in generated code; tests use only the handful of moments of a method, never all tuples", "anchors": ["src/lbmpy/moments.py: statistical_quantity_symbol"]}
{"id": "C44", "title": "Galilean correction of cumulant collisions", "statement": "Adding the Galilean correction to a D3Q27 cumulant collision changes only the three second-order diagonal cumulants, by terms built from the velocity gradients that the second-order cumulants determine; these terms vanish at rest and in equilibrium and treat the three axes alike; mass is conserved and momentum changes exactly by the force; unsuitable methods are rejected.", "quantifier": "all populations with positive density, all relaxation rates, all force models of cumulant methods, all central-moment transforms, all cumulant sets containing the corrected polynomials, all exchanges of axes", "why_tests_cant": "a wrong index or sign leaves simple flows unchanged to the eye; conservation and axis symmetry concern every population vector and every rate", "anchors": ["src/lbmpy/methods/cumulantbased/galilean_correction.py: add_galilean_correction, get_galilean_correction_terms", "src/lbmpy/creationfunctions.py: create_lb_collision_rule"]}
{"id": "C45", "title": "Fourth-order correction of cumulant collisions", "statement": "Adding the fourth-order correction to a D3Q27 cumulant collision changes only the six corrected fourth-order cumulants and the relaxation rates of the third-order ones; mass is conserved and momentum changes exactly by the force; terms vanish in equilibrium; the limiter moves a rate only towards one; the derived rates lie between 0 and 2; the three axes are treated alike.", "quantifier": "all populations with positive density, shear and bulk rates, limiters, force models and central-moment transforms, all exchanges of axes", "why_tests_cant": "the rational functions have poles and sign changes inside the legal range of rates, and a permuted gradient is invisible in flows along one axis", "anchors": ["src/lbmpy/methods/cumulantbased/fourth_order_correction.py: add_fourth_order_correction, get_fourth_order_correction_terms, get_optimal_additional_parameters, get_optimal_parametrisation_with_limiters", "src/lbmpy/creationfunctions.py: create_lb_method, create_lb_collision_rule"]}
{"id": "C46", "title": "Wall function models return the stress of their velocity profile", "statement": "For a positive tangential velocity and wall distance, the logarithmic, Spalding and Musker profiles each determine exactly one friction velocity; the wall shear stress computed with n Newton steps is the density times the square of an approximation that increases to this friction velocity geometrically; the Monin-Obukhov stress solves its profile exactly; stresses are never negative.", "quantifier": "all viscosities, profile constants, wall distances, velocities, initial guesses and numbers of Newton steps", "why_tests_cant": "divergence of Newton's method depends on the starting point and the Reynolds number; tests try one flow and check a bulk quantity", "anchors": ["src/lbmpy/boundaries/wall_function_models.py: MoninObukhovSimilarityTheory, ImplicitWallFunctionModel.newton_iteration, LogLaw, SpaldingsLaw, MuskerLaw"]}
{"id": "C47", "title": "Wall function bounce exchanges exactly the wall stress", "statement": "At a straight wall, the populations set by the wall function boundary differ from free slip by the wall stress only: no mass is exchanged, the normal momentum is that of free slip and the tangential momentum loses dt/dy times the stress, which points against the sampled velocity; invalid arguments are rejected.", "quantifier": "both 3D stencils with 19 and 27 directions in every direction ordering, the six wall normals, both weightings, all velocities, densities and pdf values", "why_tests_cant": "a wrong weight or a link counted twice changes the wall drag by a constant factor that channel-flow tests absorb; it concerns every stencil ordering and normal", "anchors": ["src/lbmpy/boundaries/boundaryconditions.py: WallFunctionBounce"]}
{"id": "C48", "title": "Finite differences and temperature solver of the Allen-Cahn model", "statement": "The gradient and Laplacian of the phase field have the right value on polynomials up to the documented order and an isotropic leading error for every supported stencil, other stencils are rejected; one step of the temperature solver with one auxiliary field is the explicit midpoint rule, with three the classical fourth-order Runge-Kutta rule for the advection-diffusion equation, and steady states are kept.", "quantifier": "all supported stencils in every direction ordering, all polynomials up to degree five, all fields, velocities, conductivities and step sizes", "why_tests_cant": "tests compare one smooth profile with a tolerance; a wrong sign in the last stage or an anisotropic weight shows only as a wrong transport speed for some fields", "anchors": ["src/lbmpy/phasefield_allen_cahn/derivatives.py: laplacian_symbolic, isotropic_gradient_symbolic", "src/lbmpy/phasefield_allen_cahn/numerical_solver.py: get_runge_kutta_update_assignments"]}
{"id": "C49", "title": "Forces of the Allen-Cahn model", "statement": "Away from interfaces the hydrodynamic force is the body force and the interface force vanishes; exchanging the names of the phases changes nothing physical; pressure and viscous force are those of the incompressible two-phase equations; the thermocapillary force acts along the interface towards growing surface tension; the tanh profile of the chosen width is the equilibrium of the interface force; sub-iterations evaluate the force at the repeatedly updated velocity.", "quantifier": "all supported stencils in every ordering, all phase and temperature fields, densities, relaxation times, numbers of sub-iterations", "why_tests_cant": "tests run single droplets with equal or fixed relaxation times; a missing factor shows only for other relaxation times, other phase values or other storage formats", "anchors": ["src/lbmpy/phasefield_allen_cahn/kernel_equations.py: hydrodynamic_force, viscous_force, pressure_force, surface_tension_force, thermocapillary_surface_tension_force, interface_tracking_force, hydrodynamic_force_assignments"]}
{"id": "C50", "title": "Chemical potentials and pressure tensor of a free energy", "statement": "The chemical potentials are the variational derivatives of the free energy; the extracted gradient coefficients reproduce the gradient energy; the divergence of the pressure tensor is the force computed from order parameters and chemical potentials, so constant chemical potentials exert no force; the tensor is symmetric, its two written forms agree and in constant fields it is the bulk pressure; the square-root form of the bulk part yields the same force; a symmetric tensor is stored with one slot per unordered pair of indices.", "quantifier": "all polynomial free energies with constant gradient coefficients, any number of order parameters, every dimension, all smooth fields", "why_tests_cant": "tests compare the two forces for a few hand-picked energies; a wrong coupling or a missing factor two shows only for mixed gradient terms or more order parameters", "anchors": ["src/lbmpy/phasefield/analytical.py: chemical_potentials_from_free_energy, extract_gamma, force_from_phi_and_mu, pressure_tensor_bulk_component, pressure_tensor_interface_component, pressure_tensor_from_free_energy, force_from_pressure_tensor, symmetric_tensor_linearization", "src/lbmpy/phasefield/kerneleqs.py: pressure_tensor_kernel, pressure_tensor_kernel_pbs, force_kernel_using_pressure_tensor"]}
{"id": "C51", "title": "Cahn-Hilliard lattice Boltzmann method", "statement": "The method that evolves an order parameter has the equilibrium moments phi, phi v and phi v v + gamma mu, its collision keeps the order parameter, and with a given velocity it solves d phi/dt + div(phi v) = M lap mu with mobility M = gamma (1/omega - 1/2): in a quadratic chemical potential the growth rate of the order parameter tends to M lap mu in every cell for all initial populations, a uniform velocity carries an affine order parameter along, and the flux is phi v - M grad mu. The isotropic finite difference stencils used with it give first and second derivatives with an isotropic leading error; dimensions and orders that are not supported are rejected.", "quantifier": "all stencils with tabulated weights in every ordering, all chemical potentials, velocities, gammas and relaxation rates in (0, 2), all initial populations of at most quadratic growth, all grid spacings", "why_tests_cant": "tests run one droplet for a number of steps; the mobility and the derivative along one axis are never checked for other rates or fields that depend on both coordinates", "anchors": ["src/lbmpy/phasefield/cahn_hilliard_lbm.py: cahn_hilliard_lb_method", "src/lbmpy/phasefield/fd_stencils.py: fd_stencils_isotropic_high_density_code", "src/lbmpy/phasefield/phasefieldstep.py: PhaseFieldStep"]}
{"id": "C52", "title": "Prescribed velocities and iterative initialisation", "statement": "A collision rule created with velocity_input (and density_input) relaxes mass and momentum towards those of the given values with the rates of the conserved moments and every other moment towards its equilibrium there; with a velocity only the mass is kept; a density without a velocity is rejected; without input it is the usual collision. The velocity setting rule keeps the mass and relaxes the momentum towards the velocity field with the given rate, so that in homogeneous flow the distance decays as (1 - rate)^t. Cumulant methods do the same with cumulants, a given density being approached geometrically. With a force the velocity that the getter reports settles at the prescribed one. run_iterative_initialization returns residuum and number of steps of the first check below the threshold, never runs more than max_steps, restores the prescribed velocities and raises ValueError otherwise, and uses the average residuum and the rate of the call.", "quantifier": "all weighted stencils, orderings, moment sets, cumulants, transforms, rates, densities, velocities, force models, forces and populations; all pdf and velocity fields, sweeps, residuum functions, thresholds, budgets and check intervals", "why_tests_cant": "tests initialise one Taylor-Green vortex with one rate; the behaviour at the budget, with nan, with several blocks and on a second call is not exercised", "anchors": ["src/lbmpy/creationfunctions.py: create_lb_collision_rule", "src/lbmpy/macroscopic_value_kernels.py: create_advanced_velocity_setter_collision_rule", "src/lbmpy/lbstep.py: LatticeBoltzmannStep.run_iterative_initialization", "src/lbmpy/methods/momentbased/momentbasedmethod.py: MomentBasedLbMethod.set_first_moment_relaxation_rate", "src/lbmpy/methods/cumulantbased/cumulantbasedmethod.py: CumulantBasedLbMethod.get_collision_rule", "src/lbmpy/methods/conservedquantitycomputation.py: DensityVelocityComputation.equilibrium_input_equations_from_init_values"]}
{"id": "C53", "title": "Equations of state, Maxwell construction and the bulk free energy", "statement": "van_der_walls_eos is the pressure solving (p + a rho^2)(1/rho - b) = R T; both equations of state follow the ideal gas law at small densities; the pressure increases with the density on the whole range from the returned critical temperature on and not below it. free_energy_from_eos returns a free energy whose eos_from_free_energy is the given equation, for every integration constant, and every such free energy has this form. maxwell_construction returns two densities with equal pressures between 0 and the local maximum and with areas equal up to the tolerance; for coexisting densities of a subcritical isotherm the bulk energy of the high density ratio model is non-negative and vanishes exactly in the pure phases; the densities are stationary points exactly if they coexist. Equal densities, too few lambdas and a zero tolerance are rejected.", "quantifier": "all positive gas constants, temperatures and parameters a, b, all densities in range, all differentiable equations of state and integration constants, all tolerances, numbers of bisection rounds and isotherms", "why_tests_cant": "tests run the construction for a few reduced temperatures far below the critical one; the statements are about whole isotherms and all parameters", "anchors": ["src/lbmpy/phasefield/eos.py: carnahan_starling_eos, carnahan_starling_critical_temperature, van_der_walls_eos, van_der_walls_critical_temperature, eos_from_free_energy, free_energy_from_eos, maxwell_construction", "src/lbmpy/phasefield/high_density_ratio_model.py: free_energy_high_density_ratio"]}
{"id": "C54", "title": "n-phase Cahn-Hilliard model with arbitrary surface tensions", "statement": "diffusion_coefficients returns the only symmetric matrix alpha with zero row sums and alpha sigma = 1 + gamma (1..1), conserves the sum of the phases, is negative semidefinite exactly if the surface tensions are so on changes with zero sum, and rejects a non-zero diagonal and vanishing tensions. The free energy is consistent: absent phases do not contribute; in a mixture of two phases energy and dynamics are those of the two-phase model with their surface tension, no third phase appears, whatever the other tensions, the correction and the stabilisation are; the interface terms decouple. sigma_jk is the surface tension of an interface between j and k for every interface width and number of phases. The declared derivatives of H are its derivatives also at the origin; psi follows the inclusion-exclusion formula.", "quantifier": "all numbers of phases, symmetric surface tension matrices, concentrations, interface widths, correction and stabilisation coefficients, interface profiles", "why_tests_cant": "tests check a few symbolic identities for three and four phases; the reductions hold for every number of phases, tensions and state", "anchors": ["src/lbmpy/phasefield/n_phase_boyer.py: diffusion_coefficients, capital_s, psi, compute_ab, l_bar, free_energy_interfacial, free_energy_bulk, lambda_equal_surface_tension, capital_f_bulk_equal_surface_tension, capital_f0, capital_h, correction_g, stabilization_term, free_energy"]}
{"id": "C55", "title": "Projection of phase fractions onto the Gibbs simplex", "statement": "simplex_projection_2d and simplex_projection_3d terminate and leave non-negative fractions of sum one in every cell whose fractions (values below the threshold counted as zero) have a positive sum; a cell with valid fractions is not changed wherever it lies; fractions of sum one are moved to the nearest point of the simplex in the Euclidean norm, in the first cell and in every cell whose phases marked by earlier cells are zero. In other later cells the result depends on the cells before and is not the nearest point. A cell in which all fractions vanish has no result (0/0).", "quantifier": "all numbers of phases (up to 31) and cells, all real fractions, all thresholds", "why_tests_cant": "no test projects several cells with different negative phases; nearest-point and termination statements range over all fractions and phases", "anchors": ["src/lbmpy/phasefield/simplex_projection.pyx: simplex_projection_2d, simplex_projection_3d"]}
{"id": "C56", "title": "Update kernels with built-in boundary conditions", "statement": "The kernel of update_rule_with_push_boundaries for an in-place streaming pattern leaves the same array as the ordinary update kernel followed by the ordinary boundary kernel on all links between inner cells and the ghost layer, for every order of the inner cells, and after setter, initial boundary kernel and n such steps the getter returns the populations of the stream, collide and boundary recursion. The border condition and the direction list of a face select exactly the links leaving through it. A direction that is not an axis raises AssertionError and an in-place pattern with time step BOTH is rejected. With the default pattern 'pull' (and with 'push'), which the function applies to one field, and with FreeSlip, which reads a neighbour, the result is different.", "quantifier": "all box sizes, nearest neighbour stencils, in-place patterns, time steps, collision operators, boundary rules using populations of their own cell, orders of cells, initial states and numbers of steps", "why_tests_cant": "one test compares a lid driven cavity for a few patterns; order of cells, corners and arbitrary rules need a proof", "anchors": ["src/lbmpy/boundaries/boundaries_in_kernel.py: update_rule_with_push_boundaries, border_conditions, direction_indices_in_direction, boundary_conditional"]}
{"id": "C57", "title": "Channel flow converges to the analytical profile", "statement": "A flow that depends only on the distance from two parallel bounce-back walls, started from any such state with uniform pressure, converges under repeated update and boundary kernels to a fixed profile: Couette profile between the wall velocities, plus the parabola of poiseuille_flow with viscosity lattice_viscosity_from_relaxation_rate, plus a constant slip. The walls lie exactly half a cell outside the fluid cells. The slip vanishes if and only if there is no force or the magic number of the even and odd rate is 3/16, so a TRT method with the rate of relaxation_rate_from_magic_number reproduces poiseuille_flow exactly on every resolution, while SRT in general does not. The wall velocity of UBB is attained exactly for every rate when there is no force. Pressure stays uniform and no flow towards the walls arises.", "quantifier": "all stencils with fourth order isotropic weights (all but D3Q7), all heights, positions and orientations of the channel, streaming patterns, moment bases with one rate per order, relaxation rates in (0,2), force models except the central moment one, zero-centred or not, compressible or not, initial row-wise states, numbers of steps", "why_tests_cant": "tests compare one channel after finitely many steps within a tolerance of some percent; the exact limit, its independence from the initial state and the exact dependence on the rates need a proof", "anchors": ["src/lbmpy/analytical_solutions.py: poiseuille_flow", "src/lbmpy/relaxationrates.py: relaxation_rate_from_magic_number, lattice_viscosity_from_relaxation_rate", "src/lbmpy/boundaries/boundaryconditions.py: NoSlip, UBB", "src/lbmpy/forcemodels.py", "src/lbmpy/methods/momentbased/momentbasedmethod.py"]}
{"id": "C58", "title": "Polymer stress of an Oldroyd-B fluid", "statement": "The force field computed from the face stresses is the divergence of the stress: exact whenever the stress is a polynomial of degree two around the cell, for every staggered stencil that contains all rotations and reflections of its directions. On a periodic domain the forces add up to zero whatever is stored on the faces. With faces along the axes only, the forces on the fluid cells and those handed to the solid cells cancel for every shape of the solid. The stress extrapolated to a wall face half a cell ahead is exact for polynomials up to the chosen order and not beyond; orders above two are rejected. The source term keeps the stress symmetric, is the same in every orthonormal frame, is the upper-convected derivative plus relaxation of the conformation tensor, and has a single steady state in simple shear, with viscosity eta_p and first normal stress difference 2 eta_p lambda_p rate^2. The stress update uses the old values of all components.", "quantifier": "all dimensions, staggered stencils, periodic domain sizes, fluid/solid partitions, stress and velocity gradient fields, relaxation times and viscosities, assignment lists", "why_tests_cant": "tests compare one channel flow with a tolerance; exactness, frame independence and momentum balance are statements about all fields and geometries", "anchors": ["src/lbmpy/oldroydb.py: OldroydB._source, tauface, force, continuity", "src/lbmpy/oldroydb.py: Extrapolation, ForceOnBoundary"]}
{"id": "C59", "title": "Stability of flows with a linear equilibrium", "statement": "With an equilibrium of first order in the velocity (equilibrium_order=1) and relaxation rates between 0 and 2, the sum of squared populations divided by the lattice weights never grows: not in a collision with one rate, with one rate for even and one for odd moments, or with any rates of orthogonal moments; not in streaming with any pattern; not at bounce-back walls, resting velocity boundaries or absorbing concentration walls. All populations therefore stay within bounds given by the initial state for every number of steps, although rates may change from cell to cell and step to step. If the rates stay away from 0 and 2 the deviation from equilibrium dies out. Outside of [0, 2] a uniform state grows without bound; with an equilibrium of second order the sum can grow.", "quantifier": "all predefined stencils but D3Q7, moment sets, rates in [0, 2] per cell and step, streaming patterns, finite geometries, initial states, numbers of steps", "why_tests_cant": "a test runs finitely many steps from a few states; boundedness concerns all initial states and all times", "anchors": ["src/lbmpy/methods/momentbased/momentbasedmethod.py: MomentBasedLbMethod.get_collision_rule", "src/lbmpy/maxwellian_equilibrium.py: discrete_equilibrium", "src/lbmpy/creationfunctions.py: create_lb_update_rule", "src/lbmpy/boundaries/boundaryconditions.py: NoSlip, UBB, DiffusionDirichlet"]}
{"id": "C60", "title": "Rotations, reflections and translations of a simulation", "statement": "Turning a set-up turns its result: if the geometry, the walls (bounce back, moving walls with their velocity turned, interpolated bounce back with the same distances), the forces and the initial populations of one simulation are those of another one rotated, reflected or moved on the lattice, then so are the populations after any number of steps, even if the two use different streaming patterns or visit the cells in different orders. This needs relaxation rates which do not prefer an axis: one rate, one for even and one for odd moments, or one per order all qualify; with different rates for the moments x^2 and y^2 it fails. A set-up which is symmetric therefore stays symmetric for ever.", "quantifier": "all predefined stencils, sequences of reflections and exchanges of axes, translations, raw moment, central moment and cumulant sets and symmetric rates per cell and step, force models, geometries, initial states, streaming patterns, visiting orders, numbers of steps", "why_tests_cant": "tests compare a few rotated scenarios for some steps; equality for all states, geometries and times needs an induction over the simulation", "anchors": ["src/lbmpy/methods/momentbased/momentbasedmethod.py: MomentBasedLbMethod", "src/lbmpy/methods/momentbased/centralmomentbasedmethod.py: CentralMomentBasedLbMethod", "src/lbmpy/methods/cumulantbased/cumulantbasedmethod.py: CumulantBasedLbMethod", "src/lbmpy/maxwellian_equilibrium.py", "src/lbmpy/forcemodels.py", "src/lbmpy/stencils.py: LBStencil", "src/lbmpy/boundaries/boundaryconditions.py: NoSlip, UBB, NoSlipLinearBouzidi", "src/lbmpy/updatekernels.py"]}
{"id": "C61", "title": "Viscosity of shear waves", "statement": "A simulation has the viscosity the library computes from its relaxation rate: a plane shear wave U + A cos(kappa x + phi) of constant density on a periodic block, started from the method's equilibrium, keeps its planes, its phase and its mean flow for ever; its amplitude never exceeds the initial one and follows exp(-nu kappa^2 n), nu being lattice_viscosity_from_relaxation_rate of the rate of the shear moments, up to K (kappa + n kappa^4) with a constant K that depends on the two rates only. For finer resolution at fixed physical time it converges to the solution of the Navier-Stokes equations.", "quantifier": "all shear and odd rates in (0, 2), stencils other than D3Q7, moment sets and transforms, compressible or not, storage formats, equilibria, block sizes, wave lengths, phases, amplitudes (not only small ones), background velocities along the planes, streaming patterns, numbers of steps", "why_tests_cant": "the test scenario measures the decay of a few waves with a tolerance; the error constant, uniform in resolution and time, is out of reach of any number of runs", "anchors": ["src/lbmpy/relaxationrates.py: lattice_viscosity_from_relaxation_rate", "src/lbmpy/methods/momentbased/momentbasedmethod.py: MomentBasedLbMethod", "src/lbmpy/macroscopic_value_kernels.py: pdf_initialization_assignments", "tests/full_scenarios/shear_wave/scenario_shear_wave.py"]}
{"id": "C62", "title": "Ready-made scenarios", "statement": "The scenario functions set up what they describe. A box or cavity is closed: every cell of the ghost layer, corners included, carries a boundary and no domain cell does; the lid of the cavity is its top side without the edges, and an incompressible simulation of it keeps its total mass for ever. A channel takes exactly one nonzero driving parameter, is periodic only if driven by a force, has walls on all sides across the flow and outside the pipe, and inflow and outflow on the remaining cells of its ends. Pipes of even width consist of the cells whose centre is at most half the diameter from the axis and are mirror symmetric; velocity field and inflow are the parabola that vanishes on the wall, in two dimensions the analytic Poiseuille profile. Neumann angles lie between 0 and 180 degrees, add up to 360 and balance the surface tensions.", "quantifier": "all domain sizes in two and three dimensions, stencils, lid velocities, streaming patterns, mass-conserving collisions, initial states, numbers of steps; all combinations of channel arguments; all diameters; all positive surface tension parameters", "why_tests_cant": "tests look at a few sizes and step counts; leaks at edges, rounding at odd widths and the drift of mass show only for some sizes, states and after many steps", "anchors": ["src/lbmpy/scenarios.py: create_lid_driven_cavity, create_channel", "src/lbmpy/geometry.py: add_box_boundary, add_pipe_walls, add_pipe_inflow_boundary, get_pipe_velocity_field, add_sphere", "src/lbmpy/phasefield/post_processing.py: analytic_neumann_angles", "src/lbmpy/boundaries/boundaryconditions.py: UBB"]}
{"id": "C63", "title": "Concentrations carried by a prescribed flow stay within their bounds", "statement": "A method that simulates a concentration in a given flow (compressible, velocity field as input, one relaxation rate, equilibrium of first or second order) keeps it physical for ever: if all populations are nonnegative at the start, populations and concentrations stay nonnegative; a run that starts with more everywhere has more everywhere later; without flow, or in a uniform flow without walls, concentrations never leave the range of the initial state; and the total distance of two runs between bounce-back walls never grows. This needs rates and velocities for which no cell hands out more than it has, for instance rates up to one and slow flows, and this condition is sharp. Bounce-back, outflow and mirror walls keep the bounds.", "quantifier": "all predefined stencils, sets of moments, both storages, rates and velocities that may differ from cell to cell and step to step, lattices, geometries, streaming patterns, initial states and numbers of steps", "why_tests_cant": "bounds must hold for every initial state, flow and number of steps; over- and undershoots appear only for some states and after many steps", "anchors": ["src/lbmpy/creationfunctions.py: LBMConfig.velocity_input, create_lb_collision_rule", "src/lbmpy/methods/conservedquantitycomputation.py: equilibrium_input_equations_from_init_values", "src/lbmpy/equilibrium/discrete_equilibrium.py", "src/lbmpy/boundaries/boundaryconditions.py: NoSlip, SimpleExtrapolationOutflow, FreeSlip, DiffusionDirichlet"]}
{"id": "C64", "title": "Two-phase steps keep the phase and drive it with the chosen mobility", "statement": "In the phase-field step of the two-phase model (velocity given, interface force computed from the phase field around the cell) every cell keeps its phase in the collision whatever the phase field and the velocity are, and the total phase between bounce-back walls never changes. The flux of the phase relaxes towards the transported phase plus mobility times the sharpening flux of the Allen-Cahn equation, when the relaxation rate is the one the parameters give for this mobility and the force model puts half of the force into the velocity; a uniform phase in a uniform flow is never disturbed. The hydrodynamic step adds the force divided by the density that belongs to the phase to the momentum and keeps the pressure variable. The initial populations carry the given phase, pressure and velocity. More generally a collision with given velocity under any force model changes mass and momentum by relaxation towards the given values plus the stated share of the force, a zero force has no effect, and a density without a velocity is rejected.", "quantifier": "all predefined stencils, moment sets, raw and central moment methods, storages, force models, phase fields, velocities, relaxation rates, lattices, geometries, streaming patterns and numbers of steps", "why_tests_cant": "conservation and the transported flux must hold for every phase field, velocity and history; a test sees a droplet for some steps and a wrong mobility only as a slightly different interface", "anchors": ["src/lbmpy/phasefield_allen_cahn/kernel_equations.py: add_interface_tracking_force, interface_tracking_force, add_hydrodynamic_force, initializer_kernel_phase_field_lb, initializer_kernel_hydro_lb", "src/lbmpy/phasefield_allen_cahn/parameter_calculation.py: AllenCahnParameters.omega_phi", "src/lbmpy/creationfunctions.py: create_lb_collision_rule (velocity_input, density_input)", "src/lbmpy/forcemodels.py"]}
{"id": "C65", "title": "List-based simulations compute what dense simulations compute", "statement": "For a domain with periodic directions and bounce-back walls, described once by a flag array with ghost layers and once as a periodic lattice with solid cells, the list-based representation (index list, initialisation of the list, fused stream and collide steps over two swapped lists) accepts the geometry, has exactly one list entry for each fluid cell of the lattice and no others, and holds after any number of steps in the entry of a cell exactly the populations that the dense simulation with no-slip boundary conditions holds there, whichever streaming pattern the dense simulation uses.", "quantifier": "all symmetric stencils of unit-distance neighbours with the resting direction first, domain sizes, ghost layer counts, geometries, collision rules (also varying in space and time), initial states, contents of the memory before initialisation, numbers of steps and streaming patterns of the dense simulation", "why_tests_cant": "the index list encodes periodicity and walls of the whole geometry; one wrong entry shows only in some cell, direction and geometry, and a test compares two runs on one domain", "anchors": ["src/lbmpy/sparse/mapping.py: SparseLbMapper.create_index_array, fluid_coordinates", "src/lbmpy/sparse/update_rule_sparse.py: create_lb_update_rule_sparse, create_macroscopic_value_setter_sparse", "src/lbmpy/lbstep.py: LatticeBoltzmannStep.time_step", "src/lbmpy/boundaries/boundaryconditions.py: NoSlip"]}
{"id": "C66", "title": "Coupled phase-field simulations keep the amount of every phase and change momentum only by forces", "statement": "In the coupled simulations of order parameters and flow (the direct variant, the pressure tensor variant and the N-phase model of Nestler) on a periodic domain, initialisation stores exactly the given order parameters, no step fails when every phase has its parameters, the total of every order parameter and the mass of the fluid are the same after every number of steps, and the momentum of the fluid changes each step by exactly the total of the force field. The pressure tensor variant has no net force: its momentum changes only by the extra forces, each its constant times the amount of its phase. In the direct variant the sum of all phases moves like one phase driven by the weighted sum of all chemical potentials, and a uniform mixture stays uniform, unchanged and without force. In the N-phase model only the projection to the simplex changes the amounts, and the interfacial parts of the chemical potentials sum to zero.", "quantifier": "all predefined stencils with weights, periodic domain sizes, numbers of phases, chemical potential kernels, pressure tensors, hydrodynamic methods that keep mass and add the force (all moment-based methods with every force model do), velocity outputs, relaxation rates and mobilities per phase, initial order parameters and numbers of steps", "why_tests_cant": "tests run one free energy on one grid for some steps and look at profiles; an order of kernels or a missing synchronisation that loses phase or momentum shows only slowly or for other parameters", "anchors": ["src/lbmpy/phasefield/phasefieldstep_direct.py: PhaseFieldStepDirect.time_step", "src/lbmpy/phasefield/phasefieldstep.py: PhaseFieldStep.time_step", "src/lbmpy/phasefield/nphase_nestler.py: create_model", "src/lbmpy/phasefield/kerneleqs.py: force_kernel_using_pressure_tensor", "src/lbmpy/phasefield/analytical.py: force_from_phi_and_mu"]}
{"id": "C67", "title": "Quadratic equilibria: coefficients are found exactly when they exist", "statement": "Matching given equilibria to the generic quadratic equilibrium (A + B (u.d) + C (u.d)^2 + D (u.u) with coefficients that depend only on the speed of the direction) returns coefficients that reproduce every equilibrium for all velocities; it returns them whenever such coefficients exist, and raises ValueError exactly when none exist. The generic equilibrium with given coefficients is matched back to them. For the second-order discrete Maxwellian of every stencil with weights the coefficients are w rho, w f/c_s^2, w f/(2 c_s^4) and -w f/(2 c_s^2), with f = rho for compressible and 1 for incompressible methods. The moment constraints vanish exactly when the equilibrium has the desired moments for all velocities; the desired moments for Navier-Stokes are those of the continuous Maxwellian with c_s^2 = p/rho up to second order, and the second-order discrete Maxwellian meets all constraints up to third order with p = rho/3 on every stencil with weights except D3Q7.", "quantifier": "all stencils in two or more dimensions, polynomial equilibria of every degree, coefficient values, moments and desired values, and all velocities", "why_tests_cant": "tests match one known equilibrium on a few stencils; a wrong coefficient, a conflict between directions of one speed that goes unnoticed, or an equation that is missed shows only for other equilibria", "anchors": ["src/lbmpy/quadratic_equilibrium_construction.py: generic_equilibrium_ansatz", "src/lbmpy/quadratic_equilibrium_construction.py: generic_equilibrium_ansatz_parameters", "src/lbmpy/quadratic_equilibrium_construction.py: match_generic_equilibrium_ansatz", "src/lbmpy/quadratic_equilibrium_construction.py: moment_constraint_equations", "src/lbmpy/quadratic_equilibrium_construction.py: hydrodynamic_moment_values", "src/lbmpy/quadratic_equilibrium_construction.py: get_parameter_symbols"]}
{"id": "C68", "title": "The Chapman-Enskog analysis reports the viscosities of the method", "statement": "The equations of first and second order that the Chapman-Enskog analysis works with are the coefficients of the expansion parameter in the Taylor expanded lattice Boltzmann equation, and its symbolic derivatives are the derivatives. For every method whose equilibrium has the Maxwellian moments up to third order (all second-order equilibria of the library except on D3Q7), compressible or not, the viscous stress it computes is the second moment of f1 + Omega f1 / 2 of every first-order solution f1; without error terms it is the stress of a Newtonian fluid. All candidates for the shear viscosity agree; the dynamic viscosity is rho c_s^2 (1/omega_shear - 1/2) and the kinematic one c_s^2 (1/omega_shear - 1/2), the value relaxationrates.py assigns to the rate, and the rate computed from a viscosity has this viscosity. The reported bulk viscosity is the bulk viscosity of this stress. The conditions for approximating the Navier-Stokes equations are fulfilled exactly by methods whose stress is that of a Newtonian fluid.", "quantifier": "all dimensions from two on, equilibria with these moments, moment bases with one rate each for the mixed second moments, the differences and the sum of the squares, rates, densities, velocities and gradients", "why_tests_cant": "tests compare the symbolic result with a formula for a few methods, mostly with one rate, where an error in the bulk part cancels; they do not relate the result to the populations", "anchors": ["src/lbmpy/chapman_enskog/chapman_enskog.py: ChapmanEnskogAnalysis", "src/lbmpy/chapman_enskog/chapman_enskog.py: get_taylor_expanded_lb_equation", "src/lbmpy/chapman_enskog/chapman_enskog.py: chapman_enskog_ansatz", "src/lbmpy/chapman_enskog/chapman_enskog.py: LbMethodEqMoments", "src/lbmpy/chapman_enskog/chapman_enskog.py: remove_error_terms", "src/lbmpy/chapman_enskog/derivative.py: chapman_enskog_derivative_recombination", "src/lbmpy/chapman_enskog/chapman_enskog.py: ChapmanEnskogAnalysis.does_approximate_navier_stokes"]}
{"id": "C69", "title": "The steady-state Chapman-Enskog analysis describes the steady states of the method", "statement": "The populations that the steady-state analysis writes order by order solve the Taylor expanded lattice Boltzmann equation up to the chosen power of the expansion parameter and are the only ones that satisfy the equations of all these orders; the equations returned for a single order are the coefficients of the full equations. For equilibria and forces that are polynomials in space, the sum of the orders is exactly unchanged by a collision and streaming step, and no other polynomial populations of this degree are. A flow with given density and velocity is steady (its populations have this density, and this velocity with half the force added to the momentum) if and only if the continuity equation and the momentum equations of the analysis are fulfilled, with and without force, for compressible and incompressible methods. The analysis written for methods with one rate returns the same equations times minus the rate, order by order, and the shear viscosity it determines is c_s^2 (1/omega - 1/2).", "quantifier": "all stencils, invertible collision matrices, orders, equilibrium and force fields (for the exact statements: polynomial fields of any degree up to the order), positions", "why_tests_cant": "tests compare printed equations for one method; whether they hold for steady states of arbitrary shape and order needs an argument over all fields", "anchors": ["src/lbmpy/chapman_enskog/chapman_enskog_steady_state.py: SteadyStateChapmanEnskogAnalysis", "src/lbmpy/chapman_enskog/chapman_enskog_steady_state.py: SteadyStateChapmanEnskogAnalysis.get_continuity_equation", "src/lbmpy/chapman_enskog/chapman_enskog_steady_state.py: SteadyStateChapmanEnskogAnalysis.get_momentum_equation", "src/lbmpy/forcemodels.py: default_velocity_shift"]}
{"id": "C70", "title": "The analytical solution of the heated two-fluid channel solves the channel problem", "statement": "The reference solution for thermocapillary flow in a channel with two fluids fulfils the heat equation and the equations of creeping flow (with a pressure) in each fluid, the prescribed temperatures at the walls, no slip at the walls, no flow through the interface, and continuous velocity, temperature and heat flux at the interface. The tangential stresses balance the gradient of the surface tension exactly if the viscosity passed in is the mean of the viscosities of the two fluids. The returned arrays hold these fields at the returned coordinates when they are transposed (the default); the function returns unless a parameter makes it divide by zero.", "quantifier": "all reference lengths, numbers of points, conductivities, wall temperatures, surface tension coefficients, viscosities and positions", "why_tests_cant": "the tests use the solution as the reference and compare to it for one setup; that it solves the differential equations everywhere is never checked", "anchors": ["src/lbmpy/phasefield_allen_cahn/analytical.py: analytical_solution_microchannel"]}
{"id": "C71", "title": "The strain rate getter stores the strain rate of the flow", "statement": "The assignments for reading out the strain rate write every component of the D x D tensor once, row by row, the tensor is symmetric and vanishes in equilibrium. For populations that are an equilibrium plus its first-order correction, the value stored from the populations before the collision is half of the sum of the velocity gradient and its transpose, up to the error terms of the expansion, which vanish where the fluid is at rest, if all second moments relax with one rate and the speed of sound is 1/sqrt(3). The default settings, read from the populations that are there after a step, give the same tensor, and the result depends on the populations only.", "quantifier": "all stencils, invertible moment bases, non-zero relaxation rates, equilibria with the moments of a Maxwellian, densities, velocities and their gradients, and components", "why_tests_cant": "tests check that one kernel compiles or one shear flow is reproduced to some tolerance for one relaxation rate", "anchors": ["src/lbmpy/macroscopic_value_kernels.py: strain_rate_tensor_getter"]}
{"id": "C72", "title": "Intersections of contour lines and triple points are found where they are", "statement": "The intersection search of two families of polylines returns exactly the common points of their segments, one for each pair of crossing segments. The closest point is the first of those with minimal distance. A triple point center is the mean of a crossing of the first pair of contour lines and the closest crossings of the two other pairs, for each crossing with both within the threshold; a center comes with the closest branch points and the angles between neighbouring branches in degrees, which add up to 360. If there is no triple point the result is empty.", "quantifier": "all polylines, points, thresholds and directions", "why_tests_cant": "tests compare the angles of one simulation with a tolerance; where the lines lie and whether segments are parallel to an axis depends on the run", "anchors": ["src/lbmpy/phasefield/post_processing.py: get_angle, find_intersections, get_line_intersections, find_closest_point, get_triple_point_centers, get_triple_points"]}
{"id": "C73", "title": "The reported domain sizes are the largest that fit into the memory", "statement": "For a memory size, a number of populations per cell, a number of arrays and a data type, the square and cube edge lengths are exact bounds: a domain with n cells along each axis fits into the memory if and only if n is not larger. One array instead of two doubles the number of cells, more memory never gives a smaller size. Memory sizes can be given in bytes or as text with the units KB, MB and GB (powers of 1024) in any case and with any white space, other units are errors. The overview has one row per memory, in order, with the sizes for D2Q9, D3Q19 and D3Q27, and the printed values can be trusted.", "quantifier": "all memory sizes, numbers of populations and arrays, data types, texts and lists of memories", "why_tests_cant": "the doctest shows two memory sizes; rounding and fitting concern every size", "anchors": ["src/lbmpy/max_domain_size_info.py: square_size, cube_size, convert_memory_size, cache_domain_size_overview, MaxDomainSizeInfo"]}
{"id": "C74", "title": "Interpolated fields agree with the cells and the vorticity is the curl of the velocity", "statement": "An interpolator of a scalar or vector field returns the value of a cell at its center, is exact for fields that are linear in the position, stays between the extreme values of the field and works in the whole domain. The vorticity of a plane velocity field is exact in every cell for velocities linear in the position (2 omega for a rigid rotation), and in the inner cells for quadratic profiles; on periodic domains it commutes with shifts. Fields of another kind are rejected.", "quantifier": "all grid sizes and numbers of axes, fields, positions and cells", "why_tests_cant": "tests call the functions on single fields without comparing with the exact result; the border cells and all positions are a claim over every grid", "anchors": ["src/lbmpy/postprocessing.py: scalar_field_interpolator, vector_field_interpolator, vorticity_2d"]}
{"id": "C75", "title": "The measured angles of a liquid lens are its Neumann angles", "statement": "For a drop between two phases with a level interface, the angles computed from the circles of its two interfaces are the angles of the first and second enclosing phase and of the drop at the triple points, in degrees, and add up to 360. If the surface tensions at the triple points are in balance, they agree with the angles computed from the tensions. Circles without two common points and rotated lenses are errors.", "quantifier": "all positions, sizes and pairs of angles of the lens, both orders of the enclosing phases, all surface tensions", "why_tests_cant": "a test would compare one simulated lens with a tolerance; the order of the phases and the shape of the drop differ from run to run", "anchors": ["src/lbmpy/phasefield/contact_angle_circle_fitting.py: liquid_lens_neumann_angles, circle_intersections, neumann_angles_from_surface_tensions"]}
{"id": "C76", "title": "Initial profiles of order parameters put the interfaces at the given positions", "statement": "The sharp initialization of one phase between two positions and of another one inversely fills every cell with exactly one of the two and leaves other phases unchanged; a phase without an order parameter changes nothing. By default the interfaces are at a quarter and three quarters of the domain, so each phase fills one half. The smooth initialization is the difference of two tanh interfaces of the given width, lies between 0 and 1, is symmetric, and near each position is the profile of a single interface up to the exponential tail of the other one.", "quantifier": "all domain sizes, positions, widths, phases and cells", "why_tests_cant": "tests run one size and compare with a tolerance after many time steps; the number of cells and bounds hold for every size, position and width", "anchors": ["src/lbmpy/phasefield/experiments1D.py: init_sharp_interface, init_tanh"]}
{"id": "C77", "title": "A turbulence model exchanges the shear relaxation rate and nothing else", "statement": "Adding the Smagorinsky model to a collision rule gives the rule in which the shear relaxation rate has the local value and everything else is unchanged; the local rate is computed from the given rate and the non-equilibrium, lies between zero and the given rate and equals it without strain. The rate may be a symbol, an expression or a number that is assigned to a symbol; a number that is assigned nowhere is an error. The symbol that is found for a number is the one of the shear rate, and other relaxation rates keep their values.", "quantifier": "all collision rules (lists of assignments), rates, model constants and values of the symbols", "why_tests_cant": "tests run a flow with one rate and check that it is stable; coinciding numbers and arbitrary rules are not sampled", "anchors": ["src/lbmpy/utils.py: extract_shear_relaxation_rate", "src/lbmpy/turbulence_models.py: add_smagorinsky_model"]}
{"id": "C78", "title": "An image becomes boundary cells upright, in its place and independent of the domain decomposition", "statement": "Setting a boundary from an image marks exactly the cells of the target region whose pixel is not white: columns run along the first axis of the plane, the top row has the largest second coordinate, and the picture is extruded along the other axes. An image of the size of the region is copied pixel by pixel, another one is stretched from border to border in order; with kept aspect ratio it is as large as possible, has the proportions of the image, lies in the middle, and nothing beside it is set. No cell beside the region is set and the cells do not depend on the blocks into which the domain is divided.", "quantifier": "all images, regions, planes, numbers of dimensions, blocks and cells", "why_tests_cant": "a test reads one picture in one block; the intersections of blocks with the region and the rounding of the sizes have many cases", "anchors": ["src/lbmpy/geometry.py: add_black_and_white_image"]}
{"id": "C79", "title": "Lens and drop set-ups start with one pure phase per cell in the documented arrangement", "statement": "The set-ups of a liquid lens and of two drops between two phases give every cell exactly one phase with concentration one, for every domain size and whatever the fields held before: the upper half is phase 0, the lower half phase 1, the lens phase 2 in the middle, the drops phases 2 and 3 side by side on the interface. The lens reaches over the interface with both phases above and below it, the drops do not touch each other, also not over the periodic border, and are equal as drawn.", "quantifier": "all domain sizes, earlier states and cells", "why_tests_cant": "relative slices are rounded for each size; a test looks at the default sizes", "anchors": ["src/lbmpy/phasefield/experiments2D.py: liquid_lens_setup, create_two_drops_between_phases", "src/lbmpy/phasefield/phasefieldstep.py: PhaseFieldStep.set_concentration"]}
{"id": "C80", "title": "Profile experiments compare the cells around the interface and run whole rounds", "statement": "The tanh experiment returns the average deviation, over the twenty cells around the first interface, from the analytic profile centred where the sharp interface was set; it is zero exactly for this profile, and every domain can be evaluated. The Galilean invariance experiment captures each profile after whole rounds through the periodic domain, to within a fraction of a cell, for every number of rounds and either direction.", "quantifier": "all domain sizes, profiles, widths, velocities and numbers of rounds", "why_tests_cant": "tests use one domain size, velocity and number of rounds; windows of short domains and the sum of the rounding over the rounds are not seen", "anchors": ["src/lbmpy/phasefield/experiments1D.py: tanh_test, galilean_invariance_test"]}
