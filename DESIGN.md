# Formal model of lbmpy: design

Target: `mabau/lbmpy` at the pinned commit in `/repo` (Python, read as text only).
Prover: Coq 8.16.1.  All sources are in `rocq/theories`, logical prefix `Verif`.

## 1. Method

lbmpy is a code generator: it builds symbolic assignments which pystencils turns
into loops.  What a user relies on is the meaning of those assignments.  The model
is therefore a set of executable Gallina functions which mirror the Python
functions branch by branch and produce

* memory addresses (offset, index) for everything about streaming, boundaries,
  communication, sparse lists;
* values in the reals `R` (or an abstract value type) for everything about
  equilibria, collision, forcing, boundary rules, turbulence models, statistics;
* plain data (lists, records, `option`/error values) for configuration logic,
  moment combinatorics and stencil tables.

Exceptions are modelled as values (`inl err` / `None`).  Dynamic behaviour (time
loops, slice copies, link lists, sample histories) is modelled by explicit state
transition functions and folded over lists of arbitrary length.

File roles (one group per topic `X`):

* `XModel.v`  - definitions only, each citing `/repo` file and lines;
* `XSpec.v`   - the independent, small specification the theorem refers to
  (omitted where the statement needs nothing but standard library notions);
* `XProofs.v` - lemmas;
* `PropsX.v`  - only `Theorem ... exact lemma. Qed.` and `Print Assumptions`, plus the
  `Example`s that show the hypotheses are met by concrete non-trivial data.

`*_partial` marks a theorem which proves only part of a property (the missing part is
stated in the comment next to it); `*_refuted` marks a proof that the property as
stated fails for the faithful model, with a witness.  Each refutation is a finding
about the code and is listed in section 4.

## 2. Trusted base

* The Coq kernel (and `vm_compute`).
* The axioms printed by `Print Assumptions` under each theorem.  Streaming,
  communication, combinatorics and configuration theorems are closed under the
  global context.  Theorems about real numbers use the axioms of the standard
  library's reals: `ClassicalDedekindReals.sig_forall_dec`,
  `ClassicalDedekindReals.sig_not_dec`, `FunctionalExtensionality.functional_extensionality_dep`
  (and `Classical_Prop.classic` where the stdlib's real analysis uses it).
  No other axioms, and none of our own.
* Faithfulness of the model: definitions were written by reading `/repo`.
* Semantics assumed for code outside `/repo` (pystencils, sympy, numpy, CPython):
  - `inverse_direction` is componentwise negation; `have_same_entries` compares as sets;
  - `field[offset](i)` at cell x addresses slot `(x+offset, i)`;
  - a generated kernel executes, per cell, its assignments in order, reading fields when
    the right-hand side is evaluated; kernels built from in-place accessors first load
    all populations into temporaries (this is what `create_lbm_kernel` arranges);
    boundary kernels execute their assignments in program order, and an index array holds
    each link once;
  - `get_slice_before_ghost_layer`, `shift_slice` and numpy slicing/negative indices as
    written in `CommModel.v`; `argwhere` is row-major; slice assignment is overlap-safe;
  - `TimeLoop.run(n)`, synchronisation functions and the serial data handling resolve
    array names when they are called (`StepModel.v`);
  - sympy arithmetic is exact arithmetic over the reals, floating point rounding is not
    modelled; `subs`, `expand`, `Add` merging and differentiation as written in
    `CumModel.v`, `ModeModel.v`, `SimpModel.v`; `.inv()` returns a two-sided inverse or
    raises; Gaussian integrals evaluate to the moment generating function;
  - `AssignmentCollection`: `copy`, `new_merged`, `new_filtered`, `new_with_substitutions`,
    `dependent_symbols` (transitive reachability); the computer-algebra passes satisfy the
    contracts `cas_ok` and `external_ok` of `SimpSpec.v`;
  - `dataclasses.replace` runs `__post_init__` again; a set of small integers iterates in
    ascending order; `str.upper` on ASCII; numpy division by zero gives inf or nan.

Not modelled: C/CUDA code generation, floating-point rounding, MPI/waLBerla parallel
data handling, plotting, Jupyter widgets, the sympy simplifier itself, performance.

### Which parts of the code are modelled

| files in `rocq/theories` | code in `/repo/src/lbmpy` |
|---|---|
| `StencilModel` | `stencils.py`, `enums.py` tables, `advanced_streaming/utility.py` |
| `AccessModel`, `StreamModel`, `IndexModel`, `RaceModel` | `fieldaccess.py`, `advanced_streaming/indexing.py`, `advanced_streaming/utility.py`; kernels as memory transformers |
| `CommModel`, `GridModel`, `PerAccModel` | `advanced_streaming/communication.py`, `fieldaccess.PeriodicTwoFieldsAccessor` |
| `EqModel` | `maxwellian_equilibrium.py`, `equilibrium/` |
| `TransModel`, `CumModel`, `MomModel` | `moment_transforms/`, `moments.py`, `cumulants.py`, `continuous_distribution_measures.py` |
| `CollModel` | `methods/` (moment, central moment, cumulant, population form), `forcemodels.py` |
| `MacroModel` | `macroscopic_value_kernels.py`, `methods/conservedquantitycomputation.py` |
| `BoundModel` | `boundaries/boundaryconditions.py`, `boundaries/boundaryhandling.py`, `custom_code_nodes.py` |
| `RateModel`, `StatModel` | `relaxationrates.py`, `turbulence_models.py`, `non_newtonian_models.py`, `parameterization.py`, `utils.py`, `flow_statistics.py`, `methods/momentbased/entropic.py` |
| `ModeModel` | `moments.py` (classification, Gram-Schmidt, default sets), `methods/creationfunctions.py`, `methods/default_moment_sets.py` |
| `PsmModel` | `partially_saturated_cells.py` |
| `ConfigModel` | `creationfunctions.py` (LBMConfig, LBMOptimisation, create_lb_method) |
| `SparseModel` | `sparse/` |
| `StepModel` | `lbstep.py` |
| `SplitModel`, `KernelModel`, `SimpModel` | `innerloopsplit.py`, `updatekernels.py`, `methods/momentbased/momentbasedsimplifications.py`, `methods/cumulantbased/cumulant_simplifications.py`, `simplificationfactory.py` |
| `FluctModel` | `fluctuatinglb.py` |
| `CorrModel` | `methods/cumulantbased/galilean_correction.py`, `fourth_order_correction.py` |
| `WallModel` | `boundaries/wall_function_models.py`; `WallFunctionBounce` in `boundaries/boundaryconditions.py` (where density and velocity are sampled is not modelled) |
| `AcModel` | `phasefield_allen_cahn/derivatives.py`, `numerical_solver.py` and `kernel_equations.py` up to line 300 |
| `TrackModel` | `kernel_equations.py` from line 303 (`add_interface_tracking_force`, `add_hydrodynamic_force` and the initialisers) and collisions with given density and velocity under a force in `creationfunctions.py`; raw and central moments (initialisers: raw moments, that of the phase field for equilibria without density deviation) |
| `CinModel` | cumulant collisions with given density and velocity, and the velocity setting rule for cumulant methods and methods with a force (`creationfunctions.py`, `cumulantbasedmethod.py`, `macroscopic_value_kernels.py` from line 245) |
| `SpRunModel` | list-based simulation: the kernels of `sparse/update_rule_sparse.py` as loops over the fluid entries of the list, two lists swapped after each step, setter kernel (layout fzyx; the default layout is refuted in C35) |
| `CoupModel` | one time step of `phasefield/phasefieldstep_direct.py`, `phasefieldstep.py` (Lattice-Boltzmann option) and `nphase_nestler.py` on a periodic domain; the chemical potential kernel, the hydrodynamic method and the projection are parameters (see `PtModel`, `CollModel`, `SpxModel`); flags and boundaries are not modelled |
| `QeModel` | `quadratic_equilibrium_construction.py` (all but the conversion to incompressible values); expressions in the velocity are polynomials with real coefficients, `sp.solve` of the linear system is its solution computed from values at the origin and unit vectors and then checked for every coefficient |
| `CeModel` | `chapman_enskog/chapman_enskog.py` (Taylor expansion, ansatz, moments, first order solution, stress, viscosities) and `derivative.py`; expressions are expanded sums of products with real coefficients, derivatives those of first order at a point; `sp.solve` is its solution for the two-rate relation between first order moments; the check `does_approximate_navier_stokes` for methods with three rates of the second moments; the steady-state analysis is in `SteadyModel` |
| `SteadyModel` | `chapman_enskog/chapman_enskog_steady_state.py` class `SteadyStateChapmanEnskogAnalysis` (expanded equation, hierarchy of populations, recombination, continuity and momentum equation, their orders, velocity shifts of the force models); fields are given with all their derivatives, the non-commuting symbols are read as the vectors and matrices inserted for them; class `SteadyStateChapmanEnskogAnalysisSRT` for methods with one rate (hierarchy, equations and their orders, reference of `determine_viscosities`); the assertions on the shape of the expressions are left out |
| `MicroModel` | `phasefield_allen_cahn/analytical.py` `analytical_solution_microchannel`: constants, the three fields, the arrays; real numbers instead of floats, integer lengths |
| `StrainModel` | `macroscopic_value_kernels.py` `strain_rate_tensor_getter`: second moment of the non-equilibrium part, the factor, the flat field index, the choice of populations; not modelled: in-place access patterns and kernel creation |
| `PostModel` | `phasefield/post_processing.py` `get_angle`, `find_intersections`, `get_line_intersections`, `find_closest_point`, `get_triple_point_centers`, `get_triple_points`; exact numbers with infinities and NaN instead of floats, contour lines given (skimage is not modelled) |
| `MemModel` | `max_domain_size_info.py` `square_size`, `cube_size`, `convert_memory_size`, `cache_domain_size_overview`, number format of the table; queries of the machine are not modelled, real numbers instead of floats |
| `FieldModel` | `postprocessing.py` `scalar_field_interpolator`, `vector_field_interpolator`, `vorticity_2d`; numpy's gradient and scipy's multilinear interpolator after their documentation, real numbers instead of floats |
| `LensModel` | `phasefield/contact_angle_circle_fitting.py` `liquid_lens_neumann_angles` from the fitted circles on; contour lines (skimage) and the least squares fit (scipy) are not modelled, real numbers instead of floats |
| `InitModel` | `phasefield/experiments1D.py` `init_sharp_interface`, `init_tanh`; the populations set afterwards are not modelled, real numbers instead of floats |
| `SgsModel` | `utils.py` `extract_shear_relaxation_rate`, `turbulence_models.py` `add_smagorinsky_model` (search and replacement of the rate); expressions are trees, assignments are equations, so sorting is not modelled |
| `ImgModel` | `geometry.py` `add_black_and_white_image` (rotation, zoom, threshold, placement, mask of a block); the image is given as gray values, `scipy.ndimage.zoom` is the nearest pixel, exact numbers instead of floats |
| `DropsModel` | `phasefield/experiments2D.py` `liquid_lens_setup`, `create_two_drops_between_phases` (initial concentrations); relative slices with exact numbers, sizes include ghost layers, the transformation to order parameters is in C76 and the energy models |
| `ExpModel` | `phasefield/experiments1D.py` `tanh_test`, `galilean_invariance_test` (cells that are compared, deviation, time steps of a round); the simulated profile is any function of the cell, plots are not modelled |
| `PtModel` | `phasefield/analytical.py` lines on chemical potentials, gradient coefficients, pressure tensor and forces, the square-root form of `kerneleqs.py`, `symmetric_tensor_linearization`; free energies are lists of monomials with constant gradient coefficients, sympy's expansion of derivatives is modelled on a small expression type |
| `ChModel` | `phasefield/cahn_hilliard_lbm.py`, its collision with a given velocity and streaming on the unbounded lattice, `phasefield/fd_stencils.py` (the standard stencils of pystencils are a parameter) |
| `IniModel` | `creationfunctions.py` (`density_input`, `velocity_input`), `create_advanced_velocity_setter_collision_rule`, `set_first_moment_relaxation_rate` (raw and central moments, no force), `run_iterative_initialization` over abstract sweeps |
| `EosModel` | `phasefield/eos.py`, bulk part of `phasefield/high_density_ratio_model.py` (sympy's solver for the volumes at a pressure, its integrals and the caches are parameters or left out) |
| `NphModel` | `phasefield/n_phase_boyer.py` (solutions of sympy's linear systems, also the coefficients of correction and stabilisation, and one integral are parameters; the simplification of Piecewise expressions and the FD discretisation are left out) |
| `SpxModel` | `phasefield/simplex_projection.pyx` (real numbers; the mask is a set, so more than 31 phases, which overflow the 32 bit mask, are not modelled; NaN is `None`) |
| `InbModel` | `boundaries/boundaries_in_kernel.py` (the boundary's rule is given as its reads and a function; `boundary_substitutions` is never called by the library and left out; common subexpressions do not change values) |
| `ChanModel` | `analytical_solutions.py` (`poiseuille_flow`) |
| `ScnModel` | `scenarios.py` (walls of the cavity, `create_channel`), `geometry.py` (without images, see `ImgModel`, and the random components of the shear flow), `analytic_neumann_angles` of `phasefield/post_processing.py`; flag fields and masks of pystencils as assignments to sets of cells |
| `OldModel` | `oldroydb.py` (`_source`, `tauface`, `force`, `continuity`, `Extrapolation`, `ForceOnBoundary`); staggered accesses of pystencils as neighbour accesses |
| `PhaseModel`, `EnergyModel` | `phasefield_allen_cahn/contact_angle.py`, `parameter_calculation.py`, `phasefield/analytical.py`, `phasefield/contact_angle_circle_fitting.py` |

Each definition cites the exact lines.

## 3. Plan per property

| id | model | proof |
|----|-------|-------|
| C01 | accessors as address functions; kernels as memory transformers on an arbitrary lattice with a translation action (infinite lattice, torus) | one address identity per pattern: `write_t(x,i)` is `read_{t+1}(x+c_i,i)`; induction over steps |
| C02 | sequential in-place kernel over a list of cells | read set = write set per cell, disjoint between cells; fold invariant; permutation independence |
| C03 | boundary kernel = fold over a link list through `BetweenTimestepsIndexing` | slots written by links belong to non-fluid cells; induction over links and steps |
| C04 | translation arrays as lists, trivial-array elimination | list lookup equals accessor lookup |
| C05 | numpy slices, copy lists, ghost-layered arrays of any shape | each read slot is the destination of exactly one copy or interior; copies commute |
| C06 | piecewise offsets with loop counters | case analysis + modular arithmetic for all sizes |
| C07 | stencil tables and index functions | computation on finite tables; list induction for generic stencils |
| C08 | `__eq__`, `__hash__` on entry lists | refutation expected for `__hash__`; equivalence laws |
| C09 | `get_weights` tables | computation, for every exponent up to the order |
| C10 | `discrete_equilibrium` as a real function | ring identities per stencil |
| C11 | relaxation in moment / central-moment / cumulant space with abstract invertible matrices | linear algebra over lists of reals |
| C12 | force models as real functions | ring identities; weight quadrature lemmas |
| C13 | collision operator with diagonal rates | linear algebra |
| C14 | partial-sum transform | sums over stencil rearranged; matrix inverse |
| C15 | binomial shift | binomial theorem by induction on exponents |
| C16 | cumulant recursion and set partitions | induction on order |
| C17 | conserved quantity computation | field identities |
| C18 | plus-term CSE | sums over stencils with components in {-1,0,1} |
| C19 | bounce-back streaming on finite sets | slot permutation, sums over permutations |
| C20-C23 | boundary rules | field identities, sign analysis, finite tables |
| C24-C26 | closed formulas | field / order reasoning over R, `sqrt` |
| C27 | quadratic entropy | completing the square |
| C28 | Welford update | induction over sample list |
| C29 | PSM | sums |
| C30-C31 | configuration logic | case analysis; idempotence |
| C32 | exponent enumeration | list induction |
| C33 | Gram-Schmidt | induction, bilinear algebra |
| C34 | symbol table | list induction |
| C35 | sparse mapping | case analysis on flags; injectivity |
| C36 | step loop | induction on step count |
| C37 | CSE as semantic-preserving rewriting | evaluation lemmas |
| C38 | auxiliary kernels | address identities |
| C39 | moment sets | rank via explicit inverse matrices / orthogonality by computation |
| C40 | phase-field helpers | field identities, `sqrt` |
| C41 | split groups | list induction |
| C42 | fluctuation correction | linear algebra; expectation over uniform numbers |
| C43 | names of moment symbols | injectivity of the printed exponents |
| C44 | Galilean correction of cumulant collisions | cumulant collision generalised over the rule for the post-collision cumulants; linear algebra on gradients |
| C45 | fourth-order correction of cumulant collisions | as C44; bounds on rational functions; counterexamples |
| C46 | wall function models: friction velocity and Newton iteration | intermediate value theorem for existence; concavity (tangent inequalities) gives monotone, geometric convergence; counterexamples |
| C47 | wall function bounce boundary | link sums evaluated for all 3D orderings and normals with symbolic stress and weights |
| C48 | finite differences and temperature steps | moments of the canonical stencils evaluated once, polynomials by linearity over monomials, orderings by permutation; stages unfolded and compared with a separate textbook definition |
| C49 | phase-field forces | the same operators on arbitrary fields; tangential projection and Cauchy-Schwarz for the Marangoni force; the interface profile through its derivative; sub-iterations by induction over the sorted equations |
| C50 | pressure tensor | expressions with derivatives evaluated on jets of smooth fields; Euler-Lagrange and Gibbs-Duhem identities by sums over the terms of the energy; slots by enumeration of ordered pairs |
| C51 | Cahn-Hilliard method | moments from the isotropy of the weights; deviation from an explicit solution contracts by 1 - omega along each direction; stencils on all polynomials by linearity and case distinction on exponents |
| C52 | prescribed velocities, iterative initialisation | the i-th equation of a collision with given equilibrium; induction on the number of steps; induction on the rounds of the driver with the first deciding check as witness; cumulants: zeroth and first cumulant of the collision in closed form, strict weighted mean inequality; forces: shares of each force model (C64), geometric series for the repeated setter |
| C53 | equations of state, Maxwell construction | difference quotients and derivatives as explicit rational functions; mean value theorem for isotherm pieces; induction on bisection rounds with the bracket as invariant |
| C54 | n-phase model | sums over index ranges; alpha sigma v evaluated in two ways; subsets containing an absent phase cancel in pairs; pigeonhole for products of three or four phases; completing the square in the energy of a profile |
| C55 | simplex projection | fuel bounded by the number of bits still free times the phases; Michelot's argument as loop invariant (free phases shifted by a common amount, handled phases at most that shift); nearest point by the variational inequality |
| C56 | in-kernel boundaries | each link is written once, by the cell it leaves; the stores of a cell never hit what another cell reads (injectivity of the access maps); induction on the order of the cells; then the simulation theorem of C05 |
| C57 | channel flow | the populations of a row are summed over the directions leaving upwards, staying, leaving downwards, weighted with a velocity component parallel to the wall: these three numbers per row obey a closed linear recursion for every stencil; its fixed point is the profile, the difference to it decays because a quadratic energy does not grow and its decrease bounds every mode; the simulation theorem of C03 connects the recursion to the kernels, the moments up to order three of all force models and equilibria connect it to lbmpy's collisions |
| C58 | polymer stress | second moments of the full stencil weighted with 1/norm are a multiple of the unit tensor (flips and exchanges of axes are involutions of the stencil), odd ones vanish; sums over faces of a torus reindexed by the shift; matrix algebra over index functions for the source; fold over the assignment list for the update |
| C59 | stability of linear flows | energy sum f^2 / w: the linear equilibrium is its orthogonal projection onto mass and momentum (isotropy of the weights); every deviation is w times a combination of the moments, and moments of different rates are orthogonal, so the relaxed energy is a quadratic form bounded by the old one; streaming and walls by the balance of C19 applied to the squared populations; nonnegative series with bounded sums for the limit; iteration of the moments of a uniform state for the growth |
| C60 | lattice symmetry | turns are words of reflections and exchanges of axes (`SymSpec`); stencils and weights are mapped to themselves (closure under signed permutations, isotropy classes of the weights); moments of turned populations are signed moments of turned exponents, turned moment polynomials are combinations of polynomials of equal rate, the transforms are injective, hence collisions commute with turns; wall rules link by link; turned cells of grids with turned extents; induction over the steps with the simulation theorem of C05 for both simulations. Cumulants (`PropsSymC`): turning the moments renames and signs the derivatives of the generating function, and logarithm, exponential, product and sum commute with that renaming |
| C61 | shear waves | momentum, shear stress and third moment of a plane wave form a three-component linear recursion (`WaveProofs`: layers of a periodic flow, `WaveProofs2`); it is a contraction of a weighted norm for rates in (0, 2), which bounds the amplitude; an approximate slow mode with error kappa^4 per step and Duhamel's principle give the distance to exp(-nu kappa^2 n) uniformly in n; the equilibrium of each moment-based method provides the initial data, its collision the recursion (C57). Waves across oblique planes, central moments and cumulants are not covered |
| C62 | ready-made scenarios | flags of the cells of the array by cases on the indices; the mass a cavity gains on a link of the lid is minus what it gains on the mirrored link, because the weights are symmetric and lid and corners are mapped to themselves (sum over a permutation of the links), then C19 for whole simulations; with compressible methods only the two cells below the upper corners contribute; channels by cases on what drives them; rounding of halves of even numbers is exact; Neumann angles are supplements of the angles of a triangle, whose sum follows from the addition theorems |
| C63 | concentrations stay within their bounds | with a given velocity and one rate a collision is population by population a convex combination of what arrived and the share of the concentration that moves with the flow (from C52); the shares add up to one because the weights are isotropic; the difference of two runs, or of a run and a multiple of the steady state, keeps its sign by induction over the steps, as walls hand on populations of the same weight; distances by the triangle inequality and the balance of streaming (C19); counterexamples for walls of fixed concentration and methods that are not compressible |
| C64 | two-phase steps | moments of the collision with given velocity and force: the force terms of each model are evaluated on mass and momentum rows (C12 lemmas restated for a velocity that does not come from the populations), the rest relaxes to the equilibrium at the given values (C52); flux by solving the relaxation with rate 1/(1/2 + 3 mobility); total phase by the mass balance of C19; uniform phase by C49 (force zero) and induction over the steps |
| C65 | list-based = dense | one sweep writes each entry of a fluid cell once (injective list accesses), so its value is the pulled one of C35; `same_geometry` turns the pull of C35 into the arrival of the lattice (wrap of ghost layers = wrap of the lattice, wall = solid cell); induction over the steps against the ideal update, then C18 (`simulate_correct`) for each streaming pattern |
| C66 | coupled phase-field runs | a step is streaming (a permutation of the cells per direction) plus collisions: mass rows of C51 for the phases, `hydro_method` (C12 gives it for all moment-based methods) for the fluid; derivative stencils sum to zero over a periodic domain, hence no net force of a pressure tensor; linearity of the Cahn-Hilliard equilibrium in density and potential for the sum of the phases; induction over the steps |
| C67 | quadratic equilibria | identity theorem for real polynomials in several variables (`zero_polynomial`, by induction on the variables and reading the value in one variable as a polynomial that vanishes at infinitely many points), so equality of coefficients is equality for all velocities; the candidate solution is the only possible one from two dimensions on; the dictionary is followed through the loop over directions |
| C68 | Chapman-Enskog analysis | product rule on polynomials shown to be the derivative along a line (`C68_derivatives`), so polynomials with equal values have equal derivatives and only the values of the equilibrium moments matter; substitution of the solved time derivatives = evaluation at the conserving state; dropping error terms = value plus slope of the stress when velocities and their gradients are scaled by a factor (so it does not depend on how the expression is written); coefficients read off from evaluations; populations linked by linear combinations of moment polynomials with one rate |
| C69 | Steady states | induction over the orders with the linearity of the derivative operators (`C69_orders`, `C69_unique_orders`); polynomial fields: the derivatives are the derivatives, Taylor's formula is exact (multinomial Leibniz rule), each order has a degree one lower, so the sum of the orders is exactly steady, and a steady difference of two solutions loses one degree after the other (`C69_steady_states`); the equations are the differences of density and momentum between populations and equilibrium (`C69_flows`) |
| C70 | Heated channel | all fields are of the form (A + B y) cosh(w y) + (C + E y) sinh(w y) times sin(w x) or cos(w x), a family closed under derivatives; the equations are identities between the coefficients; the walls and the interface fix them; sinh a > a gives the non-zero denominators |
| C71 | Strain rate getter | the stored value is a linear function of the second moments of f - f_eq; for populations of first order in the Chapman-Enskog expansion (model of C68) these moments are known, before and after the collision; compare to the symmetric velocity gradient |
| C72 | Contour lines and triple points | positions of the candidate on both segments (parameters t1, t2); the two range filters as conditions on these; all cases of infinite slopes; induction over the pairs of segments; acos of a cosine for the angles |
| C73 | Domain sizes that fit into a memory | powers are monotone, so the root is the exact bound; induction over digit strings and white space for the parser; induction over the memories for the table |
| C74 | Interpolated fields and vorticity | induction over the axes; the interval of cell centers from the integer part; difference quotients of linear and quadratic profiles; counterexamples at the border |
| C75 | Angles of a liquid lens | a lens given by its two angles at the triple points; circles with centers on one vertical line meet in these points; tangents as rotated radii; law of cosines for the balance of tensions |
| C76 | Initial profiles of order parameters | case analysis for the sharp profile; counting by induction over the cells; tanh as logistic function, monotone and point symmetric |
| C77 | Replacing the shear rate by a local rate | solutions of the assignments; replacing a symbol is giving it another value (induction over expressions); induction over the assignments for the search |
| C78 | Images as boundaries | one lemma for the value of the mask at a cell common to a block and the region; rounding of quotients for the stretched image; the rest by cases on the borders |
| C79 | Lens and drop set-ups | value of each cell by cases on the slices; positions are characterised by inequalities and compared by linear arithmetic |
| C80 | Profile experiments | slice arithmetic by linear arithmetic, induction over the cells for the deviation, bounds of the integer part for the rounds; the position of the start profile is taken from `InitModel` |

## 4. Findings

Each line is a theorem with suffix `_refuted` (or an exact characterisation that excludes
the case); the model follows the code, so these are statements about the code.

* C05: with two ghost layers the periodicity copies miss slots.
* C08: equal stencils given as tuples and by name have different hashes.
* C09, C10: D3Q7 is a quadrature to third order only; with the default equilibrium order the first moment is not the momentum.
* C11: population form raises for some options instead of producing a rule.
* C14: the fast transform drops populations of stencils with components beyond one (D2V17).
* C15: the binomial central moment transform raises for moment sets that are not downward closed.
* C17: the compiled setter ignores `ghost_layers` and `iteration_slice`.
* C20: Bouzidi links read the second cell although it may be a wall; the documented fallback of the quadratic condition differs.
* C21: a prescribed density 0 of the velocity wall is ignored.
* C22: DiffusionDirichlet with velocity uses the wrong speed of sound; NeumannByCopy copies from walls that are one cell thick.
* C23: FreeSlip at three-dimensional edges and corners with another boundary.
* C26: QR model is 0/0 at equilibrium, Casson undefined there; model constant 0 is replaced by the default.
* C27: the closed-form entropic rate is not the maximiser with forcing.
* C29: option 2 with several relaxation rates; force field keeps old entries; in-place with several particles.
* C30: normalising twice (PSM, entropic central moments); `replace` after normalisation for nine fields; `relaxation_rate` overrides `relaxation_rates`; guard of the fourth-order correction; periodic access for `push`.
* C31: shear and bulk rate alone are rejected without higher modes; UnboundLocalError without conserved and shear modes.
* C32: `pick_representative_moments` drops classes for sets that are not closed under permutation.
* C33: a linearly dependent last moment is accepted.
* C34: user symbols `rr_0` and force symbols clash with generated names.
* C35: default layout, one-sided periodic walls, missing bulk lookups, collide-only reads pulled values.
* C36: the velocity input array is overwritten between runs.
* C37: `cse_pdfs` drops output assignments.
* C38: a two-field accessor with one array is accepted.
* C39: bulk classification accepts cross terms; order is that of the leading monomial; default sets chosen by size.
* C40: Atwood number not enforced; light density of the Taylor bubble assumes heavy density 1; droplet migration drops interface width and reference tension; wall value outside [0,1] for thin interfaces; circle intersections nan for level midpoints.
* C41: without opposing directions output stores are listed twice; order of main assignments matters.
* C42: a rotated momentum basis is accepted and momentum fluctuates; amplitudes alone are always rejected.
* C43: moment symbols collide for exponents of 10 and more.
* C44: D3Q27 with another direction ordering is rejected; missing polynomials raise TypeError while the message is built.
* C45: the correction of xxyy + xxzz - 2 yyzz uses Dx + Dy - 2 Dz, so yyzz and xxyy get each other's terms; the limiter looks at the
  x axis only; shear = bulk divides by zero; shear 14/9 (bulk 1) has no optimal rates, 8/5 gives a rate of -2; D3Q19 passes the check.
* C46: for fluid at rest the logarithmic, Spalding and Musker models divide by zero (the default start is u/100); with the logarithmic law
  a given target friction velocity that is too large makes the second Newton step take the logarithm of a negative number.
* C47: at rest the wall stress is 0/0; the wall distance is `shift - dy/2` and not `(shift - 1/2) dy`, which differ unless dy = 1; the
  constructor argument `y` is never used.
* C48: the last Runge-Kutta stage with three auxiliary fields subtracts the fourth slope, so a constant rate makes two thirds of the step;
  no or two auxiliary fields raise IndexError; the Laplacian for D3Q15 weighs x^2 y^2 by 11/6 of what isotropy needs.
* C49: the viscous force is too large by the factor tau (the non-equilibrium stress is not divided by the relaxation time); the phase
  values must differ by one or the interface force acts in the bulk; for compressible methods with zero-centred storage the first
  velocity component of a sub-iteration is the density; zero sub-iterations raise IndexError.
* C50: a free energy that consists of a single term is rejected (AssertionError); the square-root form of the bulk pressure gives
  the opposite force wherever the bulk pressure exceeds the ideal gas pressure (the absolute value under the root is not undone).
* C51: the isotropic second derivative is 3/4 of the derivative along the axis plus 1/4 of the one along the other axis, only the
  Laplacian is right, and the leading error of the Laplacian is not isotropic (factor 5/4 along the diagonals); with D3Q7 the second
  moments phi v_a v_b are lost.
* C52: with several blocks on a process `run_iterative_initialization` looks at the last block only; a second call silently uses the
  relaxation rate of the first; with `max_steps < check_residuum_after` it raises AssertionError without running a step; steps beyond the
  last whole round are never run. A central moment method with `density_input` and different rates of mass and momentum adds
  u (omega_0 - omega_1) (rho_in - rho) to the momentum.
* C52: with `density_input` a cumulant method moves the density geometrically, rho^(1-omega) rho_in^omega, and so stays behind the other methods
  (`C52_cumulant_density_refuted`).
* C52: the velocity setter of a method with a force does not lead to the prescribed velocity: repeated in homogeneous flow it settles at
  u + (1/omega - 1/2) F / rho with Guo type models and at u + F / (omega rho) with Simple, Luo and EDM (`C52_forced_setter_settles_*`, `C52_forced_setter_refuted`), so
  `run_iterative_initialization` with a force ends in ValueError once the threshold is below that distance, or with wrong velocities.
* C53: `maxwell_construction` starts its bisection at half the local maximum; if the local minimum of the isotherm is positive and
  above that level there is only one volume and the construction ends with an IndexError (van der Waals at 49/54 of the critical
  temperature).  The Carnahan-Starling critical temperature is rounded down: at the returned temperature the pressure still decreases.
* C55: `handled_mask` is cleared once and not per cell, so a phase that was negative or zero in an earlier cell does not take part in the
  redistribution of later cells; cells without any phase become NaN.
* C56: `update_rule_with_push_boundaries` with its default pattern 'pull' (or 'push') reads and writes one field, so cells see values that
  have already been overwritten; FreeSlip inside the kernel depends on the order of the cells.
* C57: with bounce-back walls the velocity profile of a forced channel has a slip `F / (2 nu) * 4/3 * (Lambda - 3/16)`; SRT methods, and TRT methods with
  another magic number, miss `poiseuille_flow` by that constant in every row; TRT with the default odd rate meets it exactly
  (`C57_slip`, `C57_srt_exact_refuted`).
* C58: `ForceOnBoundary` adds `tau^T o` per link without the weights `2 D / (A0 |o|)` which `OldroydB.force` gives the faces.  For stencils with diagonal faces
  the force on a solid is not the opposite of the force on the fluid (`C58_reaction_refuted`); for D2Q4 / D3Q6 faces it is (`C58_reaction`).  Not modelled: its
  constructor calls `super(ForceOnBoundary).__init__(name)`, an unbound super object, which raises a TypeError.
* C60: rates that differ between moments which an exchange of axes maps to each other (x^2 and y^2) make the collision depend on the orientation of the
  flow (`C60_rates_needed`); the library accepts them.
* C62: the cells of the lid's edges are walls at rest (`C62_cavity_walls`), so the lid injects mass below one upper corner and removes it below the other.  Incompressible
  methods keep the total mass (`C62_cavity_mass`); compressible ones change it in each step by U/6 times the density difference of these two cells
  (`C62_cavity_mass_compressible`, `C62_cavity_mass_compressible_refuted`).
* C62: for odd sizes `add_pipe_walls` uses `size // 2` and the profile functions `round(size / 2)` as centre: the pipe is not symmetric (`C62_pipe_wall_refuted`),
  velocities next to a wall can point backwards, and a channel of one cell divides by zero (`C62_pipe_velocity_refuted`).
* C62: `add_pipe_inflow_boundary` in two dimensions centres the parabola at the radius instead of the middle of the domain; with a diameter smaller than the domain,
  as `create_channel` passes for a diameter callback, part of the inflow is an outflow (`C62_narrow_inflow_refuted`).
* C62: `add_sphere` raises in three dimensions (`C62_sphere_3d_refuted`).  The `pressure_difference` of `create_channel` is the difference of the densities
  (`opening_at`), three times that of the pressures.
* C63: a wall of fixed concentration (`DiffusionDirichlet`) does not keep the bounds: a cell closed by walls of concentration 0 gets a negative concentration
  after one step, -1/9 of its own for D2Q9 (`C63_dirichlet_refuted`, `C63_dirichlet_case`).
* C63: with `velocity_input` and `compressible=False`, the default, the momentum does not scale with the concentration: a flow without any concentration gets
  negative populations upstream in the first step (`C63_incompressible_refuted`).  Concentrations need `compressible=True`.
* C64: `initializer_kernel_phase_field_lb` shifts the velocity by half of the force without dividing by the phase; with a compressible method the velocity of the
  initial populations is the given one only where the phase is 1 or the force 0 (`C64_initial_velocity_refuted`).
* C64: with a force model that does not put half of the force into the velocity (Simple, Luo, EDM) the interface is sharpened with mobility + 1/6 instead of the
  mobility of the parameters (`C64_flux`); the default, Guo, is right.
* C65: `SparseLbBoundaryMapper` calls a boundary object with four arguments while every boundary condition of the library takes seven, so the constructor always
  raises a TypeError; boundaries other than no-slip and periodicity are therefore not part of the list-based model (observation, not a theorem).
* C66: in the N-phase model of Nestler the order parameters are replaced by their projection to the simplex after each step but the populations are not; the next
  collision takes the projected value as density with rate 1, so the totals of the phases drift by what the projection changes (`C66_nestler_run`).
* C66: `nphase_nestler.py` computes the velocity with the conserved quantities of the method of the last phase (a variable of the loop before), which has no force:
  half of the force is missing in the velocity that moves the phases.  The array returned with `[1:-1, 1:-1, :]` contains one of the two ghost layers (observations).
* C66: the finite-difference option of `PhaseFieldStep` always uses mobility 1 (`mobilities=1`) (observation).
* C67: in one dimension (D1Q3) `C_1` and `D_1` multiply the same monomial, so the match has no unique answer (sympy returns expressions in free symbols) (observation).
* C68: `get_bulk_viscosity` (chapman_enskog.py:160-167) adds the coefficient of the bulk term to 2 mu / 3 where it must subtract it (the analysed stress is the negative of the usual one), so
  whenever shear and bulk rate differ the reported value is not the bulk viscosity of the method (`C68_bulk_viscosity_refuted`); it decreases with 1/omega_bulk and becomes negative, for example
  on D2Q9 with rates 1.9 and 1 (`C68_negative_bulk_viscosity_refuted`). The tutorial notebook 03 shows this wrong expression (5/(9 omega_shear) - 1/(3 omega_bulk) - 1/9). Equal rates hide the error.
* C68: `does_approximate_navier_stokes` only looks at derivatives that occur in the diagonal components, so a missing one does not count as the candidate 0. It accepts methods whose stress is not
  that of any Newtonian fluid, for example all that relax x^2, y^2 (z^2) with one rate and the mixed moments with another (`C68_navier_stokes_check`, `C68_navier_stokes_check_refuted`).
* C69: `_compute_momentum_equation` (chapman_enskog_steady_state.py:117-120) adds the velocity shift F / (2 rho) to an equation for the momentum, where F / 2 is needed. For compressible methods
  with a force model that shifts the velocity the reported equation is not zero in steady flows: it is F (1/rho - 1) / 2 (`C69_compressible_force_refuted`; `C69_atmosphere` is such a flow).
* C69: `determine_viscosities` always returns 5/3 of the shear viscosity as bulk viscosity (`C69_viscosities`; its docstring asks why): the third moments give twice the gradient of the divergence,
  because in the steady state no time derivative of the density removes one of them. The bulk viscosity of these methods is 2/3 of the shear viscosity (`C68_bulk_viscosity_partial`).
* C70: `analytical_solution_microchannel` uses the viscosity of the light phase for both fluids. The tangential stresses at the interface balance exactly if the argument is the mean of the two
  viscosities (`C70_stress`), so for different viscosities the result is not the solution of the channel problem (`C70_light_viscosity_refuted`).
* C70: with `transpose=False` the coordinate arrays keep the other index order: they have the wrong shape for the fields (`C70_untransposed`, `C70_untransposed_refuted`).
* C70: the x coordinates cover a period with both ends, so the last column repeats the first (`C70_last_column`); with one point per cell the points are not at the cells. A reference
  length of 2 or 3 divides by zero (`C70_defined`).
* C71: `strain_rate_tensor_getter` by default (`use_pre_collision_pdfs=False`) reads the populations after the collision, but its factor is the one for those before: the result is
  (1 - omega) times the strain rate, 0 for omega = 1 (`C71_default_refuted`, `C71_example`). With the populations before the collision it is the strain rate (`C71_strain_rate`, `C71_at_rest`).
* C71: the factor contains only the shear rate, so with a separate bulk rate the trace is the divergence times shear rate / bulk rate (`C71_bulk_rate_refuted`); for a speed of sound other than
  1/sqrt(3) the result is off by the factor 3 c_s^2 (`C71_value`).
* C71: the returned assignments contain density and velocity as free symbols that none of them defines; the tensor changes with these symbols by 3/2 omega (u_a u_b - u'_a u'_b) (`C71_free_symbols_refuted`).
* C72: `find_intersections` filters the x and the y coordinates of crossing points by separate conditions. They agree for lines in general position (`C72_general_position`) and for rising
  segments (`C72_rising`), but a falling segment that ends on the other line gives an x without a y, and building the array of points raises an exception (`C72_falling_refuted`).
* C72: crossings with horizontal or vertical segments are never found; depending on which line has the segment they are dropped or raise an exception (`C72_axis_parallel_refuted`, `C72_axis_parallel_raises_refuted`).
* C72: without crossings `get_triple_point_centers` returns an array with two empty rows, which `get_triple_points` takes for two points and raises an exception instead of returning no triple points
  (`C72_no_intersections_refuted`). The three angles add up to 360 degrees only if the branches do not all lie in one half plane (`C72_angle_sum`, `C72_angle_sum_refuted`).
* C73: the edge lengths are exact bounds (`C73_fits`), but the table prints them rounded to the nearest tenth: for every n there is a memory for which n.0 is printed and n x n cells do not fit (`C73_printed_refuted`).
  The ghost layers of the arrays are not counted: with one layer on each side the largest domain never fits (`C73_ghost_layers_refuted`).
* C74: the interpolators raise an exception for positions in the outer halves of the border cells, which are in the domain (`C74_border_refuted`, `C74_corner_refuted`).
* C74: `vorticity_2d` uses one-sided differences in the border cells: at the walls of a parabolic channel flow the vorticity is off by the curvature (`C74_channel_walls_refuted`), and for periodic domains a shift
  of the velocity is not a shift of the vorticity (`C74_periodic_refuted`).
* C75: `liquid_lens_neumann_angles` returns the angle of the phase above the drop first, whichever phase is passed as `enclosing_phase1`; if this is the phase below, the two angles are interchanged (`C75_order_refuted`).
  For a drop with more than 180 degrees at its rim the circles are confused, and the reported angle of the drop is the rest to 360 degrees (`C75_bulging_refuted`).
* C76: `init_sharp_interface` excludes both positions: between two cell indices one cell less than their distance is filled, so with the default positions the phases have 2 m - 1 and 2 m + 1 of 4 m cells (`C76_half_refuted`).
  The default of the second position is three times the first one, not three quarters of the domain, so it may lie outside (`C76_second_position_refuted`); `init_tanh` accepts positions in the wrong order and sets negative
  order parameters (`C76_tanh_order_refuted`).
* C77: with a numeric shear rate the model searches the first assignment with this number. If another quantity has the same value in an earlier assignment, its symbol is replaced instead and the model has no effect on the
  collision (`C77_equal_number_refuted`). A rate given as sympy number is replaced wherever the number appears, also where it is a weight or a factor (`C77_sympy_number_refuted`). Other rates with the same number share the
  symbol and become local too (`C77_shared_rate_refuted`).
* C78: the docstring says that cells are set where the image is black, but every pixel other than pure white is set, also gray value 254 (`C78_black_refuted`). The order of the axes in `plane` has no effect on a square region
  (`C78_plane_order_refuted`); on other regions a plane such as `(1, 0)` ends in a `ValueError` (`C78_plane_shape_refuted`).
* C79: the picture of the docstring of `create_two_drops_between_phases` shows equal drops, but the second one is half as wide as the first (`C79_equal_drops_refuted`). The lens does not always reach equally far above and
  below the interface, since its borders are rounded down (`C79_middle_refuted`).
* C80: in domains with less than 40 cells the window of the profile experiments begins before the first cell: from 20 to 39 cells it is empty and `tanh_test` ends in a `ValueError` (`C80_short_refuted`), with 19 cells one cell
  far from the interface is compared with the whole profile (`C80_single_cell_refuted`). A round of `galilean_invariance_test` is about a quarter of a cell too long, and this adds up over the rounds (`C80_rounds_refuted`).
  With a negative velocity the number of time steps is not positive (`C80_negative_refuted`).

## 5. Tests of the theorems

`seeded/LOG.jsonl` has one line per edit of the model in a scratch copy: what was edited, the
claim that breaks, the theorems that fail, and those that were tightened because they did not.
