# Formal model of haranjackson/phd (C++ solver) in Rocq

The modelled code is `/repo/code/cpp/src` (first-party) and the parts of `/repo/code/cpp/include/skfmm` that
`multi/pfmm.cpp` uses (`heap`, `base_marcher`, `distance_marcher`). The Rocq sources are in `rocq/theories`.

## 1. How the code is modelled

* **One Gallina function per C++ function**, each with a comment citing file and lines. Loops become structural
  recursion or bounded recursion (`for_loop`), external numerical kernels (Eigen SVD, eigen solver, LU solve) become
  section variables, i.e. universally quantified arguments of the theorems.
* **Undefined behaviour is an outcome.** Code whose properties concern memory runs in the result type
  `res A := Ok a | UB why | Throw why`; buffers have a length and cells that may be uninitialised; out-of-range
  accesses and reads of uninitialised cells are `UB`, C++ exceptions are `Throw`.
* **Numbers.** `int` is unbounded `Z`/`nat` (no overflow). `double` is, per file,
  (a) an arbitrary totally ordered type (heap), (b) the reals `R` (algebraic and differential properties: no rounding),
  (c) `xr`, reals plus `+inf`, `-inf`, `NaN` with IEEE comparison and division rules (where NaN/inf decide control flow).
* **Compile-time options** (`options.h`: `N`, `LSET`, `MULTI`, `THERMAL`, ...) are parameters, so theorems cover every
  configuration unless a hypothesis says otherwise.
* Files: `*Model.v` (definitions only), `*Spec.v` (small independent specifications), `*Proof.v` (lemmas),
  `*Props.v` (the property theorems, each `exact lemma`, with `Print Assumptions`, and `Example`s showing the
  hypotheses are satisfiable).

## 2. Plan per property

| Property | Model | Proof |
|---|---|---|
| C01 C02 C03 C04 | heap.cpp over arrays and an abstract total order | invariant (heap order, back pointers, permutation) over any op list; refinement to a finite map; refutations for push-after-pop overflow and for the off-by-one in `test()` |
| C05 C06 C07 C08 | base/distance marcher over `R`, neighbour function of the grid, heap model | state invariant over the march loop with counting measure; sign invariant; refutation for 0<phi<=eps and for single-signed fields |
| C09 C10 C11 C12 | `boundaries1/2` on buffers of cells | loop invariants; real algebra for wall energy |
| C13 | `extend_mask` as the shadowed loops, `interfs*` face guards | loop invariants, pointwise characterisation |
| C14 C15 C16 | slab arithmetic, threads as action lists over a shared array | arithmetic; commuting disjoint writes, induction on interleavings; WENO locality for 1-D; rational witness against 2-D; whole runs by induction on turns, each step being a formula with no threads in it (C91) |
| C17 C18 C19 C20 | `interfs*`, `centers*`, `fluxes`, `weno`, `rhs1` over `R` | telescoping sums; shift invariance; basis identities |
| C21 C22 C23 C24 | `weight`, `coeffs`, matrices from `poly` | linear algebra with exact inverse as hypothesis; polynomial integrals; UB model for the accumulator |
| C25 C26 C27 C28 | poly/lagrange/legendre | induction on coefficient lists, Coquelicot/Reals derivatives |
| C29 C30 C31 C32 | `kron`, DG matrices, predictors | induction, polynomial integration by parts; buffer model with uninitialised cells |
| C33 C34 C35 C36 C37 | iterator.cpp over `xr`/`R` and abstract steppers | loop invariants over runs |
| C38 C39 C40 | utils.cpp on 3x3 matrices | real algebra, SVD as hypothesis |
| C41 C42 C43 C44 C45 C46 | fill.cpp, functions.cpp on grids | pointwise characterisation, BFS invariant, refutation witnesses |
| C47 ... C54 | system/ over `R` | `is_derive`, `ring`/`field`/`nra`; C52 with a reference temperature by comparison with the same material at reference temperature 0 (JacProps.v) |
| C55 C56 C57 C58 | rotations, riemann, conditions | real algebra |
| C59 C60 C61 | relaxation, rk | real analysis; `xr` for NaN; order of the scheme by expansions in the step with one constant along a whole trajectory, stability, and a discrete Gronwall bound |
| C62 C63 C64 | newton_krylov, lgmres control flow | fuel-free bounded loops, invariants |
| C65 | the quadratic of distance_marcher | real algebra |
| C66 | eig.cpp, waves/*.cpp | eigenvalues of the system matrix, with heat conduction reduced to those of the 4x4 acoustic tensor (ThermProof.v); refutation along the second axis |
| C67 C68 C69 C70 | conditions.cpp (stick), utils.cpp, fill.cpp | real algebra, frame conditions of the loops |
| C71 | relaxation/numerical.cpp, body force | exact flow of the linear equations (derivatives) |
| C72 C73 | lgmres.cpp, newton_krylov.cpp | least squares optimality over the Krylov space; one Newton step on affine problems |
| C18 C20 C74 | AderModel.v: the whole step, composed of the other models | simulation between the step on cells that may be NaN and the finite volume update; periodic images; basis identities |
| C75 C76 C77 | HomogModel.v: the half step and the whole split step | the step is relaxation, finite volume update of the half-stepped reconstruction, relaxation (SplitProof.v); then as for C18, C20, C74; interpolation by the Lagrange basis |
| C78 | StiffModel.v: split/numeric.cpp | summation by parts of the time operator: sum of the rows, energy of the rows |
| C79 C80 | MultiModel.v: energy/multi.cpp on top of the Newton model | the volume law by algebra, the other two equations from the residual; implicit differentiation along equilibrium curves |
| C83 C84 C85 C86 | RunModel.v: the main loop with the parallel steppers, ghost cells and masks in it | every stage returns on any initialised data (SafeProof.v); one turn with one material in closed form; invariants over runs and snapshots; what the threads compute is the serial step; a finishing schedule exists for every number of threads |
| C82 | FvBody.v: endpts, derivs | interpolation by the Lagrange basis |
| C81 | RConsModel.v: eigen, riemann_constraints, Eigen's inverse, QR and eigenvalue routines as oracles with their contracts (RConsSpec.v) | the block structure of the 5x5 system gives the inverse of its upper rows in closed form; chain rule along the primitive variables; the wave from the structure of the system matrix (C66), with and without heat conduction (ThermProof2.v, ThermProof3.v). The temperature moves by the request plus the slope of the reference curve, so it is missed as soon as a reference temperature is set |
| C87 | RConsModel.v: eigen | chain rule along each column (EigProof.v), the rows of the system matrix of C52 read backwards; independence by applying the acoustic tensor to a vanishing combination; refutation at half the reference density. With heat conduction nine columns are waves and six are left at zero (ThermProof4.v, ThermProps.v) |
| C88 | FillModel.v, FmmModel.v on a line | the fast marching gives exact distances on a line with one sign change (MFillProof.v); loop invariants of the two filling loops (MFillProof2.v); refutation where the far probe leaves the array |
| C89 C90 | MRunModel.v: the program of RunModel.v with FillModel.v and RiemannModel.v in it | one turn with several materials in closed form; safety, end and invariants by induction on the turns (MRunProof.v, MRunProof2.v); totality of the steps for any mask |
| C91 C92 C93 | RefSpec.v: one step written cell by cell, without arrays, threads or ghosts | refinement: the serial steps compute the formula (RefProof.v, RefProof2.v), if the functions handed over give numbers on the states this step hands to them (met1, met2), the parallel program computes the serial step (RunProof3.v), a run only depends on what its steps compute (RefProof3.v); the formula is local and commutes with shifts (RefProof4.v), and so does a run (RefProof5.v). The theorems named `_met` (also of C84, C94, C95, C97) ask for numbers only at the states a run hands to the solver (`handed`, RunProof2.v; HandProps.v) |
| C94 C95 | the formula of RefSpec.v; MirrorSpec.v: the mirror image of a state; the constitutive functions of PhysInst.v | symmetry of the tables under x -> 1 - x (MirrorProof.v), of equations and fluxes (MirrorProof2.v), of one step (MirrorProof3.v); a run of copies of a state is the copies of the run (MirrorProof4.v); the constitutive functions, changes of variables and walls commute with the mirror (MirrorProof5.v), so do the Jacobians and the absolute value of a matrix (MirrorJac.v) and the relaxation (MirrorRelProps.v); states met by a run from rest (SymGasProps.v) |
| C96 | the analytic step of RelaxModel.v with an arbitrary SVD routine | uniqueness of singular values and, for different ones, of the pairs of directions up to sign (FrameProof.v); refutation: an axially symmetric distortion commutes with a quarter turn, the relaxed one has three different stretches |
| C97 | the formula of RefSpec.v in one and two dimensions | data constant along y are reconstructed, predicted (FlatProof3.v), half-stepped and summed as on the line (FlatProof.v); the run through the copies of MirrorProof4.v (FlatProof2.v, FlatProps.v) |
| C98 | rhs1/rhs2, obj1/obj2, the initial conditions and the predictor of one cell (DgModel.v) | rows of the system written as the equations at a node (PredSpec.v): summation by parts turns the time matrix into a time derivative plus a jump, the table of derivative products into nodal slopes (PredProof.v); the last Picard iterate, the root of the residual, and polynomial solutions (PredProps.v) |
| C99 | the formula of RefSpec.v; RestSpec.v: states at rest, materials in equilibrium there; walls, relaxation, corrections and Jacobian of the code | at rest every flux is the pressure alone, so reconstruction, half step or predictor, and all differences of fluxes leave momentum and energy alone (RestProof.v, RestProof2.v); walls and corrections keep the set (RestProof3.v); relaxation sees no anisotropy, and a difference of states at rest is in the kernel of the system matrix (RestProof4.v); densities that vary little are reconstructed positive (RestProof5.v); runs by invariants (RestProps.v) |
| C100 | the whole program of RunModel.v with the constitutive functions, relaxation, reaction laws and predictor of the code; ScaleProof3.v: `similar` (the material in the new unit), `slower` (the rate laws) | every increment of the finite volume sums, the half step, the right-hand side of the predictor, the relaxation and the Runge-Kutta step is the same function after the change of unit (ScaleProof1.v, ScaleProof3.v), so the threads do the same; the loop takes steps longer by the factor (ScaleProof2.v); no hypothesis on the states, NaNs and errors included. Left out: level sets (they are lengths and would scale too). The team may depend on the step: it is asked to be the same in the new unit |
| C101 | the loop of IterModel.v around the step of RunModel.v; SignalProof.v `passes`: the states of a run after n turns | induction on turns with C92 for the step and cell-by-cell corrections; two things look at the whole grid: the time step (hypothesis in_time; constant wave speeds meet it, constant_in_time) and the test for contortion, by which one contorted cell has the distortion of every cell reset (signal_speed_refuted) |
| C102 | PlaneSpec.v: `across` lists the components that change sign when direction e is reversed, `plane` says they vanish; the step of RunModel.v and the loop of IterModel.v | plane vectors are a linear space that reconstruction, interpolation, fluxes, non-conservative products, boundary cells, the predictor's linear solve and iteration, relaxation and distortion corrections keep; induction on turns. for Roe's and Osher's flux the system matrix of a plane state does not couple the two sides, block by block, and by uniqueness of the absolute value a correct eigen-solver keeps the plane. Partial: without ROT (with it the claim is refuted), without a reaction, one material; the functions handed over give numbers at the states met; the SVD (where exactly two stretches are equal) the root finder of the stiff predictor and, with Roe's or Osher's flux, the eigen-solver where the matrix is not diagonalisable do not leave the plane |

Every property can be expressed in a model; none is planned as not applicable.

## 3. Trusted base

Coq 8.16.1 kernel; what `Print Assumptions` lists per theorem (section 5); the reading of the C++ source, stated in the
comments of the `*Model.v` files. No axiom is declared in this development. Other libraries used: Coquelicot and
mathcomp's ssreflect (as a dependency of Coquelicot), which add no axioms. The axioms that appear are those of the
standard library's real numbers and classical logic:

* `ClassicalDedekindReals.sig_forall_dec`, `ClassicalDedekindReals.sig_not_dec`: decidability used in the construction of `R`;
* `FunctionalExtensionality.functional_extensionality_dep`: used by the standard library's reals and here to identify states;
* `Classical_Prop.classic`: from the standard library's analysis (limits, derivatives).

`vcheck` also lists `Coq.Reals.Rdefinitions.RbaseSymbolsImpl.*`, `RinvImpl.*` (opaque definitions of the reals, sealed by
a module type in the standard library) and `Coq.ssr.ssrunder.Under_rel.*` (opaque constants of ssreflect's `under`
tactic): parameters of standard library modules that are loaded, not assumptions of the theorems.

External kernels are universally quantified, with the equation they are meant to satisfy as a hypothesis where one is
needed: Eigen's SVD, eigenvalue solver, LU/QR solves, `nonlin_solve` inside the predictor, user functions and
constitutive functions (`phys`) in the solver theorems.

## 4. What is modelled, and what is not

| Source (`/repo/code/cpp`) | Model | Left out or simplified |
|---|---|---|
| include/skfmm/heap, base_marcher, distance_marcher; src/multi/pfmm.cpp | HeapModel, FmmModel | second order and narrow band branches (never selected by pfmm.cpp); rounding |
| src/etc/grid.cpp | GridModel | cells instead of doubles (every access is a whole cell) |
| src/scipy/poly, legendre; solvers/poly | PolyModel, LegendreModel | eigenvalue solver is an oracle |
| src/scipy/newton_krylov, lgmres | KrylovModel | QR and least squares are oracles; finite values |
| src/solvers/weno | WenoModel | LU solve is an oracle |
| src/solvers/dg | DgModel | a NaN makes its whole block NaN; the old body of the stiff initial guess, commented out in the source, is not modelled |
| src/solvers/fv, system/equations.cpp | FvModel, FvBody, EqModel | constitutive functions are a record, instantiated in PhysInst |
| src/solvers/split | StepperModel, HomogModel, RelaxModel, StiffModel | the loop of midstepper is stricter than the code: it reads a whole block even where the mask is off |
| src/solvers/steppers.cpp | StepperModel, AderModel | threads are interleavings of atomic reads and writes of cells |
| src/solvers/iterator.cpp, utils.cpp | IterModel, UtilsModel, RunModel, MRunModel | steppers and ghost filling are arbitrary functions in IterModel; RunModel puts the steppers, ghost cells and masks in their place, MRunModel the ghost filling with its star states (LSET > 0); the buffers ub and maskb, which the C++ reuses, are fresh in each turn; a NaN after a step ends the modelled run |
| src/multi | LevelSetModel, FillModel | two dimensions at most, as in the code's own dispatch |
| src/system/energy, functions, variables, waves, jacobians, eig | PhysModel, PhysInst, MultiModel | `pow` is `Rpower` on positive bases |
| src/system/multi | RiemannModel, RConsModel | in RiemannModel the matrices of `riemann_constraints` are a parameter, which C81 ties to RConsModel; Eigen's inverse, QR solve and eigenvalue decomposition are oracles. The example `exact_routines` that such oracles exist uses the standard library's `constructive_indefinite_description`; no theorem does |
| src/system/relaxation | RelaxModel | NaN and infinities as `None` |
| src/etc/debug.cpp, bindings, CMake | none | printing and Python conversion only |

Rounding of doubles is not modelled except where NaN, infinities or overflow to the largest double decide a branch.

## 5. Assumptions of every theorem in MANIFEST.json

Printed by `Print Assumptions` for each theorem; grouped by the set of axioms.

* **closed under the global context (no axioms)**: `heap_history_refines_bag`, `heap_push_safe_iff_partial`, `heap_capacity_refuted`, `heap_selftest_partial`, `heap_selftest_refuted`, `boundaries_1d_correct`, `boundaries_2d_correct`, `boundaries_interior`, `boundaries_small`, `boundaries_periodic`, `boundaries_transmissive`, `extend_mask_1d`, `extend_mask_2d`, `slabs_tile`, `slabs_balanced`, `weno_every_cell_partial`.
* **`sig_forall_dec`**: `kron_short_lists`.
* **`functional_extensionality_dep`, `sig_forall_dec`**: `masked_cells_get_all_faces_1d`, `masked_cells_get_all_faces_2d`, `ader_para_schedule_independent`, `split_para_schedule_independent`, `ader_para_race_free`, `split_para_race_free`, `ader_para_is_serial_partial`, `split_para_is_serial_partial`, `ader_para_is_serial_refuted`, `fv_launcher_1d`, `fv_launcher_2d`, `fv_conserves_1d`, `fv_conserves_2d`, `ader_periodic_conserves_1d`, `ader_periodic_conserves_2d_partial`, `ader_history_conserves_1d`, `ader_history_conserves_2d_partial`, `flux_adds_physical_flux`, `flux_consistent_partial`, `flux_consistent_refuted`, `fv_uniform_1d`, `fv_uniform_2d`, `weno_every_cell_refuted`, `oscillation_uninitialised_refuted`, `poly_product`, `poly_scaled`, `poly_success`, `basis_lagrange`, `legval_correct`, `legendre_small`, `kron_is_kronecker_product`, `dg_residual_is_linear_system_1d`, `dg_residual_is_linear_system_2d`, `predictor_writes_converged_cells_partial`, `predictor_writes_contractions`, `predictor_writes_stiff`, `predictor_nan_2d_refuted`, `timestep_respects_cfl`, `nan_speed_unlimited_refuted`, `make_u_assembles`, `make_u_too_few_grids_refuted`, `limit_concentration_bounds`, `interface_cells_1d`, `materials_cover_refuted`, `finite_difference_affine`, `finite_difference_narrow_refuted`, `devGsq_is_shear_measure`, `bdot_is_block_partial`, `bdot_is_block_refuted`, `rotate_back`, `slip_conditions_partial`, `slip_conditions_refuted`, `runge_kutta_returns`, `runge_kutta_returns_refuted`, `split_periodic_conserves_1d`, `split_periodic_conserves_2d_partial`, `interp_nodes_1d`, `interp_nodes_2d`, `face_values_1d`, `face_values_2d`, `step_safe`, `threads_safe_and_deterministic`, `finishing_exists`, `right_eigabs_mirrors`, `correct_svd_handless`, `flux_mirror_multi_refuted`, `symmetric_wall_is_mirror`, `symmetric_wall_thermal_refuted`, `right_solver_plane`.
* **`functional_extensionality_dep`, `sig_forall_dec`, `sig_not_dec`**: `fmm_safe`, `fmm_dim_limit`, `fmm_sign_partial`, `fmm_sign_refuted`, `fmm_no_interface_zero`, `fmm_all_cells_partial`, `fmm_all_cells_refuted`, `renormalize_keeps_material_partial`, `renormalize_material_refuted`, `gauss_companion`, `fill_neighbor_safe_partial`, `fill_neighbor_edge_refuted`, `fill_neighbor_gradient_refuted`, `materials_partition_partial`, `rotation_matrix_is_rotation`, `newton_returns_partial`, `newton_at_root`, `newton_step_tolerance`, `newton_refuted`, `line_search_step`, `line_search_may_grow`, `lgmres_returns_partial`, `lgmres_refuted`, `fmm_eikonal`, `gmres_optimal`, `gmres_converges`, `lgmres_augmented`, `lgmres_monotone`, `jacobian_affine`, `newton_affine`, `ghost_cells_1d`, `ghost_cells_1d_overrun`, `ghost_cells_edge_refuted`.
* **`classic`, `functional_extensionality_dep`, `sig_forall_dec`**: `interface_cells_2d`.
* **`classic`, `functional_extensionality_dep`, `sig_forall_dec`, `sig_not_dec`**: `dynamic_similarity`, `similar_run`, `step_similar`, `code_predictor_similar`, `code_speed_similar`, `relaxation_scale`, `source_scale`, `signal_speed_1d_partial`, `signal_speed_2d_partial`, `signal_speed_refuted`, `step_plane_partial`, `run_plane_partial`, `code_plane_setup`, `code_matrix_level`, `plane_rotation_refuted`, `wall_momentum_partial`, `wall_energy_partial`, `boundaries_wall_partial`, `wall_energy_refuted`, `run_thread_count_partial`, `run_thread_count_materials_partial`, `ader_periodic_conserves_2d_refuted`, `ader_uniform_1d`, `ader_uniform_2d`, `weno_average_1d`, `weno_average_2d`, `weno_exact_1d`, `weno_exact_2d`, `weno_systems_nonsingular`, `weno_weights_convex`, `oscillation_gram_partial`, `poly_derivative`, `poly_nth_derivative`, `poly_integral`, `legder_correct`, `gauss_exact_rule`, `gauss_symmetry_partial`, `gauss_symmetry_refuted`, `dg_residual_roots_are_fixed_points_1d`, `dg_residual_roots_are_fixed_points_2d`, `dg_summation_by_parts`, `gauss_dg_basis`, `predictor_writes_every_cell_refuted`, `run_terminates`, `run_ends_at_final_time`, `snapshots_partial`, `snapshot_in_range`, `abort_output`, `abort_in_last_percent_refuted`, `renorm_restores_mass`, `renorm_idempotent`, `reset_preserves_pressure`, `rotate_preserves_stress`, `fill_layers`, `fill_boundary_safe_partial`, `fill_boundary_schedule_partial`, `fill_boundary_schedule_refuted`, `eos_derivatives_partial`, `temperature_derivative_refuted`, `pressure_energy_inverse`, `conversions_round_trip_partial`, `permuted_conversions_round_trip`, `conversions_round_trip_refuted`, `devGsq_gradient`, `stress_symmetric`, `stress_derivatives`, `stress_derivative_column`, `jacobians_partial`, `flux_derivative_with_heat`, `jacobians_refuted`, `source_dissipates`, `source_heats`, `rotation_preserves_thermodynamics`, `flux_covariant`, `star_state_terminates`, `star_state_at_rest`, `slip_step_velocity`, `relaxation_keeps_partial`, `relaxation_zero_partial`, `relaxation_measures_partial`, `relaxation_source`, `anisotropy_equations`, `relaxation_linearised`, `relaxation_time_partial`, `relaxation_zero_refuted`, `relaxation_overshoot_refuted`, `relaxation_time_refuted`, `reaction_step`, `reaction_step_total`, `reaction_nan_burns`, `runge_kutta_values`, `exact_affine_solves`, `runge_kutta_order`, `arrhenius_step_order`, `wave_speeds_bounded_heat_partial`, `wave_speeds_bounded_partial`, `estimate_bounds_flow`, `wave_speeds_bounded_refuted`, `stick_step_velocity`, `contorted_spec`, `reset_cures`, `rotation_keeps_orientation_refuted`, `ghost_filling`, `thermal_relaxation_partial`, `thermal_relaxation_keeps`, `body_force_step`, `thermal_relaxation_refuted`, `ader_total_1d`, `ader_total_2d`, `split_code_conserves_1d`, `split_code_conserves_2d_partial`, `relaxation_adds`, `relaxation_returns`, `split_uniform_1d`, `split_uniform_2d`, `split_periodic_conserves_2d_refuted`, `half_step_1d`, `half_step_2d`, `split_total_1d`, `split_total_2d`, `stiff_returns`, `stiff_galerkin`, `stiff_balance`, `stiff_bounds`, `stiff_equilibrium`, `stiff_stable`, `stiff_contractive`, `stiff_unique`, `mixture_returns`, `mixture_of_one_material`, `mixture_pressure`, `mixture_density_derivative_partial`, `mixture_density_derivative_refuted`, `mixture_pressure_derivative_partial`, `mixture_pressure_derivative_refuted`, `constraints_defined`, `correction_changes_tractions`, `correction_impedance`, `correction_is_wave`, `correction_is_wave_partial`, `correction_temperature`, `correction_temperature_refuted`, `star_step_matches_tractions`, `star_step_frees_surface`, `slopes_1d`, `slopes_2d`, `run_never_undefined`, `run_ends_or_nan`, `run_completes`, `run_completes_met`, `run_conserves`, `run_energy`, `run_code_conserves`, `steady_split`, `steady_ader`, `eigenvectors_partial`, `eigenvectors_acoustic_partial`, `eigenvectors_heat_partial`, `eigenvectors_refuted`, `eigenvectors_heat_refuted`, `ghost_filling_1d`, `many_materials_run_safe_partial`, `many_materials_run_ends_partial`, `two_materials_run_safe`, `two_materials_run_ends`, `two_materials_run_completes`, `many_materials_run_refuted`, `voids_stay_empty`, `step_computes`, `step_computes_met`, `run_computes`, `run_computes_met`, `run_computes_met_program`, `domain_of_dependence_1d`, `domain_of_dependence_2d`, `step_translates_met_1d`, `step_translates_met_2d`, `run_translates_met_1d`, `run_translates_met_2d`, `step_translates_1d`, `step_translates_2d`, `run_translates_1d`, `run_translates_2d`, `step_mirrors_met_1d`, `run_mirrors_met_1d`, `step_mirrors_1d`, `run_mirrors_1d`, `gpr_mirrors`, `code_mirrors`, `relaxation_mirrors`, `relaxation_handless`, `ader_handless`, `step_at_wall_met`, `run_at_wall_met`, `step_at_wall`, `run_at_wall`, `relaxation_frame_partial`, `relaxation_frame_refuted`, `step_flat_met`, `run_flat_met`, `run_flat_ends_met`, `step_flat`, `run_flat`, `run_flat_ends`, `ader_flat`, `residual_is_defect_1d`, `residual_is_defect_2d`, `written_cells_solve_1d`, `written_cells_solve_2d`, `stiff_cells_solve_1d`, `stiff_cells_solve_2d`, `end_of_step_1d`, `end_of_step_2d`, `mean_of_step_1d`, `mean_of_step_2d`, `exact_solutions_solve_1d`, `step_rests`, `step_sharp`, `step_nothing`, `run_rests`, `run_sharp`, `run_sharp_ends`, `predictor_rests`, `step_met`, `rest_handed`, `rest_handed_met`, `gas_step_rests`, `gas_run_rests`, `gas_run_ends`.

## 6. Where the code does not do what the property says

Each entry is backed by a theorem named `..._refuted`, or by the hypothesis of a `_partial` theorem.

* **heap**: the array bound is checked against the number of pushes, not the number of live entries: push after pop
  overruns the arrays (C03). The self test never compares the last entry with its parent (C04).
* **fast marching**: a value in `(0, eps]` is treated as frozen with the wrong sign or skipped (C06, C07); a field without an
  interface is returned as zeros, which a level set then keeps (C08); more than 12 dimensions overflow the member
  arrays (C05); `distance` ignores the error code 2.
* **walls**: with DESTRESS the distortion of ghost cells is replaced but the total energy is not corrected (C12).
* **fluxes**: `flux` assigns instead of adds the concentration entry, halving it with MULTI (C19); `Bdot` writes nothing
  without VISCOUS (C53); `D_RUS` is defined twice.
* **WENO**: `oscillation_indicator` accumulates into uninitialised storage (C24); with NO_CORNERS the edge columns of a grid one cell
  wide have no stencil and come out NaN (C23), the 2-D result depends on the number of threads (C16), and periodic grids
  do not conserve (C18 and C75: one step, unsplit or split, of an ideal gas at rest with one lighter cell changes the total mass, CornerProps.v).
* **distortion reset**: one contorted cell has the distortion of the whole grid reset, so a signal crosses the grid in one turn (C101).
* **rotation of the distortion**: with ROT every tenth turn replaces the distortion by one whose rows are sorted by stretch; a cell stretched most across a plane of motion gets a shear across it (C102, `plane_rotation_refuted`).
* **relaxation**: where exactly two stretches are equal, whether plane motion stays plane depends on which singular vectors Eigen picks (C102, `correct_svd_level`).
* **Gauss nodes**: the symmetrisation aliases its own operand (C28).
* **predictor**: cells whose iteration does not converge within DG_IT steps are never written (C32);
  `stiff_initial_guess` assigns N^2 rows to blocks of N in 2-D (C32); `kron` of fewer than two matrices indexes out of range (C29).
* **iterator**: `std::max` ignores a NaN wave speed (C33); the NaN exit writes past the output when at least 99 of 100 snapshots
  are taken, one snapshot per step leaves the others empty (C35); `make_u` reads `grids[mi]` out of range with too few
  materials and averages level sets of void materials (C36); `t + (tf - t)` may round below `tf` in doubles.
* **distortion**: `rotate_distortion` may flip the sign of det A (C69); its segment overruns the cell without VISCOUS.
* **ghost filling**: a zero gradient gives NaN and an undefined cast to int, indices leave the upper edge (C43): on a line, the far probe of
  a material on the left reads one cell past the end when the interface is in the half cell before the last centre (C88, C89); a
  state with the first level set negative and the second positive is claimed by no material (C45); the 2-D boundary
  fill depends on the schedule (C44); `finite_difference` copies x-derivatives when ny = 2 (C46); isolated cells are
  refilled every round; with two materials the second level set is ignored.
* **equations of state**: dT/drho is wrong unless the reference temperature is zero (C47, C52); `Cvec` adds the reaction
  energy when MULTI is compiled in, `internal_energy` subtracts it only for reacting materials (C49); `dsigmadrho` and
  `check_star_convergence` divide by the shear speed.
* **Riemann problem**: with THERMAL `slip_bcs` assigns YL twice and leaves YR uninitialised (C58); `eigen()` uses b0 where cs is
  meant, so two of its columns are no eigenvectors away from the reference density (C87); with heat conduction it leaves six columns at zero (C87); `rotation_matrix` writes past e1 for more than three components (C55).
* **wave speeds**: `max_abs_eigs` ignores the sound speed along every axis but the first (C66).
* **relaxation**: the analytic solver relaxes a SOLID whose `theta1inv` is zero, ignores BINGHAM, uses b0 instead of cs; for a
  negative skew it takes the wrong root: a zero time step changes A and raises the shear energy; the linearised
  measures go negative for strong anisotropy (C59); POWER_LAW with n = 1 gives NaN; the thermal step takes the
  reference energy for heat (C71); a NaN reaction rate sets the concentration to zero (C60); with MULTI off and a
  reacting material the concentration index is a level set; the body force adds momentum but no work to the energy.
* **mixtures**: `dEdp` keeps the partial densities fixed although equality of the temperatures moves them with the
  pressure, so it is not the derivative it is named after and the sound speed computed from it is off (C80); with a reference
  temperature `dEdrho` of a mixture is off as well, by the terms of C47 (-19/5 for -7/2 in the witness); the
  pressure of one material is cut off at zero, that of a mixture is not (C79).
* **symmetric wall**: the ghost cell's thermal impulse keeps its direction, so with heat conduction the wall is not a plane
  of symmetry (C95); with MULTI the flux of the concentration is overwritten instead of added, so it comes from the right
  state only and the scheme prefers a direction (C94).
* **Runge-Kutta**: with no steps and a NaN the launcher loops for ever (C61).
* **Newton-Krylov**: the step tolerance is inert because `dx` is shadowed (C62); the residual norm changes from the
  max norm to the 2-norm; after halving, the Armijo test uses the value of the un-halved step and the fallback full step
  can increase the residual (C63); LGMRES reads `ws[0]` when no inner iteration ran (C64) and divides by zero for a singular
  preconditioner.
- analytic.cpp 71-128: two equal principal stretches (every uniaxial strain, so every 1-D compression from rest) come out of the step as
  two different ones, and the directions they are given are whatever basis the SVD routine picked in the plane: relaxation is
  not frame indifferent there (relaxation_frame_refuted, C96).
