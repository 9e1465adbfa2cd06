{
 "claims": [
  {
   "property": "C01",
   "status": "proved",
   "theorems": [
    "heap_history_refines_bag"
   ],
   "note": "refinement to a bag for every history; draining returns the live entries sorted"
  },
  {
   "property": "C02",
   "status": "proved",
   "theorems": [
    "heap_history_refines_bag"
   ],
   "note": "the bag step for set changes only the entry of its handle"
  },
  {
   "property": "C03",
   "status": "partial",
   "theorems": [
    "heap_push_safe_iff_partial",
    "heap_capacity_refuted"
   ],
   "note": "exact overflow condition proved; full claim refuted: push after pop overruns the arrays"
  },
  {
   "property": "C04",
   "status": "partial",
   "theorems": [
    "heap_selftest_partial",
    "heap_selftest_refuted",
    "heap_push_safe_iff_partial"
   ],
   "note": "self test passes on every reachable heap; it never compares the last entry with its parent, so completeness is refuted"
  },
  {
   "property": "C05",
   "status": "proved",
   "theorems": [
    "fmm_safe",
    "fmm_dim_limit"
   ],
   "note": "exact arithmetic; up to 12 dimensions, beyond that the member arrays overflow"
  },
  {
   "property": "C06",
   "status": "partial",
   "theorems": [
    "fmm_sign_partial",
    "fmm_sign_refuted",
    "fmm_no_interface_zero"
   ],
   "note": "proved when an interface exists and no value lies in (0,eps]; refuted otherwise"
  },
  {
   "property": "C07",
   "status": "partial",
   "theorems": [
    "fmm_all_cells_partial",
    "fmm_all_cells_refuted"
   ],
   "note": "proved when no value lies in (0,eps]; refuted otherwise (cell left at the largest double)"
  },
  {
   "property": "C08",
   "status": "partial",
   "theorems": [
    "renormalize_keeps_material_partial",
    "renormalize_material_refuted"
   ],
   "note": "proved when every level set has an interface on the grid; refuted otherwise"
  },
  {
   "property": "C09",
   "status": "proved",
   "theorems": [
    "boundaries_1d_correct",
    "boundaries_2d_correct",
    "boundaries_interior"
   ],
   "note": "every cell of the extended array characterised"
  },
  {
   "property": "C10",
   "status": "proved",
   "theorems": [
    "boundaries_1d_correct",
    "boundaries_2d_correct",
    "boundaries_small"
   ],
   "note": "success, full initialisation for nx,ny >= N; undefined behaviour below N"
  },
  {
   "property": "C100",
   "status": "proved",
   "theorems": [
    "dynamic_similarity",
    "similar_run",
    "step_similar",
    "code_predictor_similar",
    "code_speed_similar",
    "relaxation_scale",
    "source_scale"
   ],
   "note": "ScaleProps.v. Any number of materials without level sets, both solvers, every outcome including errors; the schedule of the threads is the same in both runs. Split solver: a power law fluid has positive viscosity; predictor, which uses the sources: also a Newtonian fluid has exponent 1 and a Bingham fluid is no power law fluid. dynamic_similarity asks of the predictor and of the wave speeds what code_predictor_similar and code_speed_similar prove for those of the code. Example similar_case."
  },
  {
   "property": "C101",
   "status": "partial",
   "theorems": [
    "signal_speed_1d_partial",
    "signal_speed_2d_partial",
    "signal_speed_refuted"
   ],
   "note": "Proved for runs that take the same time steps and find no cell contorted (regular; the functions handed over give numbers at the states met), 2-D with NO_CORNERS off. False otherwise: one contorted cell has the distortion of every cell of the grid reset in the same turn (signal_speed_refuted: loop of the code around a step in which nothing happens, any SVD that is right on diagonal matrices). Example signal_case."
  },
  {
   "property": "C102",
   "status": "partial",
   "theorems": [
    "step_plane_partial",
    "run_plane_partial",
    "code_plane_setup",
    "code_matrix_level",
    "right_solver_plane",
    "plane_rotation_refuted"
   ],
   "note": "Proved for single steps and whole runs in 1-D and 2-D with each of the three fluxes, ROT off and one material, when the functions handed over give numbers at the states met; code_plane_setup: the equations, boundary conditions, analytic relaxation and space-time predictor of the code meet the hypotheses, without a reaction, if the SVD (where exactly two stretches are equal), the root finder and, for Roe's and Osher's flux, the eigenvalue solver do not leave the plane; the system matrix of the code does not couple the two sides (code_matrix_level), so a solver that is right about diagonalisable matrices stays in the plane there (right_solver_plane). False with ROT (plane_rotation_refuted, for every sorted SVD): every tenth turn the distortion gets the direction of the largest stretch as its first row, also when that is the direction across the plane. Missing: reactions and several materials."
  },
  {
   "property": "C11",
   "status": "proved",
   "theorems": [
    "boundaries_periodic",
    "boundaries_transmissive"
   ],
   "note": "2-D with corners; 1-D is boundaries_1d_correct"
  },
  {
   "property": "C12",
   "status": "partial",
   "theorems": [
    "wall_momentum_partial",
    "wall_energy_partial",
    "boundaries_wall_partial",
    "wall_energy_refuted"
   ],
   "note": "proved with the option DESTRESS off (as shipped); refuted with DESTRESS on"
  },
  {
   "property": "C13",
   "status": "proved",
   "theorems": [
    "extend_mask_1d",
    "extend_mask_2d",
    "masked_cells_get_all_faces_1d",
    "masked_cells_get_all_faces_2d"
   ],
   "note": "dilation characterised; with the extended mask every masked cell gets the value of the full finite volume formula"
  },
  {
   "property": "C14",
   "status": "proved",
   "theorems": [
    "slabs_tile",
    "slabs_balanced"
   ],
   "note": "The slabs of the parallel steppers cover the grid once, in order, with sizes differing by at most the ceiling rule's remainder."
  },
  {
   "property": "C15",
   "status": "proved",
   "theorems": [
    "ader_para_schedule_independent",
    "split_para_schedule_independent",
    "ader_para_race_free",
    "split_para_race_free"
   ],
   "note": "Every schedule of the interleaving semantics finishes with the same grid and no two threads write the same cell."
  },
  {
   "property": "C16",
   "status": "partial",
   "theorems": [
    "ader_para_is_serial_partial",
    "split_para_is_serial_partial",
    "run_thread_count_partial",
    "run_thread_count_materials_partial",
    "ader_para_is_serial_refuted"
   ],
   "note": "Proved in 1-D, and in 2-D when NO_CORNERS is off, for one step and for whole runs: two runs that differ in thread counts and schedules alone end in the same state, with the same snapshots and times. With NO_CORNERS on (the shipped options) the 2-D result depends on the thread count: witness refuted theorem. Whole runs: with one material the functions handed over need give numbers only at the states the run meets, with several materials on all numbers."
  },
  {
   "property": "C17",
   "status": "proved",
   "theorems": [
    "fv_launcher_1d",
    "fv_launcher_2d",
    "fv_conserves_1d",
    "fv_conserves_2d"
   ],
   "note": "for every mask; requires VISCOUS (otherwise Bdot leaves its result unwritten) and one of the three flux functions"
  },
  {
   "property": "C18",
   "status": "partial",
   "theorems": [
    "ader_periodic_conserves_1d",
    "ader_periodic_conserves_2d_partial",
    "ader_history_conserves_1d",
    "ader_history_conserves_2d_partial",
    "ader_periodic_conserves_2d_refuted"
   ],
   "note": "the composed step (ghost cells, reconstruction, predictor, finite volume update) conserves the grid total under periodic boundaries, in 1-D for every option set; in 2-D for NO_CORNERS=false only, and refuted for the shipped NO_CORNERS=true, where the ghost cells are reconstructed with other stencils than their periodic images: one step of an ideal gas at rest on a 4x3 grid changes the total mass; also for any number of steps"
  },
  {
   "property": "C19",
   "status": "partial",
   "theorems": [
    "flux_adds_physical_flux",
    "flux_consistent_partial",
    "flux_consistent_refuted"
   ],
   "note": "proved for every component without MULTI; with MULTI the concentration flux is halved"
  },
  {
   "property": "C20",
   "status": "proved",
   "theorems": [
    "ader_uniform_1d",
    "ader_uniform_2d",
    "fv_uniform_1d",
    "fv_uniform_2d"
   ],
   "note": "through ghost cells, reconstruction (conserved or primitive variables), predictor (Picard iteration or a root finder that keeps roots) and finite volume update; VISCOUS=true; with NO_CORNERS in 2-D the grid must be wide enough for the edge columns to have a stencil"
  },
  {
   "property": "C21",
   "status": "proved",
   "theorems": [
    "weno_average_1d",
    "weno_average_2d"
   ],
   "note": "exact arithmetic and exact linear solves; PRIM_RECONSTRUCT off; in 2-D with NO_CORNERS the grid must be wide enough (see C23)"
  },
  {
   "property": "C22",
   "status": "proved",
   "theorems": [
    "weno_exact_1d",
    "weno_exact_2d",
    "weno_systems_nonsingular"
   ],
   "note": "every polynomial of degree < N (tensor in 2-D); same conditions as C21"
  },
  {
   "property": "C23",
   "status": "partial",
   "theorems": [
    "weno_weights_convex",
    "weno_every_cell_partial",
    "weno_every_cell_refuted"
   ],
   "note": "convexity proved; every cell has a stencil iff the row is long enough for the gap; refuted for 2-D grids one cell wide with the shipped options (NaN)"
  },
  {
   "property": "C24",
   "status": "partial",
   "theorems": [
    "oscillation_gram_partial",
    "oscillation_uninitialised_refuted"
   ],
   "note": "Gram matrix and positivity proved if the storage is zero at entry; as written it reads uninitialised memory"
  },
  {
   "property": "C25",
   "status": "proved",
   "theorems": [
    "poly_product",
    "poly_scaled",
    "poly_derivative",
    "poly_nth_derivative",
    "poly_integral",
    "poly_success"
   ],
   "note": "exact arithmetic; exact success conditions (negative vector sizes otherwise)"
  },
  {
   "property": "C26",
   "status": "proved",
   "theorems": [
    "basis_lagrange"
   ],
   "note": ""
  },
  {
   "property": "C27",
   "status": "proved",
   "theorems": [
    "legval_correct",
    "legder_correct",
    "legendre_small"
   ],
   "note": "series given by Bonnet's recurrence; out-of-range reads for shorter inputs"
  },
  {
   "property": "C28",
   "status": "partial",
   "theorems": [
    "gauss_companion",
    "gauss_exact_rule",
    "gauss_symmetry_partial",
    "gauss_symmetry_refuted"
   ],
   "note": "exactness, symmetry and positivity proved for exact eigenvalues; the symmetrisation of arbitrary solver output is refuted (aliasing)"
  },
  {
   "property": "C29",
   "status": "proved",
   "theorems": [
    "kron_is_kronecker_product",
    "kron_short_lists"
   ],
   "note": "every list of at least two matrices; shorter lists index out of range"
  },
  {
   "property": "C30",
   "status": "proved",
   "theorems": [
    "dg_residual_is_linear_system_1d",
    "dg_residual_is_linear_system_2d",
    "dg_residual_roots_are_fixed_points_1d",
    "dg_residual_roots_are_fixed_points_2d"
   ],
   "note": "for every table of the basis; with the tables of an interpolating basis also equivalent to being a fixed point of the Picard iteration"
  },
  {
   "property": "C31",
   "status": "proved",
   "theorems": [
    "dg_summation_by_parts",
    "gauss_dg_basis"
   ],
   "note": "every order and every exact rule; Gauss rules are an instance"
  },
  {
   "property": "C32",
   "status": "partial",
   "theorems": [
    "predictor_writes_converged_cells_partial",
    "predictor_writes_contractions",
    "predictor_writes_stiff",
    "predictor_writes_every_cell_refuted",
    "predictor_nan_2d_refuted"
   ],
   "note": "written exactly when the iteration converges within DG_IT steps; a source for which no cell is ever written refutes the full claim"
  },
  {
   "property": "C33",
   "status": "proved",
   "theorems": [
    "timestep_respects_cfl",
    "nan_speed_unlimited_refuted"
   ],
   "note": "every number of materials, cells and directions, finite wave speeds; a NaN wave speed is ignored by std::max, shown by the second theorem"
  },
  {
   "property": "C34",
   "status": "proved",
   "theorems": [
    "run_terminates",
    "run_ends_at_final_time"
   ],
   "note": "on the reals; ghost filling and steppers are arbitrary terminating functions"
  },
  {
   "property": "C35",
   "status": "partial",
   "theorems": [
    "snapshots_partial",
    "snapshot_in_range",
    "abort_output",
    "abort_in_last_percent_refuted"
   ],
   "note": "proved for runs that complete and for aborted runs with room; an abort after 99% of the run writes past the output"
  },
  {
   "property": "C36",
   "status": "proved",
   "theorems": [
    "make_u_assembles",
    "make_u_too_few_grids_refuted"
   ],
   "note": "LSET+1 materials; with fewer the read is out of range, shown by the second theorem"
  },
  {
   "property": "C37",
   "status": "proved",
   "theorems": [
    "limit_concentration_bounds"
   ],
   "note": "every field"
  },
  {
   "property": "C38",
   "status": "proved",
   "theorems": [
    "renorm_restores_mass",
    "renorm_idempotent"
   ],
   "note": "every field with VISCOUS; det A not zero"
  },
  {
   "property": "C39",
   "status": "proved",
   "theorems": [
    "reset_preserves_pressure"
   ],
   "note": "every field and equation of state of a single material per cell"
  },
  {
   "property": "C40",
   "status": "proved",
   "theorems": [
    "rotate_preserves_stress"
   ],
   "note": "every field, for an exact SVD"
  },
  {
   "property": "C41",
   "status": "proved",
   "theorems": [
    "interface_cells_1d",
    "interface_cells_2d"
   ],
   "note": "every field and every grid size; the specification of the labels is in FillSpec.v and does not use the code"
  },
  {
   "property": "C42",
   "status": "proved",
   "theorems": [
    "fill_layers"
   ],
   "note": "runs that return (C43 says when they do); 2-D grids at least two cells wide in the second direction, where the code's neighbours are the grid's"
  },
  {
   "property": "C43",
   "status": "partial",
   "theorems": [
    "fill_neighbor_safe_partial",
    "fill_boundary_safe_partial",
    "fill_neighbor_edge_refuted",
    "fill_neighbor_gradient_refuted"
   ],
   "note": "safe when the gradients at the cells the filling walks to are non-zero and do not point out of the upper edges (conditions stated on the input); without them the code reads out of range or casts a NaN to int, proved by the two refutations; see C88 for the exact condition on a line"
  },
  {
   "property": "C44",
   "status": "partial",
   "theorems": [
    "fill_boundary_schedule_partial",
    "fill_boundary_schedule_refuted"
   ],
   "note": "schedule independent when no ghost cell writes a cell another one writes or reads; the refutation shows a 4x3 grid (a gap two cells wide) where two orders give different states"
  },
  {
   "property": "C45",
   "status": "partial",
   "theorems": [
    "materials_partition_partial",
    "materials_cover_refuted"
   ],
   "note": "exactly one material for nested level sets; a state with the first level set negative and the second positive is in no material"
  },
  {
   "property": "C46",
   "status": "proved",
   "theorems": [
    "finite_difference_affine",
    "finite_difference_narrow_refuted"
   ],
   "note": "grids of at least 3 cells per direction, as the property says; finite_difference_narrow_refuted shows the result is wrong on two-wide grids"
  },
  {
   "property": "C47",
   "status": "partial",
   "theorems": [
    "eos_derivatives_partial",
    "temperature_derivative_refuted"
   ],
   "note": "all derivatives of all five equations of state except dT/drho, which is right only when the reference temperature is zero"
  },
  {
   "property": "C48",
   "status": "proved",
   "theorems": [
    "pressure_energy_inverse"
   ],
   "note": "every equation of state with a non-zero Grueneisen coefficient"
  },
  {
   "property": "C49",
   "status": "partial",
   "theorems": [
    "conversions_round_trip_partial",
    "permuted_conversions_round_trip",
    "conversions_round_trip_refuted"
   ],
   "note": "proved when a concentration is compiled in exactly if the material reacts, single-material energy; refuted for an inert material with a concentration"
  },
  {
   "property": "C50",
   "status": "proved",
   "theorems": [
    "devGsq_is_shear_measure",
    "devGsq_gradient"
   ],
   "note": "every matrix and every differentiable curve of matrices"
  },
  {
   "property": "C51",
   "status": "proved",
   "theorems": [
    "stress_symmetric",
    "stress_derivatives",
    "stress_derivative_column"
   ],
   "note": "every state with admissible density and b0 not zero (the code divides by the shear speed)"
  },
  {
   "property": "C52",
   "status": "partial",
   "theorems": [
    "jacobians_partial",
    "flux_derivative_with_heat",
    "jacobians_refuted"
   ],
   "note": "every configuration with VISCOUS and one material per cell. With THERMAL the matrix is the derivative of the flux exactly when the reference temperature is zero: flux_derivative_with_heat gives the term that is missing, and jacobians_refuted shows it is missing at every state and along every direction in which the density changes (same cause as C47)"
  },
  {
   "property": "C53",
   "status": "partial",
   "theorems": [
    "bdot_is_block_partial",
    "bdot_is_block_refuted"
   ],
   "note": "proved with VISCOUS; without it Bdot writes nothing"
  },
  {
   "property": "C54",
   "status": "proved",
   "theorems": [
    "source_dissipates",
    "source_heats"
   ],
   "note": "every state with positive det A and admissible relaxation parameters for which the source is finite"
  },
  {
   "property": "C55",
   "status": "proved",
   "theorems": [
    "rotation_matrix_is_rotation"
   ],
   "note": "every unit vector of at most three components"
  },
  {
   "property": "C56",
   "status": "proved",
   "theorems": [
    "rotate_back",
    "rotation_preserves_thermodynamics",
    "flux_covariant"
   ],
   "note": "every orthogonal matrix and state"
  },
  {
   "property": "C57",
   "status": "proved",
   "theorems": [
    "star_state_terminates",
    "star_state_at_rest"
   ],
   "note": "at rest: every unit normal, both interface types and a free surface, b0 > 0 (the convergence test divides by b0)"
  },
  {
   "property": "C58",
   "status": "partial",
   "theorems": [
    "slip_conditions_partial",
    "slip_step_velocity",
    "slip_conditions_refuted"
   ],
   "note": "proved without heat conduction; with it the second matrix is uninitialised"
  },
  {
   "property": "C59",
   "status": "partial",
   "theorems": [
    "relaxation_keeps_partial",
    "relaxation_zero_partial",
    "relaxation_measures_partial",
    "relaxation_source",
    "anisotropy_equations",
    "relaxation_linearised",
    "relaxation_time_partial",
    "relaxation_zero_refuted",
    "relaxation_overshoot_refuted",
    "relaxation_time_refuted"
   ],
   "note": "det A and singular directions kept, identity at dt=0 and the measures reached: for states of moderate anisotropy / non-negative skewness; false otherwise (refuted: dt=0 raises the shear energy; NaN for strong shear; elastic solids are relaxed although their source vanishes)"
  },
  {
   "property": "C60",
   "status": "proved",
   "theorems": [
    "reaction_step",
    "reaction_step_total",
    "reaction_nan_burns"
   ],
   "note": "positive density; the value of the rate at a NaN concentration is an arbitrary double; reaction_nan_burns: a NaN rate sets the concentration to zero silently"
  },
  {
   "property": "C61",
   "status": "partial",
   "theorems": [
    "runge_kutta_values",
    "exact_affine_solves",
    "runge_kutta_order",
    "arrhenius_step_order",
    "runge_kutta_returns",
    "runge_kutta_returns_refuted"
   ],
   "note": "fourth order is proved for every rate that is five times differentiable along the solution, and carried over to the reaction step of a cell that burns by the Arrhenius law. The launcher returns for every right-hand side that returns when at least one step is asked for (the code asks for 4); for zero steps and a NaN it does not return (refuted)"
  },
  {
   "property": "C62",
   "status": "partial",
   "theorems": [
    "newton_returns_partial",
    "newton_at_root",
    "newton_step_tolerance",
    "newton_refuted"
   ],
   "note": "The solver always returns within 3(n+1) iterations with the residual of the returned point, for every function and every behaviour of the QR and linear solves, and stops early only when its test holds. The documented step tolerance is refuted: the step the test sees is the initial (infinite) one, so a step tolerance below the largest double means stopping only at a residual that is exactly zero. Doubles are reals."
  },
  {
   "property": "C63",
   "status": "proved",
   "theorems": [
    "line_search_step",
    "line_search_may_grow"
   ],
   "note": "At most 9 evaluations, step length below 3, sufficient decrease or the full step, reported residual is the one at the new point. line_search_may_grow shows the fallback to the full step can increase the residual."
  },
  {
   "property": "C64",
   "status": "partial",
   "theorems": [
    "lgmres_returns_partial",
    "lgmres_refuted"
   ],
   "note": "Termination, number of corrections, recycled vectors and the meaning of stopping early, given at least one inner iteration. Without inner iterations and recycled vectors it reads an empty vector (refuted)."
  },
  {
   "property": "C65",
   "status": "proved",
   "theorems": [
    "fmm_eikonal"
   ],
   "note": "exact arithmetic"
  },
  {
   "property": "C66",
   "status": "partial",
   "theorems": [
    "wave_speeds_bounded_heat_partial",
    "wave_speeds_bounded_partial",
    "estimate_bounds_flow",
    "wave_speeds_bounded_refuted"
   ],
   "note": "proved along the first axis, with and without heat conduction; refuted along the second"
  },
  {
   "property": "C67",
   "status": "proved",
   "theorems": [
    "stick_step_velocity"
   ],
   "note": "for every inverse routine that returns a right inverse"
  },
  {
   "property": "C68",
   "status": "proved",
   "theorems": [
    "contorted_spec",
    "reset_cures"
   ],
   "note": "for an exact SVD"
  },
  {
   "property": "C69",
   "status": "partial",
   "theorems": [
    "rotate_preserves_stress",
    "rotation_keeps_orientation_refuted"
   ],
   "note": "the modulus of det A is kept, the sign need not be"
  },
  {
   "property": "C70",
   "status": "proved",
   "theorems": [
    "ghost_filling"
   ],
   "note": "every run that returns; isolated cells (2-D) are refilled by the code and excluded in the statement"
  },
  {
   "property": "C71",
   "status": "partial",
   "theorems": [
    "thermal_relaxation_partial",
    "thermal_relaxation_keeps",
    "body_force_step",
    "thermal_relaxation_refuted"
   ],
   "note": "exact flow for the ideal gas law; for a stiffened gas the reference energy is taken for heat and the step is not the flow of the source (refuted)"
  },
  {
   "property": "C72",
   "status": "proved",
   "theorems": [
    "gmres_optimal",
    "gmres_converges",
    "lgmres_augmented",
    "lgmres_monotone"
   ],
   "note": "Real arithmetic; operator and preconditioner are matrices, the preconditioner invertible; Eigen's QR and square solver are oracles specified as a full QR decomposition and a least squares solution (instances are constructed in KrylovProof6.v)."
  },
  {
   "property": "C73",
   "status": "proved",
   "theorems": [
    "jacobian_affine",
    "newton_affine"
   ],
   "note": "Same oracles as C72; real arithmetic."
  },
  {
   "property": "C74",
   "status": "proved",
   "theorems": [
    "ader_total_1d",
    "ader_total_2d"
   ],
   "note": "for any predictor that gives the time blocks of every finite cell; predictor_writes_every_cell_refuted (C32) shows that the shipped one need not"
  },
  {
   "property": "C75",
   "status": "partial",
   "theorems": [
    "split_periodic_conserves_1d",
    "split_periodic_conserves_2d_partial",
    "split_code_conserves_1d",
    "split_code_conserves_2d_partial",
    "relaxation_adds",
    "relaxation_returns",
    "split_uniform_1d",
    "split_uniform_2d",
    "split_periodic_conserves_2d_refuted"
   ],
   "note": "2-D conservation is proved for NO_CORNERS = false; with the shipped NO_CORNERS = true it is false, and split_periodic_conserves_2d_refuted gives an ideal gas at rest that gains mass"
  },
  {
   "property": "C76",
   "status": "proved",
   "theorems": [
    "half_step_1d",
    "half_step_2d"
   ],
   "note": ""
  },
  {
   "property": "C77",
   "status": "proved",
   "theorems": [
    "split_total_1d",
    "split_total_2d"
   ],
   "note": "for any relaxation that gives numbers on numbers"
  },
  {
   "property": "C78",
   "status": "proved",
   "theorems": [
    "stiff_returns",
    "stiff_galerkin",
    "stiff_balance",
    "stiff_bounds",
    "stiff_equilibrium",
    "stiff_stable",
    "stiff_contractive",
    "stiff_unique"
   ],
   "note": "for every basis with an exact rule of degree 2n-1 (C28, C31); the stability theorems are about exact solutions of the discrete equations, stiff_returns and stiff_balance bound what an inexact one misses"
  },
  {
   "property": "C79",
   "status": "proved",
   "theorems": [
    "mixture_returns",
    "mixture_of_one_material",
    "mixture_pressure"
   ],
   "note": "the last two when the pressure is not negative"
  },
  {
   "property": "C80",
   "status": "partial",
   "theorems": [
    "mixture_density_derivative_partial",
    "mixture_density_derivative_refuted",
    "mixture_pressure_derivative_partial",
    "mixture_pressure_derivative_refuted"
   ],
   "note": "by density proved for reference temperatures 0, refuted otherwise (the reference terms, as in C47); by pressure only with frozen partial densities: along the equilibrium states dEdp is not the derivative"
  },
  {
   "property": "C81",
   "status": "partial",
   "theorems": [
    "constraints_defined",
    "correction_changes_tractions",
    "correction_impedance",
    "correction_is_wave",
    "correction_is_wave_partial",
    "correction_temperature",
    "correction_temperature_refuted",
    "star_step_matches_tractions",
    "star_step_frees_surface"
   ],
   "note": "everything in full, with and without heat conduction, except the temperature: with a reference temperature it moves by the request plus a term the code drops (finding C47), so the request is missed"
  },
  {
   "property": "C82",
   "status": "proved",
   "theorems": [
    "interp_nodes_1d",
    "interp_nodes_2d",
    "face_values_1d",
    "face_values_2d",
    "slopes_1d",
    "slopes_2d"
   ],
   "note": "the contractions with ENDVALS and DERVALS in FvBody.v against the interpolating polynomial; derivatives as Coquelicot is_derive"
  },
  {
   "property": "C83",
   "status": "proved",
   "theorems": [
    "step_safe",
    "threads_safe_and_deterministic",
    "finishing_exists"
   ],
   "note": "Any state (the arrays may hold NaN in threads_safe_and_deterministic), any mask, any thread count and schedule, NO_CORNERS on or off. The predictor is any function that returns a cell or a NaN."
  },
  {
   "property": "C84",
   "status": "proved",
   "theorems": [
    "run_never_undefined",
    "run_ends_or_nan",
    "run_completes",
    "run_completes_met"
   ],
   "note": "run_completes: the functions handed over give numbers on all numbers; run_completes_met: at the states the run hands over. One material that is not the void, LSET = 0. nan = false on fields of numbers; an abort on NaN in the last percent does write out of range, see C35. For the multi-material run see C33-C45."
  },
  {
   "property": "C85",
   "status": "proved",
   "theorems": [
    "run_conserves",
    "run_energy",
    "run_code_conserves"
   ],
   "note": "1-D with any options, 2-D with NO_CORNERS = false (with the shipped true, conservation is refuted already for one step, C18 and C75). ADER: components without a source; split: any relaxation, and the one of the code. What a reset takes away is given exactly (elastic)."
  },
  {
   "property": "C86",
   "status": "proved",
   "theorems": [
    "steady_split",
    "steady_ader"
   ],
   "note": "1-D with any options, 2-D with NO_CORNERS = false; LSET = 0; ROTATE_DISTORTION off, as shipped."
  },
  {
   "property": "C87",
   "status": "partial",
   "theorems": [
    "eigenvectors_partial",
    "eigenvectors_acoustic_partial",
    "eigenvectors_heat_partial",
    "eigenvectors_refuted",
    "eigenvectors_heat_refuted"
   ],
   "note": "without heat conduction proved at states where the squared shear speed equals its reference value b02, and for all columns but two at any state; refuted otherwise: the code passes b02 instead of the shear speed at the actual density, so the pressure column is no eigenvector. With heat conduction the first nine columns are waves and six columns are zero, so the matrix is never a basis"
  },
  {
   "property": "C88",
   "status": "partial",
   "theorems": [
    "ghost_cells_1d",
    "ghost_filling_1d",
    "ghost_cells_1d_overrun",
    "ghost_cells_edge_refuted"
   ],
   "note": "proved with room for the far probe; ghost_filling_1d says it with the star state the program solves for. Without room (interface in the half cell before the last centre, non-void material on the left) the code reads past the end of the array, for every such input (ghost_cells_1d_overrun) and on a concrete one. One level set, two materials"
  },
  {
   "property": "C89",
   "status": "partial",
   "theorems": [
    "many_materials_run_safe_partial",
    "many_materials_run_ends_partial",
    "two_materials_run_safe",
    "two_materials_run_ends",
    "two_materials_run_completes",
    "many_materials_run_refuted"
   ],
   "note": "for any grid and number of materials a run can only fail as its ghost filling does at a state it gets to; on a line with two materials it does not fail as long as the level set has one interface with room for the probe; refuted without room (first turn reads past the end). Missing: the positions of the interface over a run are a hypothesis"
  },
  {
   "property": "C90",
   "status": "proved",
   "theorems": [
    "voids_stay_empty"
   ],
   "note": ""
  },
  {
   "property": "C91",
   "status": "proved",
   "theorems": [
    "step_computes",
    "step_computes_met",
    "run_computes",
    "run_computes_met",
    "run_computes_met_program"
   ],
   "note": "step_computes_met: the parallel step equals RefSpec's new1/new2 in every cell, for every team that lets its threads finish (finishing_exists: there are such teams for any number of threads), whenever the functions handed over (relaxation, validity test, predictor) give numbers on the states this very step hands to them (met); step_computes: so it is if they give numbers on all numbers (numeric). 2-D with NO_CORNERS off (with it on, the corner blocks are never written, see C32). run_computes: program = iterator around that formula, any number of materials; run_computes_met(_program): one material, numbers asked for only at the states the loop (the program) hands over. Hypotheses: external tables as in C22 (weno_setup). Examples ex_setup, step_computes_case, gas_computes_case (Roe flux, the relaxation of the code)."
  },
  {
   "property": "C92",
   "status": "proved",
   "theorems": [
    "domain_of_dependence_1d",
    "domain_of_dependence_2d"
   ],
   "note": "For states in whose step the relaxation, the half step and the predictor give numbers on what is handed to them (met; numeric_met: so it is if they give numbers on all numbers). Example domain_case."
  },
  {
   "property": "C93",
   "status": "proved",
   "theorems": [
    "step_translates_met_1d",
    "step_translates_met_2d",
    "run_translates_met_1d",
    "run_translates_met_2d",
    "step_translates_1d",
    "step_translates_2d",
    "run_translates_1d",
    "run_translates_2d"
   ],
   "note": "One material; NaN test invariant under shifts. _met: the relaxation, half step and predictor give numbers at the states the run hands over; the others: on all numbers. Examples translation_case, gas_shift_case (Roe flux, the relaxation of the code)."
  },
  {
   "property": "C94",
   "status": "proved",
   "theorems": [
    "step_mirrors_met_1d",
    "run_mirrors_met_1d",
    "step_mirrors_1d",
    "run_mirrors_1d",
    "gpr_mirrors",
    "code_mirrors",
    "right_eigabs_mirrors",
    "relaxation_mirrors",
    "relaxation_handless",
    "correct_svd_handless",
    "ader_handless",
    "flux_mirror_multi_refuted"
   ],
   "note": "One material (MULTI off; with MULTI on the flux of the concentration takes the right state only, flux_mirror_multi_refuted), rotation of the distortion off. Hypotheses: nodes and oscillation indicator symmetric (proved for the Gauss nodes in use, gram_mirror); wave speeds and singular values not depending on handedness. gpr_mirrors: the constitutive functions of the code have the symmetry if the body force does not act along the line (Rusanov flux); code_mirrors: with the fluxes of Roe and Osher too, the Jacobian of the code included, if the |M| x obtained from Eigen has it (right_eigabs_mirrors: a right one has, at diagonalisable matrices). ader_handless: the predictor of the unsplit solver has it too (Picard iterations, exact solver of its linear system). relaxation_handless: so has the relaxation of the split solver, without reaction, if the SVD of a reflected matrix has the reflected directions; correct_svd_handless: a right SVD has, except where exactly two singular values are equal. _met: as for C93. Examples mirror_case, ader_case, gas_mirror_case (Roe flux, the relaxation of the code)."
  },
  {
   "property": "C95",
   "status": "proved",
   "theorems": [
    "step_at_wall_met",
    "run_at_wall_met",
    "step_at_wall",
    "run_at_wall",
    "symmetric_wall_is_mirror",
    "symmetric_wall_thermal_refuted"
   ],
   "note": "Hypotheses as for C94. With heat conduction the wall leaves the thermal impulse as it is and does not show the mirror image: symmetric_wall_thermal_refuted. Example wall_case."
  },
  {
   "property": "C96",
   "status": "partial",
   "theorems": [
    "relaxation_frame_partial",
    "relaxation_frame_refuted"
   ],
   "note": "whole analytic step (body force, distortion, thermal impulse), any two valid decompositions, stretches all different or all equal; false for two equal stretches and a different one: a moderate uniaxial extension loses its axis of symmetry whatever decomposition is returned (relaxation_frame_refuted). Example relaxation_frame_case."
  },
  {
   "property": "C97",
   "status": "proved",
   "theorems": [
    "step_flat_met",
    "run_flat_met",
    "run_flat_ends_met",
    "step_flat",
    "run_flat",
    "run_flat_ends",
    "ader_flat"
   ],
   "note": "FlatProps.v. The run that the plane's run equals takes its time step from the wave speeds of both directions, because timestep adds them up (plane_rate_differs); hypotheses: walls only at the ends along x, NO_CORNERS off (the other setting: C83); _met: as for C93; ader_flat: for the unsplit solver with Picard iterations and exact linear solvers the predictor meets its hypothesis. Cases: flat_case (wall, symmetric wall, periodic rows, 1 and 3 threads, both runs end), ader_flat_case."
  },
  {
   "property": "C98",
   "status": "proved",
   "theorems": [
    "residual_is_defect_1d",
    "residual_is_defect_2d",
    "written_cells_solve_1d",
    "written_cells_solve_2d",
    "stiff_cells_solve_1d",
    "stiff_cells_solve_2d",
    "end_of_step_1d",
    "end_of_step_2d",
    "mean_of_step_1d",
    "mean_of_step_2d",
    "exact_solutions_solve_1d"
   ],
   "note": "Real arithmetic; the constitutive functions give no NaN; Eigen's solve returns an exact solution of the linear system. PredSpec.v states the equations at a node. exact_solutions_solve_1d is for one dimension."
  },
  {
   "property": "C99",
   "status": "proved",
   "theorems": [
    "step_rests",
    "step_sharp",
    "step_nothing",
    "run_rests",
    "run_sharp",
    "run_sharp_ends",
    "predictor_rests",
    "step_met",
    "rest_handed",
    "rest_handed_met",
    "gas_step_rests",
    "gas_run_rests",
    "gas_run_ends"
   ],
   "note": "RestSpec.v: the states at rest, and what it is for a material to be in equilibrium there. step_*/run_*: any such material; run_rests (Rusanov) asks that the densities met on the way are in the range. gas_*: stiffened gas of the code with its walls, its relaxation and its Jacobian; order 2; no thermal, reacting, multi-component or body-force terms, no DESTRESS. Of Eigen: the SVD is right on multiples of the identity, and |M| x = 0 where M x = 0 (exact_kills: so it is if its eigenvectors are exact). Unsplit solver: the predictor keeps rest (predictor_rests proves it of the code's). Example gas_case runs densities 1,2,2,1 to the final time."
  }
 ]
}