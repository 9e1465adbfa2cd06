{"id": "C01", "title": "Priority queue pops the minimum of what is live", "statement": "After any legal history of heap.push / heap.set / heap.pop, pop returns the address and distance of a live entry whose distance is minimal among all live entries, removes exactly that entry, and leaves every other live entry with its latest distance.", "quantifier": "every finite history of push/set/pop calls, every heap capacity, every totally ordered distance type", "why_tests_cant": "The array layout after k operations depends on the whole history; a test samples a few histories out of infinitely many.", "anchors": ["code/cpp/include/skfmm/heap.cpp: heap::push, heap::pop, heap::set, heap::_siftUp, heap::_siftDown, heap::peek"]}
{"id": "C02", "title": "Heap handles stay valid", "statement": "A handle returned by heap.push keeps designating the same entry (same address, latest distance) through every later push/set/pop of other entries, and heap.set on it changes only that entry's distance.", "quantifier": "every legal history and every live handle in it", "why_tests_cant": "Handle validity rests on the back-pointer table being right after every swap of every sift, for all heap shapes.", "anchors": ["code/cpp/include/skfmm/heap.cpp: heap::set, heap::_siftUp, heap::_siftDown, backPointer_"]}
{"id": "C03", "title": "Heap never writes past its arrays", "statement": "heap.push either throws 'heap push error: full' or stores the entry inside the arrays allocated by the constructor; no operation of any history indexes outside them.", "quantifier": "every history of push/set/pop on a heap of every capacity", "why_tests_cant": "Overruns only appear for particular interleavings of pops and pushes near capacity and are silent in C++.", "anchors": ["code/cpp/include/skfmm/heap.cpp: heap::push, heapLength_, listLength_"]}
{"id": "C04", "title": "Heap self test decides the heap property", "statement": "heap.test() throws exactly when some live entry is smaller than its parent (or a back pointer is wrong) and never throws on a heap reachable through the API.", "quantifier": "every reachable heap, and every array contents handed to the check", "why_tests_cant": "A self test that misses one slot passes every positive test.", "anchors": ["code/cpp/include/skfmm/heap.cpp: heap::test"]}
{"id": "C05", "title": "Fast marching terminates without heap overrun", "statement": "For every level set the marcher stops after finitely many heap operations, never triggers the full-heap exception, never indexes outside the heap, and freezes each grid point at most once.", "quantifier": "every grid shape and spacing, every mask-free level-set field", "why_tests_cant": "Termination and capacity hold for all fields only by a counting argument on point states.", "anchors": ["code/cpp/include/skfmm/base_marcher.cpp: baseMarcher::march, initalizeNarrow, solve, _setHeap", "code/cpp/include/skfmm/distance_marcher.cpp", "code/cpp/src/multi/pfmm.cpp: distance"]}
{"id": "C06", "title": "Signed distance keeps the side of every cell", "statement": "distance(phi) is positive where phi is positive, negative where phi is negative and zero where phi is zero.", "quantifier": "every grid, spacing and level-set field containing an interface", "why_tests_cant": "Needs an induction over the acceptance order of the marcher with real-valued updates; the failing inputs (0<phi<=machine epsilon) are never sampled.", "anchors": ["code/cpp/src/multi/pfmm.cpp: distance", "code/cpp/include/skfmm/distance_marcher.cpp: initalizeFrozen, updatePointOrderOne, solveQuadratic"]}
{"id": "C07", "title": "Every cell receives a distance when an interface exists", "statement": "If phi vanishes somewhere or changes sign between face neighbours, then every cell of the grid is accepted by the marcher and gets a finite distance.", "quantifier": "every grid (1-D and 2-D), spacing and level-set field with an interface", "why_tests_cant": "Reachability of all cells is a global graph argument.", "anchors": ["code/cpp/include/skfmm/base_marcher.cpp: baseMarcher::solve, initalizeNarrow", "code/cpp/include/skfmm/distance_marcher.cpp"]}
{"id": "C08", "title": "Renormalising level sets does not change the material of any cell", "statement": "renormalize_levelsets leaves the material index of every cell unchanged.", "quantifier": "every state vector, number of materials and grid", "why_tests_cant": "The failing inputs are whole classes of fields (no interface present), not isolated points.", "anchors": ["code/cpp/src/multi/functions.cpp: renormalize_levelsets", "code/cpp/src/multi/pfmm.cpp: distance", "code/cpp/src/system/functions/vectors.cpp: get_material_index"]}
{"id": "C09", "title": "Boundary extension copies the interior", "statement": "boundaries(u) returns an array whose interior block equals u cell by cell, in 1-D and 2-D.", "quantifier": "every nx, ny, N, boundary-type combination and field", "why_tests_cant": "Index arithmetic must be right for every size.", "anchors": ["code/cpp/src/etc/grid.cpp: boundaries1, boundaries2, boundaries"]}
{"id": "C10", "title": "Boundary extension initialises every ghost cell and never reads out of range", "statement": "For valid boundary types and at least N cells per direction, boundaries reads u only in range and every entry of the returned array (corners included) is written; with fewer than N cells it reads out of range.", "quantifier": "every size, N and valid boundary type", "why_tests_cant": "Uninitialised or out-of-range reads are invisible to value tests.", "anchors": ["code/cpp/src/etc/grid.cpp: boundaries1, boundaries2"]}
{"id": "C11", "title": "Periodic and transmissive ghosts", "statement": "With periodic boundaries the extended array is the periodic extension of u (index modulo size, corners included); with transmissive boundaries every ghost equals the nearest interior cell in that direction.", "quantifier": "every size >= N, every field, 1-D and 2-D", "why_tests_cant": "Must hold for all sizes and all ghost indices.", "anchors": ["code/cpp/src/etc/grid.cpp: boundaries1, boundaries2"]}
{"id": "C12", "title": "Wall ghosts mirror the flow and keep its thermodynamics", "statement": "Slip, stick, moving and symmetric walls give each ghost cell the density of its mirror cell and the same internal energy (hence pressure) ; slip negates only the normal momentum, stick all momenta, moving sets the tangential momentum so the wall moves with the prescribed momentum, symmetric additionally negates the off-diagonal normal row and column of A, which leaves the shear energy unchanged.", "quantifier": "every state with positive density, every direction and ghost index", "why_tests_cant": "A statement about real-valued states and all indices.", "anchors": ["code/cpp/src/etc/grid.cpp: boundaries1"]}
{"id": "C13", "title": "Mask dilation covers every face of a masked cell", "statement": "extend_mask marks every masked cell and all its face neighbours including the ghost layer, and (away from the ghost layer) nothing else; hence every flux through a face of a masked cell is evaluated by fv_launcher.", "quantifier": "every mask in 1-D and 2-D of every size", "why_tests_cant": "Universally quantified over masks; the C++ loop shadows its loop variables.", "anchors": ["code/cpp/src/etc/grid.cpp: extend_mask", "code/cpp/src/solvers/fv/fv.cpp: interfs1_inner, interfs2_inner"]}
{"id": "C14", "title": "Thread slabs tile the grid", "statement": "For every thread count the slabs [t*nx/n,(t+1)*nx/n) used by ader_stepper_para and split_stepper_para are pairwise disjoint, in range and cover [0,nx).", "quantifier": "every nx >= 0 and every thread count >= 1", "why_tests_cant": "All thread counts cannot be run.", "anchors": ["code/cpp/src/solvers/steppers.cpp: ader_stepper_para, split_stepper_para"]}
{"id": "C15", "title": "Parallel steppers are schedule independent", "statement": "Whatever the interleaving of the threads' writes, ader_stepper_para produces the same array.", "quantifier": "every thread count and every interleaving", "why_tests_cant": "Schedules cannot be enumerated by tests.", "anchors": ["code/cpp/src/solvers/steppers.cpp: ader_stepper_para, split_stepper_para"]}
{"id": "C16", "title": "Result does not depend on the thread count", "statement": "ader_stepper_para with any number of threads returns the same array as ader_stepper.", "quantifier": "every thread count, grid, mask and field", "why_tests_cant": "A test compares a few thread counts on one grid; the 2-D dependence only shows near slab edges in the boundary rows.", "anchors": ["code/cpp/src/solvers/steppers.cpp", "code/cpp/src/solvers/weno/weno.cpp: weno1, weno2, coeffs", "code/cpp/src/solvers/fv/fv.cpp"]}
{"id": "C17", "title": "Finite volume update conserves", "statement": "With an all-true mask the sum over cells of the interface update of density, energy and momentum equals dt/dx times the difference of the fluxes through the two domain ends (1-D) or the boundary faces (2-D); nothing is created inside.", "quantifier": "every grid size, every reconstructed state, every flux function", "why_tests_cant": "Telescoping over arbitrary sizes.", "anchors": ["code/cpp/src/solvers/fv/fv.cpp: interfs1_inner, interfs2_inner", "code/cpp/src/system/equations.cpp: Bdot"]}
{"id": "C18", "title": "Periodic step conserves totals exactly", "statement": "With periodic boundaries, full mask and vanishing sources one ADER step leaves the totals of density, energy and momentum unchanged (over the reals).", "quantifier": "every nx >= N, every field, every time step", "why_tests_cant": "Combines reconstruction, prediction and fluxes for all sizes.", "anchors": ["code/cpp/src/solvers/steppers.cpp: ader_stepper", "code/cpp/src/etc/grid.cpp: boundaries1", "code/cpp/src/solvers/weno/weno.cpp", "code/cpp/src/solvers/fv/fv.cpp"]}
{"id": "C19", "title": "Numerical fluxes are consistent", "statement": "For equal left and right states the interface flux average used by fv_launcher is the physical flux and the non-conservative jump term vanishes.", "quantifier": "every state, direction and material", "why_tests_cant": "Quantified over real states; the failing configuration (MULTI) is a compile-time option.", "anchors": ["code/cpp/src/solvers/fv/fluxes.cpp: D_RUS, D_ROE, D_OSH, Bint", "code/cpp/src/system/equations.cpp: flux, Bdot"]}
{"id": "C20", "title": "Uniform states are steady", "statement": "A spatially uniform state with vanishing source is left exactly unchanged by an ADER step (reconstruction, predictor right-hand side and finite volume update).", "quantifier": "every uniform state, grid size, time step and basis order", "why_tests_cant": "All states, sizes and orders.", "anchors": ["code/cpp/src/solvers/weno/weno.cpp", "code/cpp/src/solvers/dg/dg1.cpp: rhs1, predictor1", "code/cpp/src/solvers/dg/dg_matrices.cpp", "code/cpp/src/solvers/fv/fv.cpp"]}
{"id": "C21", "title": "Reconstruction keeps cell averages", "statement": "The average over a cell of the polynomial returned by weno_launcher equals the cell value it was built from.", "quantifier": "every data vector, every order N, every selection of stencils", "why_tests_cant": "Real-valued data; must hold for every nonlinear weight.", "anchors": ["code/cpp/src/solvers/weno/weno.cpp: weight, coeffs", "code/cpp/src/solvers/weno/weno_matrices.cpp: coefficient_matrices"]}
{"id": "C22", "title": "Reconstruction is exact for polynomials", "statement": "If the data are the cell averages of a polynomial of degree < N, the reconstruction returns that polynomial (in particular constants are preserved).", "quantifier": "every polynomial of degree < N and every order", "why_tests_cant": "Infinite family of inputs, nonlinear weights.", "anchors": ["code/cpp/src/solvers/weno/weno.cpp: coeffs", "code/cpp/src/solvers/weno/weno_matrices.cpp"]}
{"id": "C23", "title": "Stencil weights form a convex combination", "statement": "The weights applied to the stencils are strictly positive and sum to one whenever at least one stencil is selected; at least one stencil is selected for every cell.", "quantifier": "every data vector, cell index, row length and corner gap", "why_tests_cant": "The failing geometry (short rows with a corner gap) needs particular thread counts.", "anchors": ["code/cpp/src/solvers/weno/weno.cpp: coeffs, weno1, weno2"]}
{"id": "C24", "title": "Oscillation indicator is well defined", "statement": "oscillation_indicator returns the sum over derivative orders of the Gram matrix of the basis derivatives, computed only from initialised memory.", "quantifier": "every execution", "why_tests_cant": "Uninitialised memory frequently happens to be zero under test.", "anchors": ["code/cpp/src/solvers/weno/weno_matrices.cpp: oscillation_indicator"]}
{"id": "C25", "title": "Polynomial arithmetic is evaluation homomorphic", "statement": "Evaluating a product, quotient by a number, derivative or integral computed by the poly class equals the product, derivative or antiderivative of the evaluations.", "quantifier": "all polynomials and all evaluation points", "why_tests_cant": "Infinite domain.", "anchors": ["code/cpp/src/scipy/poly.cpp: poly::eval, poly::multiply, poly::diff, poly::intt"]}
{"id": "C26", "title": "Basis polynomials are the Lagrange basis", "statement": "basis_polys returns polynomials that are 1 at their own node and 0 at the others; they sum to one and reproduce every polynomial of degree < N.", "quantifier": "every set of distinct nodes of every size", "why_tests_cant": "All node sets.", "anchors": ["code/cpp/src/solvers/poly/basis.cpp: basis_polys", "code/cpp/src/scipy/poly.cpp: lagrange"]}
{"id": "C27", "title": "Legendre series evaluation and differentiation", "statement": "legval evaluates the Legendre series of its coefficients (Clenshaw) and legder returns the coefficients of its derivative.", "quantifier": "every coefficient vector and argument", "why_tests_cant": "Recurrences of arbitrary length.", "anchors": ["code/cpp/src/scipy/legendre.cpp: legval, legder"]}
{"id": "C28", "title": "Gauss-Legendre data", "statement": "Whatever eigenvalues the eigen solver returns, the nodes are antisymmetric, the weights are symmetric and sum to 2; when they are the roots the scaled rule integrates polynomials exactly.", "quantifier": "every degree and every solver output", "why_tests_cant": "All degrees and solver outputs.", "anchors": ["code/cpp/src/scipy/legendre.cpp: leggauss, legcompanion", "code/cpp/src/solvers/poly/basis.cpp: scaled_nodes, scaled_weights"]}
{"id": "C29", "title": "Kronecker product", "statement": "kron of a list of matrices is their Kronecker product in the given order.", "quantifier": "every list of matrices of every size", "why_tests_cant": "All sizes.", "anchors": ["code/cpp/src/solvers/dg/dg_matrices.cpp: kron"]}
{"id": "C30", "title": "DG predictor formulations agree", "statement": "A state is a root of the nonlinear residual used by the stiff solver iff it solves the linear system used by the Picard iteration, in 1-D and 2-D.", "quantifier": "every state, right-hand side and dimension", "why_tests_cant": "All states.", "anchors": ["code/cpp/src/solvers/dg/dg1.cpp: rhs1, obj1", "code/cpp/src/solvers/dg/dg2.cpp: rhs2, obj2", "code/cpp/src/solvers/dg/dg_matrices.cpp"]}
{"id": "C31", "title": "DG matrices satisfy summation by parts", "statement": "The matrix of derivative products plus its transpose is the boundary matrix, and the time operator maps the constant one to the initial values of the basis.", "quantifier": "every order and every exact quadrature", "why_tests_cant": "All orders.", "anchors": ["code/cpp/src/solvers/dg/dg_matrices.cpp: end_value_products, derivative_products"]}
{"id": "C32", "title": "Predictor produces a value for every active cell", "statement": "After predictor returns, the space-time coefficients of every active cell have been written (never left as uninitialised memory).", "quantifier": "every initial field, source and time step, including non-convergent iterations", "why_tests_cant": "Non-convergence within DG_IT iterations is rare in tests; uninitialised memory is silent.", "anchors": ["code/cpp/src/solvers/dg/dg1.cpp: predictor1", "code/cpp/src/solvers/dg/dg2.cpp: predictor2", "code/cpp/src/solvers/dg/initial_guess.cpp: stiff_initial_guess", "code/cpp/src/solvers/steppers.cpp"]}
{"id": "C33", "title": "Time step respects the CFL bound and the end time", "statement": "timestep returns dt with t+dt <= tf and dt * (sum over directions of wave speed / spacing) <= CFL in every masked cell of every non-void material; for the first steps (count <= 5) the bound is five times smaller.", "quantifier": "every set of grids, masks and wave speeds", "why_tests_cant": "All fields.", "anchors": ["code/cpp/src/solvers/iterator.cpp: timestep"]}
{"id": "C34", "title": "The run ends exactly at the final time", "statement": "If time steps are positive and bounded below until the end, iterator terminates with the last step landing exactly on tf and the last snapshot being the final state.", "quantifier": "every run (sequence of states and steps)", "why_tests_cant": "Unbounded number of steps.", "anchors": ["code/cpp/src/solvers/iterator.cpp: iterator"]}
{"id": "C35", "title": "Snapshots stay in the 100-slot output", "statement": "iterator writes snapshots only into slots 0..99, slot k (k<99) no earlier than (k+1)% of the final time, also when it aborts on NaN.", "quantifier": "every run, including aborted ones", "why_tests_cant": "Requires a NaN exactly at the last step(s) to show.", "anchors": ["code/cpp/src/solvers/iterator.cpp: iterator"]}
{"id": "C36", "title": "make_u assembles the global state from the owners", "statement": "make_u gives each cell the averaged level sets of all grids and the remaining components of the grid of the material those level sets select (zero for void), and accesses no grid out of range when there are LSET+1 materials.", "quantifier": "every number of materials, level sets and grid", "why_tests_cant": "All fields.", "anchors": ["code/cpp/src/solvers/iterator.cpp: make_u", "code/cpp/src/system/functions/vectors.cpp: get_material_index"]}
{"id": "C37", "title": "Concentration limiter", "statement": "limit_concentration leaves 0 <= rho*lambda <= rho in every cell with rho >= 0 and changes nothing else.", "quantifier": "every field", "why_tests_cant": "All fields.", "anchors": ["code/cpp/src/solvers/iterator.cpp: limit_concentration"]}
{"id": "C38", "title": "Distortion renormalisation restores mass consistency", "statement": "After renorm_distortion the determinant of A equals rho/rho0 in every cell with rho>0 and det A>0, A is only rescaled and no other component changes.", "quantifier": "every field", "why_tests_cant": "All real matrices.", "anchors": ["code/cpp/src/solvers/utils.cpp: renorm_distortion"]}
{"id": "C39", "title": "Resetting the distortion preserves pressure", "statement": "reset_distortion replaces A by the isotropic matrix with determinant rho/rho0 and leaves density, momentum and pressure unchanged.", "quantifier": "every field and equation of state", "why_tests_cant": "All states.", "anchors": ["code/cpp/src/solvers/utils.cpp: reset_distortion", "code/cpp/src/system/energy/eos.cpp"]}
{"id": "C40", "title": "Rotating the distortion preserves stress", "statement": "Replacing A by S V^T of its singular value decomposition leaves A^T A, the stress and the shear energy unchanged.", "quantifier": "every distortion with an exact SVD", "why_tests_cant": "All matrices.", "anchors": ["code/cpp/src/solvers/utils.cpp: rotate_distortion"]}
{"id": "C41", "title": "Interface cells are classified correctly", "statement": "find_interface_cells labels every cell: in 1-D, a cell whose level set times a neighbour's is not positive gets +1 if its own value is positive and -1 otherwise, all others 0; in 2-D, a non-positive cell all of whose neighbours are positive is isolated and gets -2, other non-positive cells at an interface get -1, positive cells next to a non-isolated non-positive cell get +1, all others 0.", "quantifier": "every level-set field and grid", "why_tests_cant": "All fields.", "anchors": ["code/cpp/src/multi/fill.cpp: find_interface_cells, update_interface_mask"]}
{"id": "C42", "title": "Ghost filling proceeds in layers and only into empty cells", "statement": "fill_neighbor_cells labels each unlabelled cell with one plus the length of the shortest walk through unlabelled cells from the first layer of ghost cells (if shorter than the number of rounds, and leaves it unlabelled otherwise); it never changes the level-set components, nor any component of a cell that was labelled before (isolated cells apart) or remains unlabelled.", "quantifier": "every interface mask and grid", "why_tests_cant": "In-place sweeps interact with labels; all masks needed.", "anchors": ["code/cpp/src/multi/fill.cpp: fill_neighbor_cells, fill_neighbor_inner"]}
{"id": "C43", "title": "Ghost filling never indexes outside the grid", "statement": "fill_boundary_cells and fill_neighbor_cells access only cells of the grid.", "quantifier": "every level set and gradient field", "why_tests_cant": "Failing geometry (vanishing gradient, edge cells) is untested.", "anchors": ["code/cpp/src/multi/fill.cpp: boundary_inds, neighbor_index, fill_neighbor_inner"]}
{"id": "C44", "title": "Ghost filling is schedule independent", "statement": "The parallel loop of fill_boundary_cells yields the same grid for every schedule.", "quantifier": "every schedule", "why_tests_cant": "Schedules cannot be enumerated.", "anchors": ["code/cpp/src/multi/fill.cpp: fill_boundary_cells, fill_boundary_inner"]}
{"id": "C45", "title": "Materials partition the domain", "statement": "Each cell is inside exactly one material: material_indicator(mat) is negative for exactly the material get_material_index returns, up to level-set zeros.", "quantifier": "every level-set vector and number of materials", "why_tests_cant": "All sign patterns.", "anchors": ["code/cpp/src/multi/functions.cpp: material_indicator", "code/cpp/src/system/functions/vectors.cpp: get_material_index"]}
{"id": "C46", "title": "Finite differences are exact on affine fields", "statement": "finite_difference of an affine field is its gradient in every cell, boundary cells included.", "quantifier": "every affine field and grid with at least 3 cells per direction", "why_tests_cant": "All sizes.", "anchors": ["code/cpp/src/multi/functions.cpp: finite_difference"]}
{"id": "C47", "title": "EOS derivatives are the derivatives", "statement": "The analytic derivatives of the Grueneisen coefficient, reference pressure, reference energy, internal energy and temperature equal the derivatives of the corresponding functions for all five equations of state.", "quantifier": "every admissible density, pressure and parameter set", "why_tests_cant": "Derivative statements over the reals; finite differences only approximate.", "anchors": ["code/cpp/src/system/energy/mg.cpp", "code/cpp/src/system/energy/derivatives.cpp"]}
{"id": "C48", "title": "Pressure and energy are inverse", "statement": "pressure of the internal energy of (rho,p) is p and conversely.", "quantifier": "every density, pressure and equation of state", "why_tests_cant": "All states.", "anchors": ["code/cpp/src/system/energy/mg.cpp: pressure_mg, e_ref, E_1", "code/cpp/src/system/energy/eos.cpp"]}
{"id": "C49", "title": "Primitive/conserved conversions round-trip", "statement": "Cvec(Pvec(Q)) = Q and Pvec(Cvec(P)) = P, and likewise for the permuted Cvec_to_Pvec / Pvec_to_Cvec used by the Riemann solver.", "quantifier": "every state with positive density", "why_tests_cant": "All states; failing option combination.", "anchors": ["code/cpp/src/system/functions/vectors.cpp: Pvec, Cvec, Cvec_to_Pvec, Pvec_to_Cvec"]}
{"id": "C50", "title": "Shear energy is a rotation-invariant measure of the deviator", "statement": "devGsq(A) is the squared Frobenius norm of the deviator of A^T A, is non-negative, vanishes exactly on scaled rotations (conformal matrices), is invariant under A -> R A S for orthogonal R, S; AdevG is a quarter of its gradient.", "quantifier": "every 3x3 matrix", "why_tests_cant": "All matrices.", "anchors": ["code/cpp/src/system/functions/matrices.cpp: devGsq, AdevG, gram"]}
{"id": "C51", "title": "Stress and its derivatives", "statement": "sigma is symmetric, its column version agrees with the matrix version, and dsigmadA, dsigmadrho are its derivatives.", "quantifier": "every matrix and density", "why_tests_cant": "Derivative identities.", "anchors": ["code/cpp/src/system/variables/state.cpp: sigma, dsigmadA, dsigmadrho"]}
{"id": "C52", "title": "Flux Jacobians", "statement": "dPdQ is the inverse Jacobian of the primitive map and dFdP the Jacobian of flux, so system_matrix is the quasi-linear matrix of the equations.", "quantifier": "every state with positive density", "why_tests_cant": "Derivative identities over the reals.", "anchors": ["code/cpp/src/system/jacobians.cpp: dFdP, dPdQ", "code/cpp/src/system/equations.cpp: flux, system_matrix"]}
{"id": "C53", "title": "Non-conservative product equals its matrix", "statement": "Bdot(Q,x,d) = block(Q,d) x for every direction.", "quantifier": "every state, vector and direction", "why_tests_cant": "All states.", "anchors": ["code/cpp/src/system/equations.cpp: Bdot, B0dot, B1dot, B2dot, block"]}
{"id": "C54", "title": "Strain relaxation dissipates and conserves", "statement": "The source term changes neither mass nor total energy, keeps det A stationary and never increases the shear energy.", "quantifier": "every state with non-negative relaxation rate", "why_tests_cant": "All states.", "anchors": ["code/cpp/src/system/equations.cpp: source", "code/cpp/src/system/variables/sources.cpp: theta1inv"]}
{"id": "C55", "title": "Rotation matrices are orthogonal and map the normal to the x axis", "statement": "rotation_matrix(n) R satisfies R R^T = I and R n = e_x for every unit n; no division by zero occurs.", "quantifier": "every unit vector", "why_tests_cant": "Uncountably many normals, a branch on their signs.", "anchors": ["code/cpp/src/system/multi/rotations.cpp: rotation_matrix, rotate_tensors"]}
{"id": "C56", "title": "Rotating a state is invertible and preserves its thermodynamics", "statement": "Rotating by R and then by R^T restores the state; density, energy, pressure, det A and shear energy are invariant, and the x flux of the rotated state is the rotated normal flux.", "quantifier": "every orthogonal matrix and state", "why_tests_cant": "All rotations.", "anchors": ["code/cpp/src/system/multi/rotations.cpp: rotate_tensors", "code/cpp/src/system/equations.cpp: flux"]}
{"id": "C57", "title": "Star state iteration stops and is identity at rest", "statement": "left_star_state performs at most 10 steps, returns its input when the interface conditions already hold or when a NaN appears.", "quantifier": "every pair of states and normal", "why_tests_cant": "All states.", "anchors": ["code/cpp/src/system/multi/riemann.cpp: left_star_state, check_star_convergence"]}
{"id": "C58", "title": "Slip interface conditions", "statement": "The star state of slip_bcs has equal normal velocities on both sides, equal normal tractions and zero tangential traction, computed from initialised data.", "quantifier": "every pair of linearised states and both thermal options", "why_tests_cant": "All states; uninitialised data under an option.", "anchors": ["code/cpp/src/system/multi/conditions.cpp: slip_bcs"]}
{"id": "C59", "title": "Analytic relaxation step", "statement": "The exact distortion relaxation keeps det A, keeps the singular directions, is the identity for zero time and satisfies the evolution equation of the anisotropy measures.", "quantifier": "every distortion and time step", "why_tests_cant": "All matrices.", "anchors": ["code/cpp/src/system/relaxation/analytic.cpp"]}
{"id": "C60", "title": "Reaction step keeps concentration non-negative and touches nothing else", "statement": "ode_stepper_numerical leaves rho*lambda >= 0 and changes only the concentration.", "quantifier": "every state, rate law and step", "why_tests_cant": "All states; NaN behaviour of std::max.", "anchors": ["code/cpp/src/system/relaxation/numerical.cpp: ode_stepper_numerical", "code/cpp/src/system/variables/sources.cpp: reaction_rate"]}
{"id": "C61", "title": "Runge-Kutta launcher", "statement": "runge_kutta_launcher integrates y'=a y with the degree-4 Taylor factor per substep, is exact for constant rates, converges with the fourth power of the number of substeps for every smooth rate (error at most C t^5/N^4 along any solution that stays where the rate is smooth), and terminates for every right-hand side.", "quantifier": "every right-hand side, step count and time", "why_tests_cant": "All functions; termination.", "anchors": ["code/cpp/src/solvers/split/rk.cpp: rk4, runge_kutta_launcher"]}
{"id": "C62", "title": "Newton-Krylov stops on the documented tolerances", "statement": "nonlin_solve returns when the residual and the last step satisfy the tolerances, after at most maxiter steps.", "quantifier": "every function, starting point and tolerance", "why_tests_cant": "Shadowed variable makes the step tolerance inert; tests use norms >= 1.", "anchors": ["code/cpp/src/scipy/newton_krylov.cpp: nonlin_solve, TerminationCondition::check"]}
{"id": "C63", "title": "Line search terminates with sufficient decrease or full step", "statement": "The Armijo search stops after boundedly many evaluations; the step it returns satisfies the decrease condition or is the full step, and the cached residual is the residual at the new point.", "quantifier": "every residual function and direction", "why_tests_cant": "All functions.", "anchors": ["code/cpp/src/scipy/newton_krylov.cpp: scalar_search_armijo, _nonlin_line_search"]}
{"id": "C64", "title": "LGMRES bookkeeping", "statement": "lgmres performs at most maxiter outer iterations, keeps at most outer_k recycled vectors and returns only when the residual test holds or the budget is exhausted.", "quantifier": "every operator and parameters", "why_tests_cant": "All operators.", "anchors": ["code/cpp/src/scipy/lgmres.cpp: lgmres"]}
{"id": "C65", "title": "Distance solves the discrete eikonal equation", "statement": "On a grid with equal spacings and an interface, every cell off the interface satisfies the first-order upwind discretisation of |grad D| = 1 with its final neighbours, and every interface cell carries the least distance to a linearly interpolated zero crossing.", "quantifier": "every 1-D/2-D grid, spacing and level set with an interface and no value in (0, eps]", "why_tests_cant": "The accepted value depends on the whole acceptance order.", "anchors": ["code/cpp/include/skfmm/base_marcher.cpp: solve", "code/cpp/include/skfmm/distance_marcher.cpp: updatePointOrderOne", "code/cpp/src/multi/pfmm.cpp: distance"]}
{"id": "C66", "title": "Wave speed estimate bounds the characteristic speeds", "statement": "max_abs_eigs(Q,d) is at least the modulus of every real eigenvalue of system_matrix(Q,d), so the time step obeys the CFL condition and the Rusanov flux is dissipative.", "quantifier": "every admissible state and every direction", "why_tests_cant": "Eigenvalues of a 14x14 (or larger) matrix over a continuum of states and all directions.", "anchors": ["code/cpp/src/system/eig.cpp: max_abs_eigs, thermo_acoustic_tensor", "code/cpp/src/system/equations.cpp: system_matrix"]}
{"id": "C67", "title": "Stick interface conditions", "statement": "A step of the star state iteration with stick conditions leaves both sides with the same velocity.", "quantifier": "every pair of states and materials with an invertible interface matrix", "why_tests_cant": "All pairs of states and linearisations.", "anchors": ["code/cpp/src/system/multi/conditions.cpp: stick_bcs", "code/cpp/src/system/multi/riemann.cpp: star_stepper"]}
{"id": "C68", "title": "The contortion test measures shear and a reset clears it", "statement": "contorted(u,tol) is true exactly if some cell with det A != 0 has mean squared stretch tr(A^T A)/(3 |det A|^(2/3)) above 1+tol, and after reset_distortion it is false for every tol >= 0.", "quantifier": "every field and tolerance", "why_tests_cant": "A statement about singular values over a continuum of matrices and any number of cells.", "anchors": ["code/cpp/src/solvers/utils.cpp: contorted, reset_distortion"]}
{"id": "C69", "title": "Rotating the distortion keeps its orientation", "statement": "rotate_distortion leaves det A, hence the mass consistency det A = rho/rho0, unchanged.", "quantifier": "every field and every valid singular value decomposition", "why_tests_cant": "The decomposition is not unique; the claim is about every valid one.", "anchors": ["code/cpp/src/solvers/utils.cpp: rotate_distortion"]}
{"id": "C70", "title": "Ghost filling keeps each material's own cells", "statement": "After fill_ghost_cells every non-void material's grid agrees with the state in the cells the material occupies and in all level-set components, its mask marks exactly the material and the layers around it, and a void's grid is untouched with an empty mask; the state itself only has its level sets renormalised.", "quantifier": "every state, grid, set of materials, star-state solver and schedule-free run that returns", "why_tests_cant": "Quantifies over level-set geometries, materials and interface solvers.", "anchors": ["code/cpp/src/multi/fill.cpp: fill_ghost_cells, fill_boundary_cells, fill_neighbor_cells, extend_mask"]}
{"id": "C71", "title": "Thermal and body-force steps are the exact flow of their source terms", "statement": "The thermal step of the analytic source solver starts at the given state, moves the thermal impulse at the rate of the thermal source term evaluated at the current state, for every time, and leaves everything else unchanged; the body force step does the same for the momentum. The impulse decays and the temperature does not fall.", "quantifier": "every state, every parameter set with heat conduction and every time", "why_tests_cant": "The flow of a nonlinear ODE over all states and times.", "anchors": ["code/cpp/src/system/relaxation/analytic.cpp: analyticSolver_thermal, analyticSolver_body_forces", "code/cpp/src/system/variables/sources.cpp: theta2inv"]}
{"id": "C72", "title": "LGMRES minimises the residual", "statement": "In exact arithmetic a restart of lgmres returns the correction with the smallest preconditioned residual over its search space (a Krylov space, plus the recycled vectors); the residual never grows, its stopping estimate is the true residual, and with as many inner iterations as unknowns an invertible system is solved to the tolerance unless a near breakdown occurs.", "quantifier": "every dimension, matrix, preconditioner, right hand side, starting point, recycled vectors and parameters", "why_tests_cant": "Optimality is over a whole space of candidates and all matrices; breakdowns are rare in tests.", "anchors": ["code/cpp/src/scipy/lgmres.cpp: lgmres"]}
{"id": "C73", "title": "Newton solver on affine problems", "statement": "For an affine function the finite difference Jacobian of nonlin_solve is exact and the residual of the returned point is at most that of the starting point.", "quantifier": "every affine function, starting point and tolerances", "why_tests_cant": "All functions and starting points.", "anchors": ["code/cpp/src/scipy/newton_krylov.cpp: KrylovJacobian::matvec, nonlin_solve"]}
{"id": "C74", "title": "A whole step is memory-safe and gives numbers", "statement": "One ADER step (ghost cells, reconstruction, predictor, finite volume update) on an array of numbers returns an array of numbers of the same shape: no access is out of range and no uninitialised value is read, provided the predictor of every cell converges.", "quantifier": "every grid of at least N cells per direction (wide enough for the edge stencils when corners are skipped), every field of numbers, every boundary type, flux and time step", "why_tests_cant": "buffer sizes and strides of four kernels interact; tests run few grids and do not see a read of uninitialised memory", "anchors": ["code/cpp/src/solvers/steppers.cpp: ader_stepper", "code/cpp/src/solvers/weno/weno.cpp", "code/cpp/src/solvers/dg/dg1.cpp", "code/cpp/src/solvers/dg/dg2.cpp", "code/cpp/src/solvers/fv/fv.cpp"]}
{"id": "C75", "title": "A split step on a periodic grid conserves the totals; a uniform field is only relaxed", "statement": "One step of the split solver (relaxation over half the time step, reconstruction, half step, finite volume update, relaxation) with periodic boundaries keeps the total mass and energy, changes the total momentum by the body force times the time step, and keeps the total concentration if nothing reacts. A uniform field comes out uniform and equal to the state relaxed twice.", "quantifier": "every grid of at least N cells per direction, every field, every relaxation that adds constants to the components concerned, both settings of the half step, all three fluxes", "why_tests_cant": "conservation is a cancellation over all faces of an arbitrary field; a test compares totals of one run up to round-off", "anchors": ["code/cpp/src/solvers/steppers.cpp split_stepper", "code/cpp/src/solvers/split/homogeneous.cpp", "code/cpp/src/solvers/split/ode.cpp", "code/cpp/src/system/relaxation/analytic.cpp"]}
{"id": "C76", "title": "The half step is a Taylor step of the homogeneous equations", "statement": "The half step of the split solver replaces the value at every node of a cell by its first-order Taylor step over half the time step of the equations without sources: minus the derivatives of the polynomials interpolating the physical fluxes at the nodes, minus the non-conservative products with the derivatives of the polynomial interpolating the state.", "quantifier": "every reconstruction with non-zero densities, every order, every node, every component, 1-D and 2-D, every time step and cell size", "why_tests_cant": "the formula must hold for every order and every nodal field; a test would compare with a second copy of the same loops", "anchors": ["code/cpp/src/solvers/split/homogeneous.cpp midstepper", "code/cpp/src/solvers/poly/evaluations.cpp derivs2d", "code/cpp/src/system/equations.cpp flux, Bdot"]}
{"id": "C77", "title": "A whole split step is memory-safe and gives numbers", "statement": "One step of the split solver on an array of numbers returns an array of numbers of the same shape: no access is out of range and no uninitialised value is read, provided the relaxation and the constitutive functions give numbers.", "quantifier": "every grid of at least N cells per direction (wide enough for the edge stencils if corners are skipped), every field, all boundary types", "why_tests_cant": "memory errors depend on grid sizes, masks and orders that no finite set of runs covers", "anchors": ["code/cpp/src/solvers/steppers.cpp split_stepper", "code/cpp/src/solvers/weno/weno.cpp", "code/cpp/src/solvers/split/homogeneous.cpp", "code/cpp/src/solvers/fv/fv.cpp"]}
{"id": "C78", "title": "The implicit solver for scalar equations conserves, is consistent and is unconditionally stable", "statement": "stiff_ode_solve(x0, dt, f), which advances x' = f(x) from x0 by dt, always returns; what it solves are the discontinuous Galerkin equations for the step; the value returned is x0 plus dt times a positively weighted mean of the rates at the nodes (so rates between two bounds move it at a speed between them and a constant rate is exact), up to the residual left by the nonlinear solver; a zero of f is returned unchanged; and for every dt, however large, a solution does not grow if f never points away from zero, two solutions do not separate if f is decreasing, and there is one solution at most if it decreases strictly.", "quantifier": "every starting value, step size, right-hand side and order, every behaviour of Eigen's decompositions", "why_tests_cant": "stability holds for all step sizes and all right-hand sides; the failure shows only for stiff problems", "anchors": ["code/cpp/src/solvers/split/numeric.cpp obj0, stiff_ode_solve", "code/cpp/src/solvers/dg/dg_matrices.cpp", "code/cpp/src/scipy/newton_krylov.cpp nonlin_solve"]}
{"id": "C79", "title": "The pressure of a mixture obeys the mixture law", "statement": "For a cell holding two materials, the partial densities that are computed satisfy the law of volumes exactly, and the energies and temperatures of the two materials agree with the total energy and each other to the tolerance of the solver unless its iterations run out; a cell of one material has the pressure of that material's equation of state, cut off at zero; and a mixture of a material with itself has exactly the pressure of that material at every concentration.", "quantifier": "every state, concentration and pair of materials", "why_tests_cant": "the law must hold for all states and materials, and the iteration may stop anywhere", "anchors": ["code/cpp/src/system/energy/multi.cpp obj, average_pressure, solve_multi", "code/cpp/src/system/variables/state.cpp pressure"]}
{"id": "C80", "title": "The energy derivatives of a mixture are those of its equilibrium states", "statement": "dEdrho and dEdp return the derivatives of the energy of a mixture by density (at constant pressure) and by pressure (at constant density) along the states in which the materials share pressure and temperature; the sound speed is computed from them.", "quantifier": "every state, concentration and pair of materials", "why_tests_cant": "a derivative is a statement about all nearby states", "anchors": ["code/cpp/src/system/energy/derivatives.cpp dEd\u03c1, dEdp", "code/cpp/src/system/energy/multi.cpp"]}
{"id": "C81", "title": "The correction of the interface states is exact to first order", "statement": "riemann_constraints returns the matrix by which the Riemann solver of an interface turns requested changes of the tractions into changes of the state. To first order the tractions (and with heat conduction the temperature) change by exactly what was requested; the velocity follows through the acoustic impedance; a correction along an eigenvector of the acoustic tensor is a wave of the full system running away from the interface. Hence one step of the star-state iteration is a Newton step for the continuity of the tractions, with no tangential part on a sliding interface and none at all on a free surface.", "quantifier": "every state with a regular distortion and acoustic tensor, every material, both sides, every requested change", "why_tests_cant": "needs derivatives at every state, through an eigenvector decomposition", "anchors": ["code/cpp/src/system/multi/riemann.cpp riemann_constraints, star_stepper", "code/cpp/src/system/multi/eigenvecs.cpp eigen", "code/cpp/src/system/eig.cpp Xi1, Xi2"]}
{"id": "C82", "title": "Face values and slopes are those of the reconstruction polynomial", "statement": "The values the finite volume update uses at the two ends of a cell (in 2-D: at the nodes of the four sides) and the spatial derivatives it uses at the nodes are the values and derivatives of the one polynomial through the nodal values of the cell.", "quantifier": "every set of distinct nodes, every nodal block in 1-D and 2-D, every component, side, direction and node", "why_tests_cant": "the tables of end values and derivatives are contracted with strides that are easy to transpose; on blocks symmetric in x and y, or on uniform data, a transposed index gives the same numbers", "anchors": ["code/cpp/src/solvers/poly/evaluations.cpp derivs2d, endpts2d", "code/cpp/src/solvers/fv/fv.cpp centers1, centers2, interfs1, interfs2"]}
{"id": "C83", "title": "A time step is memory-safe on any data, with any number of threads", "statement": "One time step as the main loop performs it (ghost cells, mask extension, one slab per thread, reconstruction, predictor or half step, finite volume update, relaxation) returns on any state, NaN or not, with any mask, any number of threads and any interleaving: it reads and writes no array out of range and reads nothing that was not written.", "quantifier": "every state and mask of the right size, every time step, thread count and schedule, 1-D and 2-D, both solvers, with and without corner handling", "why_tests_cant": "out-of-range accesses on rare masks, thread counts that do not divide the grid, or NaN data corrupt memory silently; no finite set of runs covers the interleavings", "anchors": ["code/cpp/src/solvers/iterator.cpp iterator", "code/cpp/src/solvers/steppers.cpp ader_stepper_para, split_stepper_para", "code/cpp/src/grid.cpp boundaries, extend_mask"]}
{"id": "C84", "title": "A whole run of one material is memory-safe and ends", "statement": "A run of one material without level sets ends at the final time with its output, or with a NaN; it never touches memory out of range. With bounded wave speeds the number of turns is bounded, and if the constitutive functions give numbers on numbers the run completes.", "quantifier": "every initial state, grid, CFL number, final time, thread team and schedule; every length of run", "why_tests_cant": "a run has unboundedly many steps; a bad index in a late snapshot or a rare correction is not met by short runs", "anchors": ["code/cpp/src/solvers/iterator.cpp iterator", "code/cpp/src/solvers/utils.cpp renorm_distortion, contorted_tol, reset_distortion"]}
{"id": "C85", "title": "A whole periodic run conserves mass, momentum and energy", "statement": "On a periodic grid the total mass at the end of a run, and in every snapshot, is the initial one; each total momentum is the initial one plus the body force times the time; the total energy is the initial one as long as no distortion is reset, and otherwise smaller by the elastic energies the resets take away.", "quantifier": "every initial state, number of steps, time steps, thread teams and schedules; final state and every snapshot", "why_tests_cant": "conservation must hold over arbitrarily many steps, corrections included; tests see rounding-level drifts they cannot tell from small leaks", "anchors": ["code/cpp/src/solvers/iterator.cpp iterator", "code/cpp/src/solvers/steppers.cpp", "code/cpp/src/solvers/utils.cpp reset_distortion"]}
{"id": "C86", "title": "A whole run leaves a uniform steady state exactly as it is", "statement": "A run from a uniform state that the boundaries, the relaxation (or source) and the corrections leave alone outputs that state, in every snapshot and at the end, with either solver.", "quantifier": "every such state, every grid and number of steps, thread team and schedule", "why_tests_cant": "drift away from rest can be slower than any test tolerance", "anchors": ["code/cpp/src/solvers/iterator.cpp iterator", "code/cpp/src/solvers/steppers.cpp"]}
{"id": "C87", "title": "Eigenvector matrix", "statement": "The matrix of eigenvectors that the interface solver starts from has, as its columns, directions in the primitive variables that are waves of the quasi-linear system along the first axis: three running with the speed v + sqrt(lambda), three with v - sqrt(lambda), lambda the eigenvalues of the acoustic tensor, and the remaining ones carried with the material; and the columns are independent.", "quantifier": "every state with a regular distortion and acoustic tensor, every equation of state, with and without reacting species and level sets", "why_tests_cant": "the claim is an identity between the computed matrix and the eigenspaces of the system for a continuum of states; tests sample states, usually at the reference density, where the wrong shear modulus is not visible", "anchors": ["code/cpp/src/system/multi/eigenvecs.cpp: eigen", "code/cpp/src/system/variables/state.cpp: dsigmadA", "code/cpp/src/system/multi/riemann.cpp: riemann_constraints"]}
{"id": "C88", "title": "Ghost cells of a line with two materials", "statement": "On a one-dimensional grid with two materials and one interface, ghost filling turns the level set into the signed distance to the interpolated interface; each material that is not a void keeps its own cells, the 10 N cells beyond its last one get the star state of that last cell and of the cell one cell beyond the interface, and the rest keep the state; the material is advanced on its own cells and one more. A void keeps its array and is advanced nowhere.", "quantifier": "every grid with at least three cells, spacing, interface position (either material on the left), state, materials and star-state function", "why_tests_cant": "what a ghost cell gets depends on where in a cell the interface lies and on the orientation; a test sees a few positions and not the one that reads past the end of the array", "anchors": ["code/cpp/src/multi/fill.cpp fill_ghost_cells, fill_boundary_cells, fill_neighbor_cells", "code/cpp/src/multi/functions.cpp", "code/cpp/src/../include/skfmm distance_marcher.cpp"]}
{"id": "C89", "title": "A run with several materials never has an undefined outcome", "statement": "A whole run with level sets ends with its output at the final time or with a NaN, whatever the data, number of threads and schedule, and the number of its turns is bounded if the wave speeds are.", "quantifier": "every initial state, materials, grid, boundary types, thread teams and schedules; histories of arbitrarily many turns", "why_tests_cant": "undefined behaviour in the ghost filling depends on where the interface is after many steps", "anchors": ["code/cpp/src/solvers/iterator.cpp iterator", "code/cpp/src/multi/fill.cpp fill_ghost_cells", "code/cpp/src/system/multi/riemann.cpp left_star_state"]}
{"id": "C90", "title": "Voids stay empty", "statement": "In the state at the end of a run and in every snapshot, the cells that belong to a void hold zero in all components that are not level sets.", "quantifier": "every run with level sets, initial state, materials, number of turns", "why_tests_cant": "leftovers in a void need a particular history of interface motion", "anchors": ["code/cpp/src/solvers/iterator.cpp iterator, make_u", "code/cpp/src/solvers/utils.cpp"]}
{"id": "C91", "title": "What a time step and a run compute", "statement": "The state one material has after a time step is, in every cell, a formula of the state and mask before it: boundary-extended cells are relaxed for half a step (split solver), reconstructed as the WENO average of the polynomials of the stencils, moved on by half a step of the quasi-linear system or by the predictor, combined by the finite volume sums over the faces between active cells, and relaxed again. Ghost arrays, slabs, threads and buffers leave no trace, so a whole run, with one material or several, is the loop around that formula.", "quantifier": "every state, mask, time step, thread team and schedule; 1-D and 2-D, split and ADER, N >= 1; runs of any length", "why_tests_cant": "a wrong index, stale ghost cell or missed barrier may show only on particular data or schedules; tests compare with outputs of the same program", "anchors": ["code/cpp/src/solvers/steppers.cpp ader_stepper_para, split_stepper_para", "code/cpp/src/solvers/iterator.cpp iterator", "code/cpp/src/solvers/weno/weno.cpp", "code/cpp/src/solvers/fv/fv.cpp", "code/cpp/src/options.h", "code/cpp/src/etc/grid.cpp"]}
{"id": "C92", "title": "Domain of dependence of a step", "statement": "The new state of a cell depends only on the old states at most N cells away along each axis (in 2-D not on the corners of that square) and on the mask at most two cells away; what happens elsewhere in the grid, and how many threads there are, has no influence on it.", "quantifier": "every pair of states and masks that agree there, every cell (next to a periodic boundary: at distance N from it), time step, teams and schedules", "why_tests_cant": "leaks across slabs or rows show only for particular data at a distance", "anchors": ["code/cpp/src/solvers/steppers.cpp", "code/cpp/src/solvers/weno/weno.cpp", "code/cpp/src/solvers/fv/fv.cpp", "code/cpp/src/etc/grid.cpp"]}
{"id": "C93", "title": "Translation invariance on periodic grids", "statement": "Shifting the initial state of a periodic grid by any number of cells, in 2-D along either periodic axis, shifts the result: a step of the shifted state is the shifted step, and a whole run takes the same time steps and gives every snapshot shifted.", "quantifier": "every state, shift, number of turns, teams and schedules, both solvers, 1-D and 2-D", "why_tests_cant": "slab boundaries, ghost layers and loops single out cells; a test uses one position", "anchors": ["code/cpp/src/solvers/iterator.cpp iterator, timestep", "code/cpp/src/solvers/steppers.cpp", "code/cpp/src/etc/grid.cpp boundaries"]}
{"id": "C94", "title": "Mirror symmetry of a run on a line", "statement": "Mirroring the initial state of a line (cells in reverse order, first velocity component and the mixed components of the distortion negated) and exchanging the two walls mirrors the result: a step of the mirrored state is the mirrored step, and a whole run takes the same time steps, ends at the same time and gives every snapshot mirrored. Upwinding, stencil selection and quadrature have no preferred direction.", "quantifier": "every state, number of turns, boundary type whose wall commutes with the mirror (transmissive, periodic, slip, stick, symmetric), thread teams and schedules; split and ADER solver, N >= 1, each numerical flux", "why_tests_cant": "a bias to one side is of the size of the discretisation error; a test compares one profile with a tolerance", "anchors": ["code/cpp/src/solvers/steppers.cpp", "code/cpp/src/solvers/weno/weno.cpp weno", "code/cpp/src/solvers/fv/fv.cpp", "code/cpp/src/solvers/fv/fluxes.cpp", "code/cpp/src/etc/grid.cpp boundaries"]}
{"id": "C95", "title": "A symmetric wall stands for the mirrored half of the domain", "statement": "Without heat conduction, a run of n cells behind a symmetric wall is the right half of the run of the 2n cells that consist of the mirror image of the initial state and the initial state: same time steps, and at the end and in every snapshot the whole line holds the half line and its mirror image.", "quantifier": "every initial state, number of turns, type of the far boundary other than periodic, thread teams and schedules, both solvers", "why_tests_cant": "an error in one ghost component shows only for states in which that component matters; a test compares a few profiles", "anchors": ["code/cpp/src/etc/grid.cpp boundaries", "code/cpp/src/solvers/iterator.cpp iterator", "code/cpp/src/solvers/steppers.cpp"]}
{"id": "C96", "title": "Relaxation is frame indifferent", "statement": "The source-term step of a state seen by a rotated or reflected observer, of a rotated or reflected material, is the step of the state seen by the first observer, turned the same way; in particular the result does not depend on which of the possible singular value decompositions the linear algebra library returns, and a strain with an axis of symmetry keeps it.", "quantifier": "all states, all pairs of orthogonal matrices, all time steps, all decompositions that meet the library's contract", "why_tests_cant": "orthogonal matrices and states are continua, and a test sees only the decomposition the installed library happens to choose", "anchors": ["code/cpp/src/system/relaxation/analytic.cpp: ode_stepper_analytic, analyticSolver_distortion, analyticSolver_thermal, analyticSolver_body_forces"]}
{"id": "C97", "title": "A field that does not vary along y evolves on a plane as on a line", "statement": "If every row of a two-dimensional initial condition is the same line of cells, and the two ends along y are open or joined, then after a step every row is what a step of the one-dimensional solver makes of that line, and a whole run ends with the rows the one-dimensional run ends with, at the same time and after the same number of turns, when the latter takes its time step from the wave speeds of both directions. This holds with the split and the unsplit solver, whatever the number of threads.", "quantifier": "every material, flux, order, line of states, wall at the two ends along x, numbers of cells and cell sizes in both directions, time step, number of threads in either run and interleaving of them, length of run", "why_tests_cant": "A test compares one field; that no term of the two-dimensional reconstruction, predictor, half step or finite volume sum leaks from one row into the next must hold for every field and every interleaving.", "anchors": ["code/cpp/src/solvers/weno/weno.cpp: weno_launcher", "code/cpp/src/solvers/dg/dg2.cpp: rhs2", "code/cpp/src/solvers/fv/fv.cpp", "code/cpp/src/solvers/split/homogeneous.cpp: midstepper2", "code/cpp/src/solvers/iterator.cpp: iterator, timestep", "code/cpp/src/etc/grid.cpp: boundaries"]}
{"id": "C98", "title": "The space-time predictor solves the model's equations at the nodes of the cell", "statement": "Take the polynomial in time and space through the values the predictor writes for a cell. At every time node and every space node its time derivative equals the time step times the rate of the governing equations there (source, minus the nonconservative product with the slopes of the polynomial, minus the slopes of the polynomial through the nodal fluxes), up to one term that penalises the difference from the reconstructed initial values. The rates are those of a field within the stopping tolerance of the written one; with the nonlinear solver they are those of the written field itself, up to the residual it stopped at. As a consequence the value at the end of the step is the initial value plus the step times the quadrature of the rates, the mean of every conserved variable changes by the difference of the end fluxes, and a solution of the equations that is a polynomial of degree below the order of the scheme is a fixed point of the iteration.", "quantifier": "every physics, order, interpolating basis with an exact enough quadrature, cell data, time step and cell size; one and two dimensions", "why_tests_cant": "The iteration solves a nonlinear system assembled from tables of products of basis functions; a test compares a few numbers and cannot tell that every row of the system is the equation at a node.", "anchors": ["code/cpp/src/solvers/dg/dg1.cpp: rhs1, obj1, initial_condition1, predictor1", "code/cpp/src/solvers/dg/dg2.cpp: rhs2, obj2, initial_condition2, predictor2", "code/cpp/src/solvers/dg/dg_matrices.cpp: derivative_products, end_value_products"]}
{"id": "C99", "title": "A fluid at rest under a uniform pressure stays so, whatever its density profile", "statement": "Start from cells at rest whose energy per volume is the same everywhere and whose distortion is a multiple of the identity that may vary, so that the pressure of a stiffened gas is uniform; the density may vary from cell to cell. A time step creates no velocity and no difference of pressure: with Rusanov's flux it only diffuses the density; with the flux of Roe or Osher every density stays exactly what it was, in every snapshot and at the end of a run of any length. Walls (other than moving ones), reconstruction, predictor or half step, relaxation and the distortion corrections all keep the rest.", "quantifier": "every density profile that does not vary by a factor 3 (on a plane: 9/7) over the grid, so that the reconstructed density is positive, or, for any equation of state with these equilibria, every profile with reconstructed densities in the range where it has them; every grid, time step, length of run, wall, number of threads and interleaving; both solvers", "why_tests_cant": "Spurious velocities at contacts are of the size of rounding or truncation error on smooth test profiles; that they are exactly zero must hold for every profile and step.", "anchors": ["code/cpp/src/solvers/fv/fluxes.cpp: D_RUS, D_ROE, D_OSH", "code/cpp/src/solvers/fv/fv.cpp", "code/cpp/src/solvers/weno/weno.cpp", "code/cpp/src/solvers/split/homogeneous.cpp", "code/cpp/src/solvers/dg/dg1.cpp", "code/cpp/src/solvers/dg/dg2.cpp", "code/cpp/src/system/relaxation/analytic.cpp: ode_stepper_analytic", "code/cpp/src/solvers/iterator.cpp: iterator", "code/cpp/src/etc/grid.cpp: boundaries"]}
{"id": "C100", "title": "Dynamic similarity: results depend on viscosity, conductivity and rates only through ratios to grid size and final time", "statement": "Multiply the cell sizes and the final time by the same positive factor, multiply viscosities (of a power law fluid with exponent n: by the n-th power of the factor), relaxation times of solids and conductivities by it, and divide body forces and reaction rates by it, leaving the equation of state and the initial state as they are. The run then takes the same number of steps, each longer by the factor, and writes the same fields to the same output slots, each at a time later by the factor; it fails if and only if the original run fails, in the same way.", "quantifier": "every factor, initial state, list of materials without level sets, equation of state, reaction law, numerical flux, solver (split or predictor), reconstruction, grid of one or two dimensions, boundary condition, number of threads and interleaving", "why_tests_cant": "A missing or doubled factor of the time step or the cell size in one of the terms of one solver shows up only as a loss of accuracy in a test; the scaling must be exact for every material and state.", "anchors": ["code/cpp/src/solvers/iterator.cpp: iterator, timestep", "code/cpp/src/solvers/fv/fv.cpp", "code/cpp/src/solvers/split/homogeneous.cpp", "code/cpp/src/solvers/dg/dg1.cpp: rhs1", "code/cpp/src/solvers/dg/dg2.cpp: rhs2", "code/cpp/src/solvers/split/rk.cpp", "code/cpp/src/system/relaxation/analytic.cpp", "code/cpp/src/system/relaxation/numerical.cpp", "code/cpp/src/system/variables/sources.cpp: theta1inv, theta2inv, reaction_rate"]}
{"id": "C101", "title": "Signals travel at most N cells per time step", "statement": "Two runs of one material whose initial states agree up to n N cells from a cell (N the order, n the number of turns) have the same state in that cell after n turns: what happens farther away, and how many threads each run has, cannot have reached it.", "quantifier": "every pair of initial states, number of turns, cell (next to a periodic boundary: n N cells from it), solver, flux, boundary types, thread teams and schedules; lines and planes; runs that take the same time steps and in which no cell is found contorted", "why_tests_cant": "a leak across slabs, rows or ghost layers shows only for particular data at a distance, after several steps; tests compare a few profiles", "anchors": ["code/cpp/src/solvers/iterator.cpp: iterator, timestep", "code/cpp/src/solvers/steppers.cpp", "code/cpp/src/solvers/utils.cpp: contorted, reset_distortion", "code/cpp/src/solvers/weno/weno.cpp", "code/cpp/src/etc/grid.cpp: boundaries"]}
{"id": "C102", "title": "Plane motion stays plane", "statement": "If the initial state has no velocity, no shear of the distortion and no heat impulse across a plane that contains the directions of the grid (for a 1-D grid: one of the two transverse directions, for a 2-D grid: the third), and no body force acts across it, then every state a run outputs, at the end and in every snapshot, has none either: the solver invents no motion out of the plane.", "quantifier": "all option sets with viscous strain, grids in 1-D and 2-D, orders, boundary conditions, material parameters of the code without a reaction, initial states in the plane, thread counts, time step sequences and numbers of steps", "why_tests_cant": "A test compares round-off in chosen runs; the claim covers every run and every component, through reconstruction, predictor, fluxes, boundary cells, relaxation and distortion corrections.", "anchors": ["code/cpp/src/solvers/iterator.cpp: iterator", "code/cpp/src/solvers/steppers.cpp", "code/cpp/src/solvers/fv/fv.cpp", "code/cpp/src/solvers/fv/fluxes.cpp", "code/cpp/src/solvers/dg/dg.cpp", "code/cpp/src/solvers/split/homogeneous.cpp", "code/cpp/src/system/relaxation/analytic.cpp", "code/cpp/src/system/equations.cpp", "code/cpp/src/etc/grid.cpp: boundaries", "code/cpp/src/solvers/utils.cpp: renorm_distortion, reset_distortion"]}
