{"id": "C01", "title": "Applying Dirichlet conditions to an assembled system enforces them", "statement": "After the Dirichlet conditions have been applied to a symmetric sparse system (matrix and right-hand side, block or non-block storage), every solution of the modified system takes the prescribed (scaled) value at every constrained degree of freedom, and satisfies the original, unmodified equations at every unconstrained one.", "quantifier": "every symmetric sparse matrix with a symmetric sparsity graph, every right-hand side, every block size, every list of distinct constrained dofs with arbitrary values and scale factor, every solution vector", "why_tests_cant": "needs all matrices, all dof sets and all solution vectors; a test checks one small mesh and one solve", "anchors": ["src/ApplyConstraints.hpp: Plato::applyConstraints, Plato::applyBlockConstraints"]}
{"id": "C02", "title": "Dirichlet application does not depend on the parallel schedule", "statement": "The matrix and right-hand side left by the Dirichlet routines are the same for every order and interleaving in which the per-condition parallel work items execute, as long as no dof is listed twice; in particular the matrix becomes the original with each constrained row and column replaced by the identity's, whatever the schedule.", "quantifier": "every interleaving of the individual reads, writes and atomic adds of the work items, every matrix, every list of distinct dofs", "why_tests_cant": "a run exhibits one schedule; races show up on a vanishing fraction of schedules", "anchors": ["src/ApplyConstraints.hpp: Plato::applyConstraints, Plato::applyBlockConstraints"]}
{"id": "C03", "title": "Dirichlet application is correct for unsymmetric systems and overlapping node sets", "statement": "The enforcement of C01 also holds when the assembled matrix is not symmetric, and when two node sets constrain the same dof to the same value the result is the same as constraining it once. (The code violates both: it subtracts row instead of column entries from the right-hand side; and when conditions overlap the outcome depends on the schedule.)", "quantifier": "every matrix, every list of conditions including repeated dofs, every schedule", "why_tests_cant": "the failure needs an unsymmetric operator with a nonzero prescribed value, or an overlap plus an unlucky schedule", "anchors": ["src/ApplyConstraints.hpp: Plato::applyConstraints", "src/EssentialBCs.hpp: EssentialBCs::get"]}
{"id": "C04", "title": "Essential boundary conditions map to the right dofs and values", "statement": "The dof/value lists produced from the input contain, for each condition and each node of its node set, exactly one entry whose dof is the node's dof for the requested index and whose value is the condition's value divided by the scale factor, in input order, and nothing else.", "quantifier": "every list of conditions, every node set, every number of dofs per node, every scale factor table", "why_tests_cant": "quantifies over all inputs; an off-by-one at the junction of two conditions only shows for particular sizes", "anchors": ["src/EssentialBCs.hpp: EssentialBC::get_length, EssentialBC::get, EssentialBCs::get"]}
{"id": "C05", "title": "The sparsity graph contains every coupling of the mesh", "statement": "The sparse matrix created for a mesh has, for each node, exactly the nodes that share an element with it (itself included), each once; hence every entry lookup made during assembly succeeds and no contribution is dropped or written outside the matrix.", "quantifier": "every mesh connectivity, every node pair of every element, every block size", "why_tests_cant": "needs all connectivities; a missing edge loses a contribution silently", "anchors": ["src/ImplicitFunctors.hpp: CreateMatrix, CreateBlockMatrix, MatrixEntryOrdinal, BlockMatrixEntryOrdinal"]}
{"id": "C06", "title": "Parallel assembly equals the sum of element contributions", "statement": "The assembled Jacobian, gradient and residual equal, entry by entry, the sum over elements of the element contributions mapped through the connectivity, for every order in which elements are processed and every interleaving of the atomic additions; the transposed assembly gives exactly the transpose.", "quantifier": "every connectivity, every set of element matrices, every interleaving", "why_tests_cant": "a run exhibits one schedule and one mesh", "anchors": ["src/Assembly.hpp: assemble_jacobian, assemble_transpose_jacobian, assemble_residual, assemble_vector_gradient", "src/ImplicitFunctors.hpp: BlockMatrixEntryOrdinal"]}
{"id": "C07", "title": "Block and non-block storage represent the same matrix", "statement": "Converting a block matrix to non-block rows and columns preserves every entry of the matrix it represents, converting back restores the original data, and no access is out of bounds.", "quantifier": "every well-formed block matrix, every block shape", "why_tests_cant": "index arithmetic must be right for all shapes; tests use one or two shapes", "anchors": ["src/PlatoMathHelpers.hpp: getDataAsNonBlock, setDataFromNonBlock"]}
{"id": "C08", "title": "Sorting column entries leaves the matrix unchanged", "statement": "Sorting the column indices of a sparse matrix yields non-decreasing column indices in each row, keeps each value attached to its column, and therefore does not change the linear map the matrix represents.", "quantifier": "every row length, every permutation of columns, every value", "why_tests_cant": "all row contents; the loop used is an unusual exchange sort", "anchors": ["src/PlatoMathHelpers.hpp: sortColumnEntries"]}
{"id": "C09", "title": "Sparse matrix-vector products agree with the dense definition", "statement": "The sparse product-accumulate computes y + A x for the dense matrix the block (or non-block) sparse structure represents, for every storage variant, and rejects mismatching sizes instead of reading out of bounds.", "quantifier": "every well-formed sparse matrix, block shape, x and y", "why_tests_cant": "quantifies over all matrices and vectors", "anchors": ["src/PlatoMathHelpers.hpp: MatrixTimesVectorPlusVector"]}
{"id": "C10", "title": "Element-level dense algebra follows its documented formulas", "statement": "Batched level-2/3 operations compute y := beta y + alpha op(A) x, C := beta C + alpha A B etc. for each cell independently, and touch no other cell.", "quantifier": "every cell count, every dimension, every scalar pair, both transpose modes", "why_tests_cant": "all shapes and scalars, including the transpose of non-square blocks", "anchors": ["src/BLAS2.hpp: matrix_times_vector, axpy", "src/BLAS3.hpp", "src/BLAS1.hpp"]}
{"id": "C11", "title": "Filling and copying vectors stays in bounds", "statement": "Filling the entries listed in an ordinal list writes exactly those entries of the vector and nothing else.", "quantifier": "every vector, every ordinal list", "why_tests_cant": "the failure depends on the relation of two lengths", "anchors": ["src/BLAS1.hpp: fill(ordinals)"]}
{"id": "C12", "title": "A linear elliptic solve satisfies the equations and the boundary values", "statement": "For a linear symmetric problem with an exact linear solver, the state returned by the solve satisfies the discrete equations at every free dof and equals the prescribed value at every constrained dof, for any positive number of Newton steps.", "quantifier": "every symmetric operator, load, boundary data, number of Newton steps", "why_tests_cant": "needs every operator and load", "anchors": ["src/elliptic/Problem.hpp: Problem::solution", "src/ApplyConstraints.hpp"]}
{"id": "C13", "title": "Newton early exit never skips the boundary conditions", "statement": "Whatever the tolerances, the state returned by the elliptic solve satisfies the prescribed boundary values. (The code violates this: with more than one Newton step and a positive residual tolerance, a displacement-driven problem whose initial residual is small exits before any boundary value is imposed.)", "quantifier": "every tolerance, every number of Newton steps, every boundary data", "why_tests_cant": "needs the combination zero initial residual, nonzero prescribed value and multi-step Newton", "anchors": ["src/elliptic/Problem.hpp: Problem::solution"]}
{"id": "C14", "title": "The elliptic adjoint gradient is the total derivative", "statement": "The criterion gradient with respect to the controls equals, in every control direction, the derivative of the criterion through both its explicit dependence and the state's dependence implied by the constrained equations.", "quantifier": "every (possibly unsymmetric) Jacobian, criterion derivatives, set of constrained dofs, every control direction", "why_tests_cant": "finite-difference tests sample a few directions of one problem", "anchors": ["src/elliptic/Problem.hpp: Problem::criterionGradient"]}
{"id": "C15", "title": "The elliptic shape gradient is the total derivative", "statement": "The criterion gradient with respect to the node coordinates equals the total derivative in every configuration direction, also with nonzero prescribed boundary values and unsymmetric Jacobians. (The code violates this: the adjoint system uses the prescribed values and the untransposed Jacobian.)", "quantifier": "every Jacobian, boundary data and direction", "why_tests_cant": "tests use zero prescribed values and symmetric operators", "anchors": ["src/elliptic/Problem.hpp: Problem::criterionGradientX"]}
{"id": "C16", "title": "The self-adjoint shortcut agrees with the adjoint method", "statement": "When a problem is declared self-adjoint, the gradient returned by the shortcut equals the gradient of the general adjoint method. (False in general: the shortcut returns minus the explicit derivative, which is right for the compliance of a load-driven problem and wrong for a displacement-driven one.)", "quantifier": "every linear symmetric problem, every load and prescribed boundary value", "why_tests_cant": "depends on the load type, not on one mesh", "anchors": ["src/elliptic/Problem.hpp: Problem::criterionGradient"]}
{"id": "C17", "title": "Transient heat time stepping satisfies the trapezoid relation", "statement": "After every converged linear step, state and rate satisfy u_k = u_{k-1} + dt((1-alpha) v_{k-1} + alpha v_k) exactly and the semi-discrete equation at the free dofs, for every step of the history in which at least one linear solve is performed (always so with the default tolerances).", "quantifier": "every alpha in (0,1], dt, initial data, number of steps, operators", "why_tests_cant": "needs all histories and parameters", "anchors": ["src/parabolic/TrapezoidIntegrator.hpp", "src/parabolic/Problem.hpp: Problem::solution"]}
{"id": "C18", "title": "Solving twice gives the same transient answer", "statement": "Calling the transient heat solve again with the same inputs returns the same state history. (The code violates this: the state is not reset, so prescribed values accumulate.)", "quantifier": "every call history", "why_tests_cant": "history-dependent; tests call the solver once per object", "anchors": ["src/parabolic/Problem.hpp: Problem::solution"]}
{"id": "C19", "title": "The parabolic adjoint gradient is the total derivative of the whole history", "statement": "The gradient from the backward sweep equals the derivative of the summed criterion through all time steps, in every control direction.", "quantifier": "every number of steps, all step Jacobians and criterion derivatives, every direction", "why_tests_cant": "needs induction over the number of steps", "anchors": ["src/parabolic/Problem.hpp: Problem::criterionGradient"]}
{"id": "C20", "title": "Dynamics time stepping satisfies the Newmark relations", "statement": "After every step displacement, velocity and acceleration satisfy the Newmark update formulas exactly, and the equation of motion at the free dofs.", "quantifier": "every beta, gamma, dt, history length, operators", "why_tests_cant": "needs all histories and parameters", "anchors": ["src/hyperbolic/Newmark.hpp", "src/hyperbolic/HyperbolicProblem.hpp solution"]}
{"id": "C21", "title": "The average-acceleration scheme conserves energy", "statement": "With gamma = 1/2 and beta = 1/4, no damping and no load, the discrete energy is the same at every step of the computed history.", "quantifier": "every symmetric mass and stiffness matrix, initial data, step size, number of steps", "why_tests_cant": "needs all operators and unbounded histories", "anchors": ["src/hyperbolic/Newmark.hpp", "src/hyperbolic/HyperbolicProblem.hpp"]}
{"id": "C22", "title": "The hyperbolic adjoint gradient is the total derivative of the whole history", "statement": "The gradient from the backward sweep equals the derivative of the summed criterion through all time steps, in every control direction.", "quantifier": "every number of steps, all step Jacobians and criterion derivatives, every direction", "why_tests_cant": "needs induction over the number of steps", "anchors": ["src/hyperbolic/HyperbolicProblem.hpp: criterionGradient"]}
{"id": "C23", "title": "Dynamics solves are history independent", "statement": "Calling the dynamics solve again with the same inputs returns the same history, whatever was solved before.", "quantifier": "every call history", "why_tests_cant": "history-dependent", "anchors": ["src/hyperbolic/HyperbolicProblem.hpp solution"]}
{"id": "C24", "title": "Composite criteria: value and gradient are consistent", "statement": "Weighted sum, ratio and least-squares criteria return the documented value, and their gradients are the derivatives of that value given the gradients of the parts.", "quantifier": "every list of parts, weights, gold values, directions", "why_tests_cant": "all lists and values", "anchors": ["src/elliptic/WeightedSumFunction.hpp", "src/elliptic/DivisionFunction.hpp", "src/elliptic/LeastSquaresFunction.hpp"]}
{"id": "C25", "title": "Composite criteria forward the requested step", "statement": "The state gradient of a composite criterion at a given step is composed from the parts' state gradients at that same step and time increment. (The code violates this: the time increment is passed in the step position.)", "quantifier": "every step index and time increment", "why_tests_cant": "invisible while there is a single step and a zero time increment", "anchors": ["src/elliptic/WeightedSumFunction.hpp: gradient_u", "src/elliptic/DivisionFunction.hpp: gradient_u", "src/elliptic/LeastSquaresFunction.hpp: gradient_u"]}
{"id": "C26", "title": "Rotating the inertia about the centre of gravity is the tensor rotation", "statement": "The weights built for a rotated moment of inertia give exactly Q^T (I - m P) Q, with P the parallel-axis tensor of the centre of gravity, for every component, so that the combined criterion's value is that of the rotated central inertia.", "quantifier": "every rotation matrix, centre of gravity, mass and second moments", "why_tests_cant": "all matrices; 6 components with 6 weights each", "anchors": ["src/elliptic/MassPropertiesFunction.hpp: getMomentOfInertiaRotatedAboutCG"]}
{"id": "C27", "title": "Criterion history sums cover each step once", "statement": "The time-dependent criterion value is the sum over the computed time steps of the step values, each weighed once, excluding the initial state.", "quantifier": "every number of steps", "why_tests_cant": "needs all lengths", "anchors": ["src/parabolic/PhysicsScalarFunction.hpp: value", "src/hyperbolic/HyperbolicPhysicsScalarFunction.hpp: value"]}
{"id": "C28", "title": "Density penalties are bounded, monotone and anchored", "statement": "For densities in [0,1], the SIMP and RAMP interpolations are between the minimum value and one, equal the minimum at zero and one at one, and are non-decreasing; the Heaviside interpolation has the same properties between minus and plus its regularization length and is constant beyond. Applying a penalty multiplies every entry of a cell's output exactly once.", "quantifier": "every density, exponent, minimum value, regularisation length", "why_tests_cant": "continuum of inputs", "anchors": ["src/Simp.hpp", "src/Ramp.hpp", "src/Heaviside.hpp"]}
{"id": "C29", "title": "Penalty continuation stays within its bounds", "statement": "Over any number of updates the penalty exponent is non-decreasing and never exceeds its upper bound. (The code violates monotonicity when the initial exponent is above the bound.)", "quantifier": "every number of updates, increment, bound, initial value", "why_tests_cant": "unbounded histories", "anchors": ["src/Simp.hpp: update", "src/Ramp.hpp: update"]}
{"id": "C30", "title": "The threshold projection is a monotone map of [0,1] onto itself", "statement": "The hyperbolic-tangent projection maps 0 to 0, 1 to 1, is strictly increasing and hence maps [0,1] into [0,1].", "quantifier": "every density, steepness beta > 0, threshold in [0,1]", "why_tests_cant": "continuum of inputs", "anchors": ["src/HyperbolicTangentProjection.hpp"]}
{"id": "C31", "title": "Shape-function gradients are exact for linear fields", "statement": "The computed basis gradients of a non-degenerate simplex reproduce the gradient of every linear nodal field exactly, sum to zero over the nodes, and the computed volume is the determinant of the edge matrix (scaled by the quadrature weight).", "quantifier": "every non-degenerate simplex in 1, 2 and 3 dimensions, every linear field", "why_tests_cant": "continuum of geometries", "anchors": ["src/ImplicitFunctors.hpp: ComputeGradientWorkset"]}
{"id": "C32", "title": "Strain is blind to rigid motion and dual to the internal force", "statement": "The computed strain vanishes for every rigid translation and infinitesimal rotation, and the internal-force kernel is the exact transpose of the strain kernel: force . v = volume * stress : strain(v) for all v.", "quantifier": "every geometry, nodal displacement and stress", "why_tests_cant": "continuum of inputs", "anchors": ["src/Strain.hpp", "src/StressDivergence.hpp"]}
{"id": "C33", "title": "Isotropic stiffness is the standard, symmetric, positive-definite law", "statement": "The constant and parametrised isotropic stiffness agree with each other and with lambda tr(e) I + 2 mu e, are symmetric, and give positive energy for nonzero strain when E > 0 and -1 < nu < 1/2. (The one-dimensional parametrised version violates agreement.)", "quantifier": "every admissible E and nu, every strain", "why_tests_cant": "continuum of inputs", "anchors": ["src/IsotropicStiffness.cpp", "src/IsotropicLinearElasticMaterial.cpp", "src/Rank4Voigt.cpp"]}
{"id": "C34", "title": "Stress evaluation for plasticity is the isotropic law", "statement": "The three-dimensional Cauchy stress used in plasticity outputs equals lambda tr(e) I + 2 mu e. (Violated: the trace uses a shear component.)", "quantifier": "every strain and moduli", "why_tests_cant": "needs a nonzero out-of-plane normal strain or yz-shear", "anchors": ["src/ComputeCauchyStress.hpp", "src/ComputeDeviatoricStress.hpp"]}
{"id": "C35", "title": "Two-dimensional principal values are the eigenvalues", "statement": "The two values returned for a symmetric 2x2 tensor are its eigenvalues. (Violated when the shear component is negative.)", "quantifier": "every symmetric tensor", "why_tests_cant": "sign-dependent", "anchors": ["src/Eigenvalues.hpp: Eigenvalues<2>"]}
{"id": "C36", "title": "Three-dimensional principal values: each Jacobi sweep is a similarity", "statement": "Every rotation made by the three-dimensional eigenvalue routine preserves trace, the second and third invariants, reduces the off-diagonal mass by at least a third, and thus after the fixed number of rotations the diagonal is within a known factor of the eigenvalues.", "quantifier": "every symmetric tensor", "why_tests_cant": "continuum of inputs", "anchors": ["src/Eigenvalues.hpp: Eigenvalues<3>"]}
{"id": "C37", "title": "Von Mises measure is rotation-independent of hydrostatic pressure", "statement": "The von Mises stress is unchanged by adding a hydrostatic pressure, is non-negative, homogeneous, and equals sqrt(3/2) times the norm of the deviator; in two dimensions it equals the three-dimensional value for plane stress.", "quantifier": "every stress", "why_tests_cant": "continuum of inputs", "anchors": ["src/VonMisesYieldFunction.hpp"]}
{"id": "C38", "title": "Radial return lands exactly on the yield surface", "statement": "After the local update of a step that yields, the local residual equations (flow rule, hardening, yield condition) are all satisfied exactly; after an elastic step the elastic residual vanishes and the yield function is non-positive up to the tolerance.", "quantifier": "every strain increment, material constants, previous state", "why_tests_cant": "continuum of inputs and all branch outcomes", "anchors": ["src/J2PlasticityUtilities.hpp: updateLocalState-related members", "src/J2PlasticityLocalResidual.hpp: updateLocalState, evaluate"]}
{"id": "C39", "title": "Plastic history invariants", "statement": "Over any loading history the accumulated plastic strain is non-decreasing, the multiplier is non-negative, and the plastic strain and backstress stay trace-free.", "quantifier": "every loading history of any length", "why_tests_cant": "unbounded histories", "anchors": ["src/J2PlasticityLocalResidual.hpp: updateLocalState", "src/J2PlasticityUtilities.hpp"]}
{"id": "C40", "title": "The Newton-Raphson loop terminates and reports convergence only for small residuals", "statement": "The loop stops after at most the maximum number of iterations, and reports convergence only if the residual norm is below the stopping tolerance. (The second half is violated: a stagnating residual is reported as converged.)", "quantifier": "every residual history", "why_tests_cant": "all norm sequences", "anchors": ["src/NewtonRaphsonSolver.hpp: solve, checkStoppingCriterion", "src/NewtonRaphsonUtilities.hpp"]}
{"id": "C41", "title": "Static condensation equals the coupled Newton step", "statement": "Eliminating the local unknowns (Schur complement and condensed residual) and then updating the local state gives the same increments as solving the coupled global-local linear system.", "quantifier": "every coupled linear system with invertible local blocks", "why_tests_cant": "all matrices", "anchors": ["src/NewtonRaphsonSolver.hpp: computeSchurComplement, assembleTangentMatrix, assembleResidual"]}
{"id": "C42", "title": "Adaptive pseudo-time stepping reaches the end time or fails", "statement": "The plasticity forward solve always terminates, and when it reports success the last step is at the end time. (Violated: the number of steps may fail to grow, and an initial count above the maximum is cut after the step size was fixed.)", "quantifier": "every configuration and every pattern of Newton failures", "why_tests_cant": "needs all failure patterns and configuration values", "anchors": ["src/PlasticityProblem.hpp: initialize, solution, resizeTimeDependentStates"]}
{"id": "C43", "title": "Incremental displacement control telescopes to the prescribed value", "statement": "The boundary-value increments imposed over the pseudo-time steps sum to exactly the prescribed value at each step's time.", "quantifier": "every number of steps, every boundary function", "why_tests_cant": "unbounded histories", "anchors": ["src/PlasticityProblem.hpp: updateDispAndLoadControlMultipliers", "src/NewtonRaphsonSolver.hpp: applyConstraints"]}
{"id": "C44", "title": "Reaction forces describe the current solve only", "statement": "The reaction force reported after a solve depends only on that solve. (Violated: it accumulates over retries and repeated solves.)", "quantifier": "every call and retry history", "why_tests_cant": "history-dependent", "anchors": ["src/PlasticityProblem.hpp: computeReactionForce, resizeTimeDependentStates, solveForwardProblem"]}
{"id": "C45", "title": "The path-dependent adjoint is the total derivative of the load history", "statement": "For global, local and projected-pressure-gradient states over any number of steps, the backward sweep gives the total derivative of the criterion.", "quantifier": "every number of steps, all Jacobian blocks, every direction", "why_tests_cant": "needs induction over the number of steps", "anchors": ["src/PathDependentAdjointSolver.hpp", "src/PlasticityProblem.hpp: backwardTimeIntegration"]}
{"id": "C46", "title": "Parsing a written expression recovers its meaning", "statement": "For every arithmetic expression over numbers, variables, + - * / ^, unary signs, parentheses and the supported functions, parsing its fully or minimally parenthesised text and evaluating gives the mathematical value of the expression.", "quantifier": "every expression of any size, every variable assignment", "why_tests_cant": "unbounded nesting", "anchors": ["src/ExpressionEvaluator.cpp: parse_expression, insert_node_item, evaluateNode"]}
{"id": "C47", "title": "Accepted expressions are complete", "statement": "Whenever parsing and validation succeed, brackets and bars are balanced and every operator has its operands, so evaluation never silently substitutes zero for a missing operand.", "quantifier": "every character string", "why_tests_cant": "all strings", "anchors": ["src/ExpressionEvaluator.cpp: parse_expression, validate_expression, validateNode"]}
{"id": "C48", "title": "The power function honours its whole arguments", "statement": "pow(a,b) evaluates to a raised to b for all argument expressions. (Violated: the comma is treated as an infix operator of high precedence.)", "quantifier": "every pair of argument expressions", "why_tests_cant": "atomic arguments, as tests use, work", "anchors": ["src/ExpressionEvaluator.cpp: parse_expression (comma handling)"]}
{"id": "C49", "title": "Lexing is memory safe and rejects malformed numbers", "statement": "No input text makes the parser read past its end or use an uninitialised number. (Violated by text ending in a truncated function name and by an empty exponent.)", "quantifier": "every character string", "why_tests_cant": "all strings", "anchors": ["src/ExpressionEvaluator.cpp: parse_expression"]}
{"id": "C50", "title": "Mesh-map interpolation and its transpose are adjoint", "statement": "applyT is the adjoint of apply for every map, with and without filter, in both filter orders: <y, apply x> = <applyT y, x>.", "quantifier": "every sparse map and filter, every pair of vectors, every schedule of the parallel transpose construction", "why_tests_cant": "all maps and schedules", "anchors": ["src/Plato_MeshMap.hpp: createTranspose, apply, applyT"]}
{"id": "C51", "title": "The linear filter is a weighted average", "statement": "Every row of the filter has non-negative weights summing to one, so filtered values stay between the minimum and maximum of the input and constants are preserved.", "quantifier": "every point cloud and radius > 0", "why_tests_cant": "all geometries", "anchors": ["src/Plato_MeshMap.hpp: setLinearFilterMatrixValues, createLinearFilter"]}
{"id": "C52", "title": "Parent-element search returns the best containing element", "statement": "A mapped point is assigned the candidate element whose smallest barycentric coordinate is largest; the basis values sum to one and reproduce linear fields. (The first half is violated: the last acceptable candidate wins.)", "quantifier": "every mesh and point", "why_tests_cant": "all geometries", "anchors": ["src/Plato_MeshMap.hpp: findParentElements, GetBasis::basis"]}
{"id": "C53", "title": "The symmetry-plane map folds space onto one side", "statement": "The map sends every point to the non-negative side of the plane, leaves points there unchanged, identifies mirror images and is idempotent.", "quantifier": "every plane and point", "why_tests_cant": "continuum of inputs", "anchors": ["src/Plato_MeshMap.hpp: SymmetryPlane"]}
{"id": "C54", "title": "Smoothed Heaviside and delta are consistent", "statement": "The smoothed Heaviside is monotone, between 0 and 1, and its derivative is the smoothed delta everywhere.", "quantifier": "every level-set value, interface width > 0", "why_tests_cant": "continuum of inputs", "anchors": ["src/HamiltonJacobi.hpp: Heaviside, Delta"]}
{"id": "C55", "title": "Level-set update weights are a convex partition", "statement": "The positive nodal weights of an element's Hamiltonian sum to one, so that a constant level-set field is never changed by evolution, and every node either receives no contribution and keeps its value or moves by the time step times a mean of the Hamiltonians (speed times gradient length) of the elements around it - exactly the Hamiltonian where it is uniform.", "quantifier": "every element geometry, speed and field", "why_tests_cant": "continuum of inputs", "anchors": ["src/HamiltonJacobi.hpp: AssembleElementSpeedHamiltonian, AssembleNodalSpeedHamiltonian, assemble_and_update_Eikonal"]}
{"id": "C56", "title": "Uniform surface loads deliver the exact resultant", "statement": "The nodal loads produced by a uniform traction on a set of exterior faces sum to traction times area for each direction.", "quantifier": "every set of faces, geometry, traction", "why_tests_cant": "all meshes", "anchors": ["src/SurfaceLoadIntegral.hpp", "src/NaturalBCUtilities.hpp"]}
{"id": "C57", "title": "Surface loads do not depend on the parallel schedule", "statement": "The element load vectors are the same for every schedule of the face loop. (Violated: faces of one element update shared entries without atomics.)", "quantifier": "every interleaving of face work items", "why_tests_cant": "race needs an element with two loaded faces", "anchors": ["src/SurfaceLoadIntegral.hpp: operator()", "src/SurfacePressureIntegral.hpp: operator()"]}
{"id": "C58", "title": "Operations always run against the current problem definition", "statement": "After any sequence of parameter updates and operations, an operation runs on a problem built from its own definition's current parameters, and reports data computed from it.", "quantifier": "every sequence of updates and operations", "why_tests_cant": "history-dependent", "anchors": ["src/Analyze_App.cpp: MPMD_App::compute, LocalOp::updateParameters, createProblem, resetProblemMetaData"]}
{"id": "C59", "title": "Reinitialise-on-change fires exactly on change", "statement": "A conditional reinitialise operation rebuilds the problem on its first call and thereafter exactly when the parameters differ from those at the last call.", "quantifier": "every sequence of parameter vectors", "why_tests_cant": "history-dependent", "anchors": ["src/Analyze_App.cpp: OnChangeOp::hasChanged"]}
{"id": "C60", "title": "Exported fields carry the requested data", "statement": "Exporting a criterion's control or shape gradient returns that criterion's gradient (component). (Violated for shape gradients: the control-gradient name table is consulted.)", "quantifier": "every table of names, every request history", "why_tests_cant": "depends on which names were registered", "anchors": ["src/Analyze_App.cpp: getScalarFieldHostMirror, addUnique"]}
{"id": "C61", "title": "Step-wise output data are isolated", "statement": "Data saved for a step is exactly what was in the data map when the step was saved, and later evaluations do not alter it.", "quantifier": "every sequence of saves and writes", "why_tests_cant": "history-dependent aliasing", "anchors": ["src/PlatoStaticsTypes.hpp: DataMap::saveState, getState", "src/ToMap.hpp"]}
{"id": "C62", "title": "Rocket ballistics: Newton pressure and profile lengths", "statement": "The pressure solve's residual/Jacobian pair are consistent (the Jacobian is the derivative), the iteration is bounded, and time, thrust and pressure profiles always have equal length covering the burn time.", "quantifier": "every input with a positive time step and every geometry evolution", "why_tests_cant": "continuum and histories", "anchors": ["src/Plato_AlgebraicRocketModel.hpp", "src/Plato_Cylinder.hpp"]}
{"id": "C63", "title": "Conditional expression selects by comparison", "statement": "The branch-free conditional returns its last argument when the first exceeds the second and the one before it otherwise (documented as: if X > Y then A = B), for all pairs. (Violated for differences smaller than one.)", "quantifier": "every pair of values", "why_tests_cant": "continuum of inputs", "anchors": ["src/PlatoMathHelpers.hpp: conditional_expression"]}
{"id": "C64", "title": "Gradients of criteria over a history", "statement": "For a criterion over a state history, the gradient with respect to controls or configuration, and the gradient with respect to the state of any one step, are the derivatives of the criterion's value, also when the value is post-processed (p-norms). (Violated for the state gradient of a p-norm over several computed steps.)", "quantifier": "every number of domains, cells and steps, every direction", "why_tests_cant": "derivatives and unbounded histories", "anchors": ["src/elliptic/PhysicsScalarFunction.hpp", "src/parabolic/PhysicsScalarFunction.hpp", "src/hyperbolic/HyperbolicPhysicsScalarFunction.hpp", "src/TensorPNorm.hpp: postEvaluate"]}
{"id": "C65", "title": "The Heaviside projection keeps void and solid", "statement": "The Heaviside projection maps density 0 to 0 and 1 to 1 and is increasing, as documented. (Violated: the code computes one minus the documented map, so void and solid are exchanged.)", "quantifier": "every density and curvature", "why_tests_cant": "continuum of inputs", "anchors": ["src/HeavisideProjection.hpp"]}
{"id": "C66", "title": "Setting penalty parameters installs each value", "statement": "setParameters installs every value given and the default for every value not given, and nothing else. (Violated: a missing key dereferences an end iterator; the Heaviside model stores the regularization length as its minimum value.)", "quantifier": "every map of parameters", "why_tests_cant": "every subset of keys and values", "anchors": ["src/Simp.hpp: setParameters", "src/Ramp.hpp: setParameters", "src/Heaviside.hpp: setParameters"]}
{"id": "C67", "title": "The intermediate-density penalty vanishes exactly at void and solid", "statement": "For nodal densities in [0,1] the intermediate-density penalty of a cell is between zero and its amplitude, is zero exactly when the cell is uniformly void or uniformly solid, and equals the amplitude at average density one half, in every dimension.", "quantifier": "every cell and densities", "why_tests_cant": "continuum of inputs", "anchors": ["src/IntermediateDensityPenalty.hpp: evaluate", "src/Plato_TopOptFunctors.hpp: cell_mass", "src/LinearTetCubRuleDegreeOne.hpp"]}
{"id": "C68", "title": "Volume and face-area kernels measure the simplex", "statement": "The volume kernel returns the length, area or volume of the simplex and the face-area kernel the area of the triangular face, whatever the orientation and order of the nodes. (Violated in one dimension: the volume kernel returns a sixth of the length.)", "quantifier": "every node position", "why_tests_cant": "continuum of geometries", "anchors": ["src/ImplicitFunctors.hpp: ComputeVolume, ComputeSurfaceArea"]}
{"id": "C69", "title": "Heat flux kernels: exact for linear temperature, conservative, dual to the gradient", "statement": "For a linear temperature field the flux is minus the conductivity times its gradient; the nodal heat contributions of any flux add up to zero, are the transpose of the gradient kernel, and touch only the requested degree of freedom.", "quantifier": "every geometry, conductivity, temperature, flux and degree-of-freedom layout", "why_tests_cant": "continuum of inputs", "anchors": ["src/ScalarGrad.hpp", "src/ThermalFlux.hpp", "src/FluxDivergence.hpp"]}
{"id": "C70", "title": "User-given stiffness is symmetric and completed by the documented defaults", "statement": "Whatever parameters are given, the stiffness is symmetric; it is rejected exactly when a required entry is missing; with only the three cubic constants it is the cubic material.", "quantifier": "every parameter list", "why_tests_cant": "every subset of keys and values", "anchors": ["src/Rank4Voigt.cpp", "src/CubicLinearElasticMaterial.cpp", "src/ParseTools.hpp: getParam"]}
{"id": "C71", "title": "A failed plasticity solve is never evaluated, a successful one always can be", "statement": "A criterion value or gradient can be computed if and only if the most recent forward solve converged. (The 'if' half is violated: once a solve has failed, evaluation is refused for ever.)", "quantifier": "every history of solves", "why_tests_cant": "history-dependent", "anchors": ["src/PlasticityProblem.hpp solution, shouldOptimizationProblemStop"]}
{"id": "C72", "title": "A mapped vertex inside the mesh always finds a parent element", "statement": "The enlarged bounding box of an element contains the element, so if the tree query returns every element whose box contains the mapped location, a mapped location inside an element of non-zero volume is given a parent.", "quantifier": "every mesh, every mapped location inside an element, every complete candidate list", "why_tests_cant": "continuum of geometries", "anchors": ["src/Plato_MeshMap.hpp: findParentElements"]}
{"id": "C73", "title": "A mapped vertex outside the mesh is handled", "statement": "A vertex whose image lies in no element is reported or contributes nothing; the construction of the map never reads outside the mesh. (Violated: such a vertex makes the construction read the vertices of element -2.)", "quantifier": "every mesh and map", "why_tests_cant": "all geometries; the outcome is memory corruption, not a wrong value", "anchors": ["src/Plato_MeshMap.hpp: setMatrixValues, findParentElements"]}
{"id": "C74", "title": "Level-set volume and area are consistent", "statement": "The volume above a level lies between zero and the mesh volume, does not grow with the level, and its derivative with respect to the level is minus the reported area; with a uniform element speed the reported rate of volume change is the speed times the area; none of these depend on the order of the parallel reduction.", "quantifier": "every mesh, field, band width > 0, level, reduction order", "why_tests_cant": "continuum of fields and levels", "anchors": ["src/HamiltonJacobi.hpp: level_set_integral, level_set_volume, level_set_area, level_set_volume_rate_of_change"]}
{"id": "C75", "title": "Reinitialisation and arrival-time steps fix their own solutions", "statement": "A step of reinitialisation (arrival time) leaves a field unchanged at every node with upwind information around which the field already satisfies |gradient| = 1 (speed times |gradient| = 1).", "quantifier": "every mesh, field, step size, order of the atomic additions", "why_tests_cant": "all meshes and fields", "anchors": ["src/HamiltonJacobi.hpp: AssembleNodalSpeedHamiltonian, assemble_and_update_Eikonal"]}
{"id": "C76", "title": "Normalised interface speeds keep direction", "statement": "Normalising the interface speed divides by the returned maximum, so the largest speed becomes one and no speed changes sign. (Violated when no speed is positive: all signs flip, or the result is not a number.)", "quantifier": "every list of speeds", "why_tests_cant": "all speed distributions", "anchors": ["src/HamiltonJacobi.hpp: normalize_interface_speed, max_element_speed, scale_field"]}
{"id": "C77", "title": "The chamber pressure iteration converges monotonically to the equilibrium pressure", "statement": "For a burn-rate exponent strictly between zero and one and positive data the equilibrium pressure exists and is unique; one Newton turn from any pressure with negative Jacobian lands at or above it; from at or above it every iterate stays between it and the previous one, never becomes NaN, and a solve that stops on its tolerance is within tolerance/(1-alpha) of it.", "quantifier": "every positive start, every rate and every iteration count", "why_tests_cant": "continuum of inputs, unbounded iteration", "anchors": ["src/Plato_AlgebraicRocketModel.hpp: newton, residual, jacobian"]}
{"id": "C78", "title": "Body loads deliver density times volume times force", "statement": "A body load adds to each node of a cell, in the named component only, an equal share of scale times mean density times cell volume times the force at the centroid, for every parallel schedule; for any cubature the shares of a cell sum to the quadrature of the force.", "quantifier": "every set of cells, geometry, force function, density and schedule", "why_tests_cant": "all geometries, functions and schedules", "anchors": ["src/BodyLoads.hpp: BodyLoad::get, mapPoints", "src/alg/Basis.cpp", "src/alg/Cubature.cpp"]}
{"id": "C79", "title": "Uniform pressure delivers pressure times area along the normal", "statement": "The nodal loads of a uniform pressure on exterior faces sum, per direction, to the pressure times the sum of area times unit normal, and the loop reads only existing entries. (Violated: with more components than space dimensions, as in plasticity, the normal is read out of bounds.)", "quantifier": "every mesh, face set, normal field and number of components", "why_tests_cant": "all meshes; the out-of-bounds read is silent", "anchors": ["src/SurfacePressureIntegral.hpp: operator()", "src/OmegaHUtilities.hpp: unit_normal_vector"]}
{"id": "C80", "title": "Cubature rules are exact to their degree", "statement": "The cubature of the requested degree integrates every polynomial of that degree over the reference simplex exactly (to 10^-39 where the points are rounded square roots), and unsupported requests are refused.", "quantifier": "every polynomial of the degree, every dimension and degree", "why_tests_cant": "all polynomials", "anchors": ["src/alg/Cubature.cpp: getCubature"]}
{"id": "C81", "title": "Natural boundary conditions yield the requested flux", "statement": "An accepted natural boundary condition has one flux value per field component equal to the one requested; anything else is refused without writing outside its storage. (Violated: a component direction beyond the field's components but within the node's is written out of bounds.)", "quantifier": "every parameter list and number of field and node components", "why_tests_cant": "all parameter lists", "anchors": ["src/NaturalBCs.hpp: append/setUniformComponentLoad etc.", "src/NaturalBC.hpp"]}
{"id": "C82", "title": "Linear basis functions are the simplex's shape functions", "statement": "The basis values sum to one at every point, are one at their own node and zero at the others, and the reported gradients are their derivatives.", "quantifier": "every dimension, point and node", "why_tests_cant": "all points", "anchors": ["src/alg/Basis.cpp: getValues, getGradientValues, getRefCoords"]}
{"id": "C83", "title": "Parameter targets address exactly one entry", "statement": "Importing a parameter whose target is \"[A]:[B]:name\" sets that entry of that (existing) sublist of the operation's problem definition to the value and leaves every other entry alone; \"name(k)\" sets element k of an array; a target in a sublist that does not exist is refused.", "quantifier": "every parameter tree, every nesting depth, every target string of that form, every value", "why_tests_cant": "targets are free text and the trees have any shape and depth; tests try a few inputs", "anchors": ["src/Analyze_App.cpp:parseInline", "src/Analyze_App.cpp:getInnerList", "src/Analyze_App.cpp:setParameterValue", "src/Analyze_App.cpp:split"]}
{"id": "C84", "title": "Exporting a field does not change what is exported later", "statement": "Exporting a field delivers the same data again when repeated, and does not change what any other export delivers, until something is recomputed. (Violated with a mesh map: the stored control gradient is overwritten by its mapped version, so it is mapped again each time.)", "quantifier": "every sequence of exports, every stored gradient and mesh map", "why_tests_cant": "depends on the history of exports; a test exports each field once", "anchors": ["src/Analyze_App.hpp:exportScalarField"]}
{"id": "C85", "title": "A displacement component is the same in the shared data and in the HDF5 file", "statement": "Exporting a component of the solution to the optimiser and writing it to an HDF5 file deliver the same values, that component of the solution at every node. (Violated for transient problems and for problems with more unknowns per node than dimensions.)", "quantifier": "every number of steps, nodes, unknowns per node and component", "why_tests_cant": "needs all shapes of the solution; tests use static elasticity", "anchors": ["src/Analyze_App.hpp:exportScalarField", "src/Analyze_App.cpp:getScalarFieldHostMirror", "src/Analyze_App.cpp:getVectorComponent"]}
{"id": "C86", "title": "Output names identify criteria", "statement": "If initialisation succeeds, each output name delivers the criterion it was declared for by every operation that uses it; input that gives one name to two criteria is refused.", "quantifier": "every list of operations and output names, in every order", "why_tests_cant": "the number of operations and the clashes among their names are unbounded", "anchors": ["src/Analyze_App.cpp:addUnique"]}
{"id": "C87", "title": "Results stay until they are recomputed", "statement": "The value and gradients stored for an operation's criterion change only when that operation is run again. (Violated when two problem definitions have criteria of the same name: they share the storage.)", "quantifier": "every history of events, every set of operations and definitions", "why_tests_cant": "histories are unbounded and mix definitions", "anchors": ["src/Analyze_App.cpp:ComputeCriterionValue", "src/Analyze_App.hpp:mCriterionValues"]}
{"id": "C88", "title": "Static condensation subtracts the condensed block", "statement": "Condensing with row-summed C replaces A by A - B R^-1 D on the rows of the given offset and by A elsewhere, where R is the diagonal matrix of the row sums of C, leaves R^-1 D in D, and stores every entry of the result once, whatever order the sparse kernels and the parallel schedule produce.", "quantifier": "every field, every number of block rows and columns, block sizes, sparsity patterns, values with nonzero row sums, schedules, and every correct sparse product and sum kernel", "why_tests_cant": "patterns, block shapes, entry orders returned by the kernels and schedules are unbounded; tests use two small meshes", "anchors": ["src/PlatoMathHelpers.hpp:Condense", "src/PlatoMathHelpers.hpp:MatrixMatrixMultiply", "src/PlatoMathHelpers.hpp:MatrixMinusMatrix", "src/PlatoMathHelpers.hpp:RowSummedInverseMultiply", "src/PlatoMathFunctors.hpp:RowSum", "src/PlatoMathFunctors.hpp:DiagonalInverseMultiply"]}
{"id": "C89", "title": "The stabilised problem's states solve the coupled equations", "statement": "After solution, the state of every step takes the prescribed values and balances the loads together with a projected pressure gradient that is the (lumped) projection of the gradient of that state's own pressure. (Violated: the projected gradient lags one iteration and subtracts its own previous value; with the default of one step nothing is solved.)", "quantifier": "every linear stabilised problem with nonsingular constrained matrix, number of steps and iterations, controls and previous states", "why_tests_cant": "needs all problems and iteration counts; tests compare one stored state", "anchors": ["src/EllipticVMSProblem.hpp:solution", "src/EllipticVMSProblem.hpp:applyConstraints"]}
{"id": "C90", "title": "The stabilised problem's control gradient is the total derivative", "statement": "The gradient returned for a criterion is the derivative of the criterion along every control perturbation, accounting for the induced change of the state and of the projected pressure gradient. (Violated when the projection depends on the controls.)", "quantifier": "every stabilised problem, criterion, state history, controls and perturbation", "why_tests_cant": "needs all perturbations and problems; finite-difference tests sample one", "anchors": ["src/EllipticVMSProblem.hpp:criterionGradient"]}
{"id": "C91", "title": "The stabilised problem's shape gradient is the total derivative", "statement": "The configuration gradient returned for a criterion is the derivative of the criterion along every perturbation of the coordinates, accounting for the induced change of the state and of the projected pressure gradient. (Violated: the projection always depends on the coordinates.)", "quantifier": "every stabilised problem, criterion, state history, coordinates and perturbation", "why_tests_cant": "needs all perturbations and problems; finite-difference tests sample one", "anchors": ["src/EllipticVMSProblem.hpp:criterionGradientX"]}
{"id": "C92", "title": "A continuation call advances every evaluator once", "statement": "A call to update the problem advances the penalty exponents and other continuation data of each block of each function exactly once, and the value and all derivatives of the function keep using the same data, through any nesting of composite criteria. (Violated: the projection equation of the stabilised problems advances its first block twice.)", "quantifier": "every set of blocks, every nesting of criteria, every history of calls and inputs", "why_tests_cant": "needs all histories and nestings; the double update is invisible with one call on one block", "anchors": ["src/elliptic/VectorFunction.hpp", "src/VectorFunctionVMS.hpp:updateProblem", "src/elliptic/PhysicsScalarFunction.hpp:updateProblem", "src/geometric/GeometryScalarFunction.hpp", "src/GlobalVectorFunctionInc.hpp:updateProblem", "src/LocalVectorFunctionInc.hpp:updateProblem", "src/elliptic/WeightedSumFunction.hpp", "src/J2PlasticityLocalResidual.hpp"]}
{"id": "C93", "title": "Augmented Lagrangian stress criteria measure and enforce the violation of the limit", "statement": "The stress-constrained criteria return the mass term plus, averaged over cells, the multiplier times the violation plus half the penalty times its square; the constraint part is zero exactly for feasible designs. Updates multiply the penalty up to its bound, increase each multiplier by penalty times violation and never decrease it; gradients are the derivatives of the value also at the limit; the mass term of the fully dense design equals its weight. (Violated: mass multipliers can fall below their lower bound; the mass of a block other than the whole mesh is normalised with the wrong cells.)", "quantifier": "every field of stress measures and densities, parameters, block and history of updates", "why_tests_cant": "needs all histories, fields and blocks", "anchors": ["src/Plato_AugLagStressCriterion.hpp", "src/Plato_AugLagStressCriterionGeneral.hpp", "src/Plato_AugLagStressCriterionQuadratic.hpp"]}
{"id": "C94", "title": "An orthotropic material is accepted exactly when it can exist, and its stiffness inverts its compliance", "statement": "An orthotropic linear elastic material entered by its engineering constants (Young's moduli, shear moduli, Poisson's ratios) is accepted when every non-zero stress stores positive energy, refused when a keyword is missing or some stress would release energy, and what is stored is symmetric, positive definite and the inverse of the compliance the constants define. Constants of an isotropic material give the isotropic stiffness.", "quantifier": "every set of real engineering constants in one, two and three dimensions, every stress and every strain", "why_tests_cant": "Stability is a quantified statement over all stresses and the acceptance tests are inequalities between nine real parameters; tests try a handful of published materials.", "anchors": ["src/OrthotropicLinearElasticMaterial.cpp checkOrthoMaterialInputs", "src/OrthotropicLinearElasticMaterial.cpp checkOrthoMaterialStability", "src/OrthotropicLinearElasticMaterial.cpp setOrthoMaterialModel"]}
{"id": "C95", "title": "Free thermal expansion carries no stress", "statement": "A body of any shape and mesh at one temperature throughout, displaced by the thermal expansion of its material plus any rigid motion, is in equilibrium: every entry of the thermoelastic residual is zero, whatever the density field, the penalty and the stiffness. (Found: proved for expansivities without shear components in two and three dimensions; shear components are accepted as input and dropped, and in one dimension the expansivity is read outside its array.)", "quantifier": "every mesh, number of element blocks, density field, penalty, stiffness, conductivity, temperature and rigid motion", "why_tests_cant": "needs all meshes and states; tests use one box mesh and isotropic data", "anchors": ["src/TMKinetics.hpp operator()", "src/TMKinematics.hpp", "src/VoigtMap.hpp", "src/elliptic/ThermoelastostaticResidual.hpp evaluate"]}
{"id": "C96", "title": "Internal forces balance on every mesh", "statement": "For every state, the internal nodal forces of the elastic, thermoelastic and electroelastic residuals do no work in a rigid motion (no resultant force or moment), conduction neither creates nor destroys heat or charge, the transient heat residual sums to the rate of change of the heat content, and a rigid motion, a uniform temperature or a uniform potential produces no residual at all.", "quantifier": "every mesh, state, material, density field, cell forcing and rigid motion", "why_tests_cant": "needs all states and meshes; tests compare one residual vector with stored numbers", "anchors": ["src/elliptic/ElastostaticResidual.hpp evaluate", "src/elliptic/ThermostaticResidual.hpp evaluate", "src/elliptic/ThermoelastostaticResidual.hpp evaluate", "src/elliptic/ElectroelastostaticResidual.hpp evaluate", "src/parabolic/HeatEquationResidual.hpp evaluate"]}
{"id": "C97", "title": "Internal energy criteria equal the work of the internal forces", "statement": "The internal energy criterion evaluated at a state equals the work of the internal forces of the residual in that state (half of it for the elastic energy), so that at a solution it is the compliance. (Found: the thermal energy of a material with temperature-dependent conductivity is zero whatever the temperatures.)", "quantifier": "every mesh, state, material, reference strain, density field and penalty", "why_tests_cant": "needs all states and meshes and relates two separately coded classes", "anchors": ["src/elliptic/InternalElasticEnergy.hpp evaluate", "src/elliptic/InternalThermalEnergy.hpp evaluate", "src/elliptic/InternalThermoelasticEnergy.hpp evaluate", "src/elliptic/InternalElectroelasticEnergy.hpp evaluate", "src/ThermalFlux.hpp operator()"]}
{"id": "C98", "title": "The residual is the derivative of the internal elastic energy", "statement": "The derivative of the internal elastic energy criterion along any displacement is the work of the elastic residual in that displacement, for a symmetric stiffness. (Found: only without a reference strain; with one the criterion is half the work and its derivative is another force.)", "quantifier": "every mesh, state, direction, density field, symmetric stiffness and reference strain", "why_tests_cant": "a limit over all directions of a real-valued functional", "anchors": ["src/elliptic/InternalElasticEnergy.hpp evaluate", "src/elliptic/ElastostaticResidual.hpp evaluate"]}
{"id": "C99", "title": "Reciprocity and non-negative work", "statement": "For symmetric material tensors the work of the forces of one state in another does not depend on their order (elastic, thermal, electroelastic residuals), and for non-negative stiffness or conductivity the work of the forces of a state in itself is not negative, so the assembled operators are symmetric and positive semi-definite as the symmetric solvers assume.", "quantifier": "every mesh, pair of states, density field, penalty and symmetric material", "why_tests_cant": "a statement about all pairs of states on all meshes", "anchors": ["src/elliptic/ElastostaticResidual.hpp evaluate", "src/elliptic/ThermostaticResidual.hpp evaluate", "src/EMKinetics.hpp operator()", "src/elliptic/ElectroelastostaticResidual.hpp evaluate"]}
{"id": "C100", "title": "A transient residual at rest is the static residual", "statement": "With zero rates the transient heat and thermomechanical residuals equal the static ones, so that a transient run settles at the static solution. (Found: the transient heat residual ignores a temperature-dependent conductivity altogether: nothing is conducted.)", "quantifier": "every mesh, state, material and density field", "why_tests_cant": "needs all states and relates separately coded classes", "anchors": ["src/parabolic/HeatEquationResidual.hpp evaluate", "src/parabolic/TransientThermomechResidual.hpp evaluate", "src/elliptic/ThermostaticResidual.hpp evaluate", "src/ThermalFlux.hpp operator()"]}
{"id": "C101", "title": "Temperature scaling is only a change of unit", "statement": "Entering a 'Temperature Scaling' s for a thermomechanical material and solving for temperatures divided by s gives the same forces, and heat residuals multiplied by s, as no scaling and the plain temperatures. (Found: only if the reference temperature and the temperature-dependent laws are themselves entered in the scaled unit; entered in the plain unit, an unloaded body at its reference temperature is stressed.)", "quantifier": "every mesh, state, density field, thermomechanical material and non-zero scaling in two and three dimensions", "why_tests_cant": "relates two runs for every state and scaling", "anchors": ["src/TMKinetics.hpp operator()", "src/LinearThermoelasticMaterial.cpp", "src/ThermoelasticMaterial.hpp", "src/elliptic/ThermoelastostaticResidual.hpp evaluate"]}
{"id": "C102", "title": "Thermomechanical material input gives the material it describes", "statement": "The stiffness used is the isotropic matrix of the entered modulus and Poisson ratio, or the entered components, with the entered polynomial in temperature; likewise expansivity and conductivity; defaults are 23 and 1 for reference temperature and scaling; anything else is refused. (Found: a number under 'Temperature Dependent' = true, or a polynomial without it, is accepted and gives zero stiffness; components written directly in 'Elastic Stiffness' are refused.)", "quantifier": "every input list, temperature and component", "why_tests_cant": "ranges over all inputs; the silent zero needs a particular combination", "anchors": ["src/LinearThermoelasticMaterial.cpp", "src/ThermoelasticMaterial.hpp", "src/material/MaterialModel.hpp"]}
{"id": "C103", "title": "Thermal strain can be left out of the thermomechanical energy", "statement": "With 'Include Thermal Strain' = false the internal thermoelastic energy is that of the material without expansion. (Found: the option edits a copy of a list that is not used, so it never has an effect.)", "quantifier": "every mesh, state, material and value of the option", "why_tests_cant": "a claim about an option having an effect for all states", "anchors": ["src/elliptic/InternalThermoelasticEnergy.hpp constructor"]}
{"id": "C104", "title": "A prescribed heat flux means the same in every physics", "statement": "The heat balance of a thermomechanical problem with negligible mechanics, flux for flux, is that of the thermal problem. (Found: the same prescribed flux enters the two residuals with opposite signs.)", "quantifier": "every mesh, state, density field, material and load", "why_tests_cant": "relates two separately coded problems for all loads", "anchors": ["src/elliptic/ThermostaticResidual.hpp evaluate_boundary", "src/elliptic/ThermoelastostaticResidual.hpp evaluate_boundary", "src/parabolic/HeatEquationResidual.hpp evaluate_boundary"]}
{"id": "C105", "title": "The electric scaling of an electromechanical material is only a change of unit", "statement": "Solving with 'Alpha' = s for potentials divided by s gives the same forces and charges multiplied by s; the value entered is the value used. (Found: in one and two dimensions the entered value is ignored and 1 is used.)", "quantifier": "every mesh, state, density field and material input", "why_tests_cant": "relates two runs for every state and scaling", "anchors": ["src/EMKinetics.hpp operator()", "src/LinearElectroelasticMaterial.cpp", "src/elliptic/ElectroelastostaticResidual.hpp evaluate"]}
{"id": "C106", "title": "The homogenisation criterion gives the effective stiffness", "statement": "For cell problems in equilibrium against a linear space of fluctuations, the criterion with unit assumed strain a and forcing column b is the mixed energy of the two total strains: it is symmetric in a and b, and its diagonal entries lie between zero and the energy of any admissible fluctuation, in particular the volume average. Missing or short input is reported. (Found: without 'Cell Problem Forcing' the column is an uninitialised variable, and a short 'Assumed Strain' is read past its end.)", "quantifier": "every mesh, density field, penalty, symmetric stiffness, space of fluctuations and solution", "why_tests_cant": "quantifies over all solutions and all competing fields", "anchors": ["src/elliptic/EffectiveEnergy.hpp", "src/HomogenizedStress.hpp", "src/CellForcing.hpp", "src/elliptic/ElastostaticResidual.hpp evaluate"]}
{"id": "C107", "title": "The stabilised formulation agrees with the displacement formulation", "statement": "With an isotropic material, wherever the scaled pressure equals the bulk modulus times the volume change in every cell, the momentum equations of the stabilised mixed formulation are those of the ordinary elastic problem, and the pressure equations hold if in addition the pressure gradient is the projected one. (Found: true in three dimensions only. In two the deviatoric stress removes a third of the trace of a two-entry stress, so no pressure restores it; in one dimension the shear modulus is computed as zero over zero.)", "quantifier": "every mesh, displacement and pressure field, density, penalty, isotropic moduli and pressure scaling", "why_tests_cant": "two formulations are compared for all fields at once", "anchors": ["src/StabilizedElastostaticResidual.hpp evaluate", "src/Kinetics.hpp StabilizedKinetics", "src/ComputeStabilization.hpp", "src/PressureDivergence.hpp"]}
{"id": "C108", "title": "The stabilised system is reciprocal", "statement": "With an isotropic material the internal forces and volume residuals of any state of displacement and pressure do the same work in a second state as those of the second state do in the first, so the matrix handed to a symmetric solver is symmetric.", "quantifier": "every mesh, pair of states, density, penalty, moduli, scaling", "why_tests_cant": "quantifies over all pairs of states", "anchors": ["src/StabilizedElastostaticResidual.hpp evaluate", "src/Kinetics.hpp StabilizedKinetics"]}
{"id": "C109", "title": "Stabilisation vanishes for a linear pressure field", "statement": "The projection problem reproduces the gradient of a linear pressure field, and with that projection the pressure equations contain the volume equation only: the stabilisation adds nothing to a field the elements represent exactly. (Found: the projection and the material read 'Pressure Scaling' from different lists with different defaults, 1 and the bulk modulus; with the defaults the stabilisation does not vanish.)", "quantifier": "every mesh, linear pressure field, displacement field, density, penalty, moduli and scaling", "why_tests_cant": "quantifies over all meshes and fields", "anchors": ["src/PressureGradientProjectionResidual.hpp", "src/StabilizedElastostaticResidual.hpp", "src/IsotropicLinearElasticMaterial.cpp", "src/ProjectToNode.hpp"]}
{"id": "C110", "title": "The energy criterion of the stabilised formulation measures the work of the internal forces", "statement": "The internal energy criterion for stabilised elasticity equals the work of the residual's internal forces in the displacements. (Found: the kinetics fill normal components only before the scalar product; the work of the shear stresses is missing and a body in simple shear has no energy.)", "quantifier": "every mesh, state, density, penalty, moduli, scaling", "why_tests_cant": "quantifies over all states", "anchors": ["src/StabilizedElastostaticEnergy.hpp evaluate", "src/Kinetics.hpp StabilizedKinetics", "src/ScalarProduct.hpp"]}
{"id": "C111", "title": "A description selects the problem it names", "statement": "Every pair of keywords 'Physics' and 'PDE Constraint' either creates the problem they name or is refused with an error; no description creates another problem, and none creates nothing.", "quantifier": "all build options, all keyword strings", "why_tests_cant": "The keywords are free text and the dispatch is split by build options; tests try the documented pairs in one build.", "anchors": ["src/PlatoProblemFactory.hpp: ProblemFactory::create"]}
{"id": "C112", "title": "Element blocks", "statement": "The domains of an accepted spatial model are the ones described. If the element blocks cover the mesh, residuals and criteria are the sums over the cells of the mesh, each cell once with its own material, and boundary loads are added once; the order of the domains does not matter and dividing a body of one material into blocks changes nothing. Every accepted model covers the mesh.", "quantifier": "all meshes, all block lists, all cell and boundary terms", "why_tests_cant": "Ranges over all partitions of a mesh and all orders; tests use one or two fixed blocks.", "anchors": ["src/SpatialModel.hpp: SpatialDomain, SpatialModel", "src/elliptic/VectorFunction.hpp: value", "src/elliptic/PhysicsScalarFunction.hpp: value", "src/GlobalVectorFunctionInc.hpp: value"]}
{"id": "C113", "title": "Local equations of plasticity over several blocks", "statement": "With several element blocks the residual of the local (plastic) equations, its derivatives with respect to states, configuration and control, and the update of the local states give every cell its own row.", "quantifier": "all partitions of the mesh into blocks, all cell evaluators and states", "why_tests_cant": "A misplaced row shows only for particular block layouts; tests use one block.", "anchors": ["src/LocalVectorFunctionInc.hpp: value, valueWorkSet, updateLocalState, gradient_x, gradient_u, gradient_up, gradient_c, gradient_cp, gradient_z", "src/Assembly.hpp: flatten_vector_workset, assemble_vector_workset, transform_ad_type_to_pod_3Dview"]}
{"id": "C114", "title": "The assembled shape gradient is the derivative of the assembled residual", "statement": "With exact element derivatives, the assembled derivative of the residual with respect to the node positions is the derivative of the assembled residual, boundary loads included, in every direction and for every entry.", "quantifier": "all meshes, blocks, element residuals and loads, all directions", "why_tests_cant": "A derivative for all directions and all loads; tests compare single entries or use loads that do not move.", "anchors": ["src/elliptic/VectorFunction.hpp: value, gradient_x", "src/parabolic/VectorFunction.hpp: gradient_x", "src/hyperbolic/HyperbolicVectorFunction.hpp: gradient_x", "src/VectorFunctionVMS.hpp: gradient_x, gradient_x_workset", "src/GlobalVectorFunctionInc.hpp: value, gradient_x"]}
{"id": "C115", "title": "Stress and flux p-norms", "statement": "The stress and flux p-norm criteria return the p-norm of the penalised stress (flux) field: the p-th root of the sum over elements of volume times the p-th power of its magnitude. The value scales with the state, is convex in the state, vanishes exactly for the unstressed body, does not depend on the orientation of the body, and tends to the largest element stress as the exponent grows. Its gradient exists wherever the criterion has a value. (Violated: no gradient for the unstressed body, non-integer exponents, shear counted once, reference strain left out, temperature-dependent conductivities.)", "quantifier": "every mesh of simplices in one to three dimensions, displacement, control, exponent, and direction", "why_tests_cant": "a limit, a convexity law and all meshes and states", "anchors": ["src/TensorPNorm.hpp: TensorPNormFunctor, TensorNormBase", "src/VectorPNorm.hpp", "src/elliptic/StressPNorm.hpp", "src/elliptic/EMStressPNorm.hpp", "src/elliptic/FluxPNorm.hpp", "src/hyperbolic/HyperbolicStressPNorm.hpp"]}
{"id": "C116", "title": "Normalisation of the stress criterion", "statement": "A 'Normalize' list of a stress criterion does what it says: 'Scalar' multiplies the value by sqrt(Scalar Product Weight)/(Reference Weight), 'Barlat' uses the entered exponent, reference and coefficients, and an unknown type or a missing exponent is refused. (Violated: unknown types are ignored, 'Barlat Exponent' has no effect or is an error.)", "quantifier": "every parameter list, mesh, state and integer exponent", "why_tests_cant": "all parameter lists and states", "anchors": ["src/TensorPNorm.hpp: TensorNormFactory, WeightedNormFunctor, BarlatNormFunctor"]}
{"id": "C117", "title": "Barlat stress norm", "statement": "The Barlat norm of a stress is insensitive to pressure, is computed from the principal values of the transformed deviators, reduces for unit coefficients to the sixth-power norm of the principal stress differences and to the stress itself in uniaxial stress, and value and gradient exist for every state. (Violated: no value for the unloaded body, no gradient in uniaxial stress.)", "quantifier": "every stress, set of coefficients, reference and exponent", "why_tests_cant": "holds for all tensors; an eigenvalue problem", "anchors": ["src/TensorPNorm.hpp: BarlatNormFunctor"]}
{"id": "C118", "title": "Mass, centre of gravity and moments of inertia of a design", "statement": "The mass moment functions return the moments of the body whose cells have mass density x mean control x measure: the mass is never negative, the centre of gravity lies in every half-space that contains the nodes, rigid motions keep the mass and move the centre of gravity and the second moments as those of a body, moments of inertia are nonnegative and satisfy the triangle inequality, and they are the integrals over the body.", "quantifier": "all meshes in one, two and three dimensions, coordinates, controls, densities, affine motions and half-spaces", "why_tests_cant": "laws over all meshes and motions; the missing part of a second moment only shows against the integral or a refined mesh", "anchors": ["src/elliptic/MassMoment.hpp: MassMoment::evaluate, computeStructuralMass, computeFirstMoment, computeSecondMoment, mapQuadraturePoint", "src/geometric/MassMoment.hpp"]}
{"id": "C119", "title": "The mass properties criterion", "statement": "A mass properties criterion reads its material densities and its list of properties, weights and gold values from the input; refuses lists of different lengths, names given twice and unknown names; is never negative; is zero exactly for the designs that have all the wanted values, whether some or all ten are given; and does not depend on the order of the list.", "quantifier": "all inputs, meshes, designs and lists of properties, weights and gold values, and every eigenvalue routine that diagonalises the wanted inertia", "why_tests_cant": "the equivalence quantifies over all designs; with all ten properties it involves a change of axes that a sample cannot settle", "anchors": ["src/elliptic/MassPropertiesFunction.hpp: initialize, createLeastSquaresFunction, allPropertiesSpecified, createAllMassPropertiesLeastSquaresFunction, createItemizedLeastSquaresFunction, computeMeshExtent", "src/geometric/MassPropertiesFunction.hpp"]}
{"id": "C120", "title": "Transient mechanics: virtual work, momentum and rigid motion", "statement": "The internal force vector of the transient mechanics equations does, on any virtual displacement, the virtual work of the inertia, the Rayleigh damping and the stress of the material, each cell weighted with the penalty of its design value. On a rigid virtual motion the stresses do no work, so the forces balance the rate of change of momentum; without damping they do not depend on velocities; a rigidly coasting body feels only the drag of mass-proportional damping.", "quantifier": "all meshes of valid cells in one, two and three dimensions, displacement, velocity, acceleration and design fields, penalties and materials", "why_tests_cant": "identities over all fields and virtual motions of all meshes; tests sample fields on fixed meshes", "anchors": ["src/hyperbolic/ElastomechanicsResidual.hpp: evaluate, evaluateWithoutDamping, evaluateWithDamping", "src/hyperbolic/InertialContent.hpp", "src/LinearStress.hpp", "src/ProjectToNode.hpp"]}
{"id": "C121", "title": "Transient mechanics: energy balance", "statement": "Kinetic plus strain energy changes at the power of the residual forces minus the Rayleigh dissipation, which is not negative. With average acceleration time stepping the same balance holds exactly over every step of any size, so the energy of an unloaded body on fixed supports never grows and, without damping, is constant. The internal energy criterion is the strain energy, and the kinetic energy is that of the velocity field.", "quantifier": "all meshes, designs, materials with symmetric stiffness, supports, initial states, numbers and sizes of time steps, and all differentiable motions", "why_tests_cant": "stability is a statement about every step size and every number of steps", "anchors": ["src/hyperbolic/ElastomechanicsResidual.hpp", "src/hyperbolic/HyperbolicProblem.hpp solution", "src/hyperbolic/Newmark.hpp", "src/hyperbolic/HyperbolicInternalElasticEnergy.hpp: evaluate"]}
{"id": "C122", "title": "Transient mechanics: material entries and plots", "statement": "The mass density and the Rayleigh coefficients given for a material are the ones the equations use, whatever the material law; entries of the wrong type are refused; and an array that is plotted under a name holds what the name says.", "quantifier": "all material inputs, laws, plot lists, cells and fields", "why_tests_cant": "every combination of entries, laws and requested plots", "anchors": ["src/LinearElasticMaterial.hpp", "src/IsotropicLinearElasticMaterial.cpp", "src/CubicLinearElasticMaterial.cpp", "src/OrthotropicLinearElasticMaterial.hpp", "src/CustomLinearElasticMaterial.cpp", "src/hyperbolic/ElastomechanicsResidual.hpp: toMap"]}
{"id": "C123", "title": "The 'Solution' criterion is a mean over a node set", "statement": "A 'Solution' criterion is the mean, over the nodes of its node set, of the solution's component along 'Normal' (with 'Magnitude': of the magnitude of the solution weighted by 'Normal') at the last step; its gradient with respect to the solution is the gradient of that mean in every direction, and a subgradient where a magnitude vanishes; nothing outside the node set, no control and no coordinate enters; incomplete input is refused.", "quantifier": "all inputs, node sets, states, steps and directions", "why_tests_cant": "every state and direction, states with vanishing magnitudes, every node set", "anchors": ["src/elliptic/SolutionFunction.hpp: SolutionFunction"]}
{"id": "C124", "title": "Initial states are the assigned fields", "statement": "With 'Computed Fields' and an 'Initial State', every unknown of every node starts with the value of the expression assigned to it at the coordinates of that node, and with zero if nothing is assigned; assignments to unknowns or fields that do not exist are refused, and assignments to unknowns that exist are accepted in one, two and three dimensions.", "quantifier": "all field definitions, assignments, names, meshes and node counts", "why_tests_cant": "every combination of assignments and names, meshes of every dimension", "anchors": ["src/ComputedField.hpp: ComputedFields", "src/hyperbolic/HyperbolicProblem.hpp", "src/parabolic/Problem.hpp"]}
{"id": "C125", "title": "Linear systems reach the solver library unchanged", "statement": "Whichever solver stack is used, the library is given a matrix whose entries are those of the assembled matrix, together with the first guess and the right-hand side unchanged, and the vector it returns is handed out unchanged; so a vector that solves the library's system solves the assembled one. Matrices and vectors whose sizes do not match the mesh are refused and well-formed ones accepted.", "quantifier": "all well-formed block matrices, vectors, block sizes, libraries and schedules", "why_tests_cant": "every sparsity pattern, block size and library answer", "anchors": ["src/alg/TpetraLinearSolver.cpp: TpetraSystem, solve", "src/alg/EpetraLinearSolver.cpp: EpetraSystem, solve", "src/alg/AmgXLinearSolver.cpp: solve, check_inputs"]}
{"id": "C126", "title": "Solver settings are used and solver failures reported", "statement": "The solver runs with the iterations, tolerance, package and stack in the input; stacks that are not compiled in and unknown names are refused; a solve that did not converge is reported as an error.", "quantifier": "all solver parameter lists and library answers", "why_tests_cant": "every combination of parameters, types and library reports", "anchors": ["src/alg/TpetraLinearSolver.cpp: TpetraLinearSolver", "src/alg/EpetraLinearSolver.cpp: EpetraLinearSolver", "src/alg/AmgXLinearSolver.cpp: solve", "src/alg/PlatoSolverFactory.cpp: create, determineSolverStack"]}
{"id": "C127", "title": "Names in the input select what they name", "statement": "Every equation and criterion a physics offers is selected by its name, with the penalty named in its own 'Penalty Function' list and the numbers given there (defaults for those missing); unknown equations, criteria, penalties and measures are refused; the criteria of a problem are those listed, under their names.", "quantifier": "all parameter lists, physics, names, penalties and criterion lists", "why_tests_cant": "every combination of names and lists in every physics", "anchors": ["src/Mechanics.hpp: FunctionFactory", "src/Thermal.hpp: FunctionFactory", "src/Thermomechanics.hpp: FunctionFactory", "src/Electromechanics.hpp: FunctionFactory", "src/StabilizedMechanics.hpp: FunctionFactory", "src/StabilizedThermomechanics.hpp: FunctionFactory", "src/Geometrical.hpp: FunctionFactory", "src/hyperbolic/HyperbolicMechanics.hpp: FunctionFactory", "src/InfinitesimalStrainPlasticity.hpp: FunctionFactory", "src/elliptic/ScalarFunctionBaseFactory_def.hpp: create", "src/elliptic/Problem.hpp: initialize"]}
{"id": "C128", "title": "Local measures of tension and equivalent stress", "statement": "For every cell and displacement the tensile energy measure is between zero and the stored elastic energy, is the tensile energy of the principal strains (and with the reversed load makes up the stored energy), is zero under a rigid motion and is refused for anything but an isotropic law; the von Mises measure is the equivalent stress of the linear law, scales with the load and is zero under a rigid motion; the thermal one leaves out the expansion at the mean temperature of the cell and is zero in free expansion.", "quantifier": "all non-degenerate cells in one to three dimensions, displacement gradients, temperatures, admissible moduli, material lists", "why_tests_cant": "The laws are inequalities and identities over all strains; the failing sign of the shear and the missing stress across the plane are not visible on the few states of a unit test.", "anchors": ["src/TensileEnergyDensity.hpp:TensileEnergyDensity::operator()", "src/TensileEnergyDensityLocalMeasure.hpp:TensileEnergyDensityLocalMeasure", "src/VonMisesLocalMeasure.hpp:VonMisesLocalMeasure", "src/ThermalVonMisesLocalMeasure.hpp:ThermalVonMisesLocalMeasure", "src/ElasticModelFactory.hpp:ElasticModelFactory::create"]}
{"id": "C129", "title": "Residual of small strain plasticity", "statement": "For every mesh, plastic state and design the internal forces of the (thermo)plasticity residual do no work in a rigid motion; where the scaled pressure of each cell is the penalised bulk modulus times the elastic volume change they are those of the stress K tr(e) I + 2 G dev(e) of the elastic strain (total minus plastic minus thermal), and the pressure rows vanish; a body that yielded and expanded freely has a zero residual; with the plastic state held fixed the equations are reciprocal; the heat rows are those of conduction and do not see displacements, pressures or plastic state; evaluation is undefined exactly when some cell has no bulk or shear stiffness.", "quantifier": "all meshes of simplices, displacements, pressures, temperatures, local states, designs, moduli, both physics, two and three dimensions", "why_tests_cant": "Unit tests compare one state on one mesh with stored numbers; the laws hold for every state and need all of them.", "anchors": ["src/InfinitesimalStrainPlasticityResidual.hpp:evaluate", "src/InfinitesimalStrainThermoPlasticityResidual.hpp:evaluate", "src/StrainDivergence.hpp:StrainDivergence", "src/PressureDivergence.hpp:PressureDivergence", "src/ComputeStabilization.hpp:ComputeStabilization", "src/ThermoPlasticityUtilities.hpp:computeElasticStrain"]}
{"id": "C130", "title": "Elastic and plastic work", "statement": "Along every history of states the elastic work criterion is the stored elastic energy at the end minus that at the start, so a closed cycle gives zero and the value does not depend on the path; elastic and plastic work of a step together are the work of the mean internal forces in the step; plastic flow without kinematic hardening never gives work back (up to the tolerance of the yield test times the plastic strain); the criteria see the same stress as the residual, and a body at its reference temperature has done no work.", "quantifier": "all meshes, histories of any length, designs, moduli, hardening and yield constants, both physics, parameter lists", "why_tests_cant": "Path independence and dissipation are statements about all histories; tests sum a few steps.", "anchors": ["src/ElasticWorkCriterion.hpp:ElasticWorkCriterion::evaluate", "src/PlasticWorkCriterion.hpp:PlasticWorkCriterion::evaluate", "src/PlasticityProblem.hpp:evaluateCriterion", "src/PlasticityProblem.hpp:getPreviousState", "src/ComputeCauchyStress.hpp:ComputeCauchyStress", "src/J2PlasticityUtilities.hpp:computePlasticStrainMisfit"]}
{"id": "C131", "title": "Principal stresses in the output of plasticity", "statement": "The principal stresses written for a plane cell are the eigenvalues of its stress, the stress of the elastic strain without plastic and thermal parts.", "quantifier": "all plane cells, states, local states, temperatures, moduli, designs", "why_tests_cant": "One output of one cell says nothing about the sign of the shear or about heated bodies.", "anchors": ["src/ComputePrincipalStresses.hpp:ComputePrincipalStresses::operator()", "src/InfinitesimalStrainPlasticityResidual.hpp:computePrincipalStresses", "src/InfinitesimalStrainThermoPlasticityResidual.hpp:computePrincipalStresses"]}
{"id": "C132", "title": "Stabilised thermoelasticity gives the same answer as the formulation without a pressure", "statement": "Where the nodal pressure obeys the pressure law (pressure equals bulk modulus times the elastic volume change, thermal part taken off) the forces and the heat flow at every node computed by stabilised thermoelasticity are those of the formulation without a pressure, and the pressure rows vanish for a smooth pressure. The temperature rows agree for every state.", "quantifier": "all meshes, isotropic materials, states with a temperature, scalings, designs", "why_tests_cant": "A patch test fixes one mesh, one state and one dimension.", "anchors": ["src/StabilizedThermoelastostaticResidual.hpp:evaluate", "src/TMKinetics.hpp:TMVMSKinetics::operator()", "src/TMKinematics.hpp:TMVMSKinematics::operator()"]}
{"id": "C133", "title": "Balance laws of stabilised thermoelasticity", "statement": "The nodal forces are balanced under every rigid motion; the heat flow is conserved, dissipates and is the bilinear form of the conductivity; a body free to expand by its thermal strain at uniform temperature has no residual; at fixed temperatures the changes of forces and pressures are reciprocal.", "quantifier": "all meshes, states, isotropic materials, designs, two and three dimensions", "why_tests_cant": "The laws hold for every mesh, state and virtual motion; tests check a few entries.", "anchors": ["src/StabilizedThermoelastostaticResidual.hpp:evaluate", "src/TMKinetics.hpp:TMVMSKinetics::operator()"]}
{"id": "C134", "title": "Thermoelastic material entries", "statement": "Every entry given for a thermoelastic material is the one used: stiffness from Youngs modulus and Poissons ratio, expansion and conductivity per direction, reference temperature, scalings with default one; a material is refused exactly when a required entry is missing.", "quantifier": "all parameter lists, dimensions", "why_tests_cant": "The combinations of given and missing entries are too many to list.", "anchors": ["src/LinearThermoelasticMaterial.hpp:LinearThermoelasticMaterial", "src/LinearThermoelasticMaterial.hpp:IsotropicLinearThermoelasticMaterial", "src/LinearThermoelasticMaterial.hpp:CubicLinearThermoelasticMaterial"]}
{"id": "C135", "title": "Criteria of a load path and their partial derivatives", "statement": "The value of a criterion of plasticity is its multiplier times the sum over the cells of all blocks, weighted sums combine such values, and every partial derivative it reports (states of both steps, local states of both steps, design, configuration), added up over the load path, is the derivative of that value; the value of each part is recorded under its name.", "quantifier": "all meshes, block divisions, trees of weighted sums, histories of states, designs, directions", "why_tests_cant": "Block divisions, nesting and the variable differentiated combine freely; tests check one criterion on one block.", "anchors": ["src/BasicLocalScalarFunction.hpp:value", "src/BasicLocalScalarFunction.hpp:gradient_x", "src/WeightedLocalScalarFunction.hpp:value", "src/WeightedLocalScalarFunction.hpp:gradient_z", "src/PlasticityProblem.hpp:evaluateCriterion", "src/PlasticityProblem.hpp:addCriterionPartialDerivativeZ", "src/Assembly.hpp:transform_ad_type_to_pod_2Dview"]}
{"id": "C136", "title": "Criteria of a load path are built from their names", "statement": "The criterion built for a name is the one its list in the input describes, with the given weights in the given order and multiplier one by default; incomplete lists are refused; construction ends for every input.", "quantifier": "all inputs, all depths of nesting", "why_tests_cant": "Inputs are unboundedly nested.", "anchors": ["src/PathDependentScalarFunctionFactory_def.hpp:create", "src/WeightedLocalScalarFunction.hpp:initialize", "src/BasicLocalScalarFunction.hpp:initialize"]}
{"id": "C137", "title": "Written files show the state", "statement": "For every problem that can be built from the input, each computed step is written to a file of its own, numbered by the step, in which each field (displacements, pressure, temperature, potential; velocity and acceleration in dynamics) holds exactly the unknowns of that field at every node; the fields together hold every unknown once.", "quantifier": "all physics and PDE keywords, builds, dimensions, meshes, solutions", "why_tests_cant": "Layouts differ by physics and the check must hold for every node, component and step; tests look at single vectors and never at the files.", "anchors": ["src/AnalyzeOutput.hpp:output", "src/AnalyzeOutput.hpp:mechanical_output", "src/AnalyzeOutput.hpp:stabilized_thermomechanical_output", "src/PlatoUtilities.hpp:copy", "src/PlatoProblemFactory.hpp:create"]}
{"id": "C138", "title": "Written files show the element data of their step", "statement": "The file of a step holds the plot data that were saved for that step, one entry per element, and no data of other steps.", "quantifier": "all physics, data maps, numbers of steps and saved states", "why_tests_cant": "Depends on which of the steps saved data, and on tags left on the mesh by earlier steps.", "anchors": ["src/OmegaHUtilities.hpp:add_element_state_tags", "src/AnalyzeOutput.hpp:thermal_output", "src/AnalyzeOutput.hpp:stabilized_thermoplasticity_output", "src/parabolic/Problem.hpp:solution"]}
{"id": "C139", "title": "The stand-alone program reports success exactly when it did the analysis", "statement": "Unless asked for a query, the program ends with success exactly when the input named a mesh file with the extension '.exo' and nothing but 'Plato Driver' as physics, the program supports the dimension, and the analysis with full material everywhere was run and written; otherwise it ends with failure and has not written anything.", "quantifier": "all inputs, builds, mesh readers and solvers", "why_tests_cant": "Every combination of missing and malformed entries has to be refused; tests run valid inputs.", "anchors": ["src/alg/Run.cpp:error_check", "src/alg/Run.cpp:run", "src/PlatoDriver.hpp:driver", "src/PlatoDriver.hpp:run", "src/alg/Analyze.cpp:main"]}
{"id": "C140", "title": "The history of a burn", "statement": "While a rocket burns, the level set after every step is kept and can be written to files: the file for a time shows the level set the chamber had at that time; a burn stays within the memory reserved for it, and a second burn of the same chamber does so too.", "quantifier": "all level-set evolutions, time steps, burn times, numbers of burns", "why_tests_cant": "Off-by-one errors between announced steps, loop turns and columns show up as silent memory corruption, depending on layout and step count.", "anchors": ["src/Plato_LevelSetCylinderInBox.hpp:cacheData", "src/Plato_LevelSetCylinderInBox.hpp:initialize", "src/Plato_LevelSetCylinderInBox.hpp:outputLevelSetField", "src/Plato_LevelSetOnExternalMesh.hpp:readNodalLevelSet", "src/Plato_AlgebraicRocketModel.hpp:initialize", "src/Plato_AlgebraicRocketModel.hpp:solve"]}
{"id": "C141", "title": "The rocket application's objective and gradient", "statement": "On request the application stores half the mean squared difference of thrust and target relative to the target's squared norm, or its derivatives with respect to the design variables, and changes nothing else; data imported under a name are exported under it; operations it does not know are refused.", "quantifier": "all thrust models, targets, design variables, operation and data names", "why_tests_cant": "Must hold for every design; a test at one design variable equal to one cannot tell the derivative from a multiple of it.", "anchors": ["src/PlatoRocketApp.cpp:computeObjFuncValue", "src/PlatoRocketApp.cpp:computeObjFuncGrad", "src/PlatoRocketApp.cpp:performOperation", "src/PlatoRocketApp.cpp:defineOperations", "src/PlatoRocketApp.cpp:setNormTargetThrustProfile", "src/PlatoRocketApp.cpp:inputData"]}
{"id": "C142", "title": "Meshes and fields from text files", "statement": "A text file with coordinates or connectivity is read as the values it holds, and one with a field as its values, one per node or cell; a file of the wrong length is refused.", "quantifier": "all files, dimensions and lengths", "why_tests_cant": "Every file length has to be considered; tests read one well-formed file.", "anchors": ["src/Plato_BuildMesh.hpp:read_coordinates", "src/Plato_BuildMesh.hpp:read_connectivity", "src/Plato_BuildMesh.hpp:read_data", "src/Plato_BuildMesh.hpp:transform"]}
{"id": "C143", "title": "The volume criterion is a volume", "statement": "The volume criterion is the measure of the cells, each weighted with the penalised mean density; full material gives the measure of the mesh, every other design lies between the penalty's minimum and that, and adding material never lowers it.", "quantifier": "all meshes in one to three dimensions, penalties, designs", "why_tests_cant": "Quantifies over all meshes and all pairs of designs.", "anchors": ["src/elliptic/Volume.hpp:evaluate", "src/geometric/Volume.hpp:evaluate", "src/ApplyWeighting.hpp"]}
{"id": "C144", "title": "The temperature average is the average temperature", "statement": "The criterion 'Temperature Average' is the mean of the temperature over the material; in particular a uniform temperature is its own average.", "quantifier": "all meshes in one to three dimensions, indicators, designs, temperatures", "why_tests_cant": "A missing normalisation is invisible in tests that check derivatives or unit meshes.", "anchors": ["src/parabolic/TemperatureAverage.hpp:evaluate", "src/StateValues.hpp"]}
{"id": "C145", "title": "The frequency domain residual is the force amplitude of a vibration", "statement": "For a harmonic motion with the given real and imaginary amplitudes the residual of structural dynamics in the frequency domain holds, in its real and imaginary parts, the amplitudes of the internal and inertial force of the time domain residual, including the damping force; it does not depend on how a cell lists its corners, does work only by damping, and damping takes energy out.", "quantifier": "all meshes in one to three dimensions, materials, penalties, designs, complex states, frequencies, cell numberings", "why_tests_cant": "Relates two residuals for every state and frequency; a wrong sign or a term assigned instead of added is invisible where it vanishes.", "anchors": ["src/StructuralDynamicsResidual.hpp:evaluate", "src/ComplexRayleighDamping.hpp", "src/InertialForces.hpp", "src/ComplexLinearStress.hpp", "src/ComplexStrain.hpp"]}
{"id": "C146", "title": "The adjoint residual of structural dynamics is the transpose", "statement": "The residual used to build the adjoint systems of the frequency domain problem has the transposed Jacobian of the forward residual: work of the forward residual along any second state equals work of the adjoint residual of that state along the first.", "quantifier": "all meshes, materials, penalties, designs, pairs of complex states, frequencies", "why_tests_cant": "A transpose identity over all pairs of states.", "anchors": ["src/AdjointStructuralDynamicsResidual.hpp:evaluate", "src/AdjointComplexRayleighDamping.hpp"]}
{"id": "C147", "title": "The dynamic compliance is the energy of the vibration", "statement": "The dynamic energy criterion is half the sum of strain energy of the amplitudes minus half the squared frequency times their mass energy, which is half the work of the undamped residual, at the frequency of the state.", "quantifier": "all meshes, materials, penalties, designs, complex states, frequencies", "why_tests_cant": "An identity over all states and frequencies; a criterion that is evaluated at a default frequency passes every test at that frequency.", "anchors": ["src/DynamicCompliance.hpp:evaluate", "src/elliptic/PhysicsScalarFunction.hpp:value", "src/StructuralDynamicsProblem.hpp:objectiveValue"]}
{"id": "C148", "title": "The frequency domain problem delivers states in equilibrium", "statement": "For every frequency the delivered state satisfies the supports, prescribed values included, and at all free dofs the residual together with the external force is in balance; one state per frequency in the order of the frequencies.", "quantifier": "all linear residuals, supports, forces, lists of frequencies, exact solvers", "why_tests_cant": "Every combination of loads, supports and Jacobians; a sign error shows only when both kinds of load act.", "anchors": ["src/StructuralDynamicsProblem.hpp:solution", "src/StructuralDynamicsProblem.hpp:applyConstraints"]}
{"id": "C149", "title": "The gradient of a frequency domain objective is its total derivative", "statement": "The gradient over a solution is the sum over the frequencies of the total derivatives of the objective, with supports kept fixed; a problem without an objective refuses.", "quantifier": "all residuals, objectives, frequency lists, supports, exact solvers", "why_tests_cant": "Adjoint identities over all frequencies; tests with a single frequency cannot see terms that are mixed between frequencies.", "anchors": ["src/StructuralDynamicsProblem.hpp:objectiveGradient", "src/StructuralDynamicsProblem.hpp:addResidualContribution"]}
{"id": "C150", "title": "The frequency response misfit measures the distance to the measurements", "statement": "For each frequency the misfit is half the sum over the cells of the squared differences between the state and the measurement of that frequency; it is never negative and zero exactly when the state agrees with the measurement at all corners; measured fields land at their dof for every frequency, and incomplete data are refused.", "quantifier": "all meshes, states, measured fields, index lists, frequency lists", "why_tests_cant": "Quantifies over all frequencies and states; tests with one frequency see neither the missing rows nor the default frequency.", "anchors": ["src/FrequencyResponseMisfit.hpp:evaluate", "src/FrequencyResponseMisfit.hpp:readExperimentalFields", "src/FrequencyResponseMisfit.hpp:readExperimentalData", "src/ComputeFrequencyResponseMisfit.hpp"]}
{"id": "C151", "title": "Values exchanged with the optimiser", "statement": "A value imported under a declared name is what an export of the same size returns, and nothing else changes; undeclared names are refused; exporting does not change what is stored.", "quantifier": "all application states, names, vectors and sizes", "why_tests_cant": "Holds for every sequence of imports and exports; a test sees one name of one size.", "anchors": ["src/Analyze_App.hpp:importScalarValue", "src/Analyze_App.hpp:exportScalarValue"]}
{"id": "C152", "title": "Sensitivities of a criterion with respect to parameters", "statement": "Entry k of the exported sensitivity is the derivative of the criterion along the motion of the nodes given for parameter k; motions that do not fit the mesh and other operations do not disturb it.", "quantifier": "all criteria with a gradient, numbers of parameters and node motions", "why_tests_cant": "A chain rule for every motion and every gradient; tests use one operation with matching sizes.", "anchors": ["src/Analyze_App.cpp:MapCriterionGradientX"]}
{"id": "C153", "title": "Finite difference gradients and perturbed fields", "statement": "Importing the initial value and then, in any order, a perturbed value for every index gives as gradient the difference quotients, each of them the derivative at a point between the two; a perturbed field is the field of the values with one changed and leaves the values as they were.", "quantifier": "all functions, lengths, orders and repetitions of indices, steps", "why_tests_cant": "Histories of imports and calls in any order; tests run one order with all parameters given.", "anchors": ["src/Analyze_App.cpp:ComputeFiniteDifference", "src/Analyze_App.hpp:ComputePerturbedMLSField"]}
{"id": "C154", "title": "A derivative check reports how wrong a gradient is", "statement": "For a criterion that is smooth along the step each reported error is the distance between predicted and true directional derivative up to the fifth derivative times the fourth power of the step size over 18; the value returned for a total derivative is small for a right gradient and not small for a wrong one.", "quantifier": "all criteria, solvers, gradients, base points, steps and step sizes", "why_tests_cant": "A Taylor estimate for every smooth function; tests run the check on particular criteria.", "anchors": ["src/Plato_Diagnostics.hpp:test_criterion_grad_wrt_control", "src/Plato_Diagnostics.hpp:test_partial_control", "src/Plato_Diagnostics.hpp:test_partial_state"]}
{"id": "C155", "title": "A derivative check of the local equations compares every entry", "statement": "The tables printed for the local equations of plasticity sum the distances between predicted and true change over all entries of all cells, for every argument that can be varied.", "quantifier": "all meshes, physics sizes, vector functions, derivatives, steps", "why_tests_cant": "Depends on the ratio of cells and vertices of the mesh; a test mesh with a lucky ratio shows nothing.", "anchors": ["src/Plato_Diagnostics.hpp:test_partial_global_state", "src/Plato_Diagnostics.hpp:test_partial_prev_global_state", "src/Plato_Diagnostics.hpp:test_partial_local_state", "src/Plato_Diagnostics.hpp:test_partial_prev_local_state", "src/Plato_Diagnostics.hpp:test_partial_local_vect_func_inc_wrt_control", "src/Plato_Diagnostics.hpp:global_workset_matrix_vector_multiply"]}
{"id": "C156", "title": "Coupled programs report how the run ended", "statement": "A program coupled to the optimiser ends with exit code zero exactly if connecting, constructing the application, registering it and the whole run succeeded; after any failure it ends with another exit code, and never uses the parallel libraries after it has shut them down.", "quantifier": "every combination of failing and succeeding calls into the coupling library and the application", "why_tests_cant": "tests run the programs where everything succeeds; failures of the coupling at each point are not provoked", "anchors": ["src/Analyze_MPMD.cpp:main", "src/PlatoRocketAppMPMD.cpp:main", "src/AlgebraicRocketMain.cpp:main"]}
{"id": "C157", "title": "Python objects keep the parallel libraries alive", "statement": "The parallel libraries are running exactly while a Python object of the module is alive: any number of objects can be constructed, used and deleted in any order, and a construction that fails does not disturb the others.", "quantifier": "every history of constructions with right and wrong arguments, deletions and calls, in an interpreter where the libraries have or have not been initialised before", "why_tests_cant": "histories are unbounded and the state is a process wide counter; tests construct one object", "anchors": ["src/PlatoPythonModule.cpp:Analyze_init", "src/PlatoPythonModule.cpp:Analyze_dealloc", "src/PlatoPythonModule.cpp:Analyze_new"]}
{"id": "C158", "title": "Data given from Python arrive", "statement": "Importing data from Python either hands exactly these numbers to the field, parameter or value that was named and reports success, or reports an error; exported values come back as they were imported.", "quantifier": "all names, data types, Python values and list lengths", "why_tests_cant": "the combinations of names, types and values are unbounded", "anchors": ["src/PlatoPythonModule.cpp:Analyze_importData", "src/PlatoPythonModule.cpp:Analyze_exportData", "src/PlatoPythonModule.cpp:double_vector_from_list", "src/Analyze_App.hpp:importDataT"]}
{"id": "C159", "title": "Moving the whole body moves the answer with it", "statement": "Turning, reflecting and translating a body together with its displacements turns the internal forces with it, keeps nodal heat flows and keeps the stored energies, for isotropic materials or materials turned along; a cubic material whose axes stay with the coordinates stores another energy.", "quantifier": "every mesh of lines, triangles or tetrahedra, every orthogonal matrix and translation, every nodal field, control, penalty and list of cell materials", "why_tests_cant": "A test turns one mesh by one angle; the claim is over all rotations, meshes, fields and materials, and a mistake in one gradient or shear component can cancel on a particular mesh.", "anchors": ["src/elliptic/ElastostaticResidual.hpp: ElastostaticResidual::evaluate", "src/elliptic/InternalElasticEnergy.hpp: InternalElasticEnergy::evaluate", "src/elliptic/ThermostaticResidual.hpp: ThermostaticResidual::evaluate", "src/parabolic/HeatEquationResidual.hpp: HeatEquationResidual::evaluate", "src/elliptic/ThermoelastostaticResidual.hpp: ThermoelastostaticResidual::evaluate", "src/elliptic/ElectroelastostaticResidual.hpp: ElectroelastostaticResidual::evaluate", "src/elliptic/InternalElectroelasticEnergy.hpp: InternalElectroelasticEnergy::evaluate", "src/ImplicitFunctors.hpp: ComputeGradientWorkset", "src/IsotropicLinearElasticMaterial.cpp: IsotropicLinearElasticMaterial"]}
{"id": "C160", "title": "The numbering of the mesh does not matter", "statement": "Renumbering the nodes, reordering the cells and listing the corners of any cell in any order leaves every nodal residual entry at its node and every energy unchanged.", "quantifier": "every mesh, every renumbering of nodes, cell order and corner order, every field, control, penalty and list of cell materials, for elasticity, heat conduction, thermomechanics and electromechanics", "why_tests_cant": "The number of renumberings is factorial in the size of the mesh; a test shuffles a few, usually keeping the orientation of the cells.", "anchors": ["src/WorksetBase.hpp: WorksetBase", "src/ImplicitFunctors.hpp: ComputeGradientWorkset", "src/elliptic/VectorFunction.hpp: VectorFunction::value", "src/elliptic/ElastostaticResidual.hpp: ElastostaticResidual::evaluate", "src/elliptic/ElectroelastostaticResidual.hpp: ElectroelastostaticResidual::evaluate", "src/LinearTetCubRuleDegreeOne.hpp: LinearTetCubRuleDegreeOne::initialize"]}
{"id": "C161", "title": "Results scale with the units", "statement": "Multiplying all lengths by s and all moduli by k multiplies the internal forces by k s^(d-1) and the stored energy by k s^d; nodal heat flows and thermal energy scale with k s^(d-2).", "quantifier": "every mesh, field, control and material, every s > 0 and every k", "why_tests_cant": "A test compares one pair of units; only a proof shows that no kernel has a hidden absolute length or modulus.", "anchors": ["src/elliptic/ElastostaticResidual.hpp: ElastostaticResidual::evaluate", "src/elliptic/InternalElasticEnergy.hpp: InternalElasticEnergy::evaluate", "src/elliptic/ThermostaticResidual.hpp: ThermostaticResidual::evaluate", "src/elliptic/InternalThermalEnergy.hpp: InternalThermalEnergy::evaluate", "src/ImplicitFunctors.hpp: ComputeGradientWorkset"]}
{"id": "C162", "title": "A supported body has one equilibrium", "statement": "Two solutions with the same given values at the held degrees of freedom and the same loads at all others are equal: for heat conduction wherever the body hangs together with a node of given temperature, for static elasticity, thermoelasticity and electroelasticity in a body in one piece (cells connected through facets) whose supports admit no rigid motion, when the material is positive definite and some material is left everywhere. Both conditions are needed.", "quantifier": "every mesh, control, material, load and pair of solutions", "why_tests_cant": "A test solves one problem and sees one answer; that no second answer exists is a statement about all fields.", "anchors": ["src/elliptic/ElastostaticResidual.hpp: ElastostaticResidual::evaluate", "src/elliptic/ThermostaticResidual.hpp: ThermostaticResidual::evaluate", "src/elliptic/ThermoelastostaticResidual.hpp: ThermoelastostaticResidual::evaluate", "src/elliptic/ElectroelastostaticResidual.hpp: ElectroelastostaticResidual::evaluate"]}
{"id": "C163", "title": "Equilibrium minimises the potential energy and material or supports never weaken a loaded body", "statement": "A field is in equilibrium with its loads exactly if no field with the same held values has less potential energy. Under given loads and resting supports, adding material anywhere and adding supports never increases the work of the loads or the stored energy the criterion reports; under given displacements and no loads adding material never decreases it. The same holds for heat conduction.", "quantifier": "every mesh, load, support, symmetric nonnegative material, control between 0 and 1 and nondecreasing penalty", "why_tests_cant": "An optimiser relies on the sign of this dependence for every design; a test compares two.", "anchors": ["src/elliptic/ElastostaticResidual.hpp: ElastostaticResidual::evaluate", "src/elliptic/InternalElasticEnergy.hpp: InternalElasticEnergy::evaluate", "src/elliptic/ThermostaticResidual.hpp: ThermostaticResidual::evaluate", "src/elliptic/InternalThermalEnergy.hpp: InternalThermalEnergy::evaluate", "src/ApplyWeighting.hpp: ApplyWeighting"]}
{"id": "C164", "title": "The patch test", "statement": "In a body of one material and one density, an affine displacement field (with an affine electric potential, or with one temperature) leaves no force, charge or heat at any interior node, and an affine temperature field no heat. If the nodes on the boundary are moved by an affine field, equilibrium is exactly that field.", "quantifier": "every simplicial mesh in one to three dimensions, every interior node, material and affine field", "why_tests_cant": "Patch tests are run on a few small meshes; the property must hold on every mesh, with cells of every shape and numbering.", "anchors": ["src/elliptic/ElastostaticResidual.hpp: ElastostaticResidual::evaluate", "src/elliptic/ThermostaticResidual.hpp: ThermostaticResidual::evaluate", "src/elliptic/ThermoelastostaticResidual.hpp: ThermoelastostaticResidual::evaluate", "src/elliptic/ElectroelastostaticResidual.hpp: ElectroelastostaticResidual::evaluate", "src/ImplicitFunctors.hpp: ComputeGradientWorkset"]}
{"id": "C165", "title": "The stationary solve of a supported body returns its equilibrium", "statement": "For every mesh, material and design, if the body is connected and held as C162 requires, the stationary solve returns a state that takes the prescribed values exactly and at which every free node is in balance with the load, and no other state does both. No assumption on the assembled matrix is made: that it can be inverted, and that its rows can be used to eliminate nonzero prescribed values, follow from the body. Shown for linear elasticity, linear conduction and piezoelectricity.", "quantifier": "all dimensions, meshes of one piece, positive symmetric materials, designs with positive penalised density, loads, held nodes with arbitrary values, and solvers that solve every invertible system", "why_tests_cant": "invertibility of the assembled matrix and use of its symmetry depend on all meshes, materials and supports together; a test sees one mesh", "anchors": ["src/elliptic/Problem.hpp: Problem::solution", "src/elliptic/VectorFunction.hpp", "src/ApplyConstraints.hpp: applyBlockConstraints", "src/elliptic/ElastostaticResidual.hpp", "src/elliptic/ThermostaticResidual.hpp", "src/elliptic/ElectroelastostaticResidual.hpp"]}
{"id": "C166", "title": "Design gradients of stationary criteria are derivatives", "statement": "The gradient a stationary problem returns for a criterion is the derivative of that criterion, the body being solved anew for each design: for every change of the design, the rate at which the recomputed criterion changes is the gradient times that change. In particular the solution itself is differentiable in the design. Shown for supported elastic, conducting and piezoelectric bodies with any differentiable penalty, with zero and non-zero prescribed values, and any criterion whose own partial derivatives are right.", "quantifier": "all dimensions, meshes of one piece, positive symmetric materials, designs with positive penalised density, differentiable penalties and design-dependent loads, solvers that solve every invertible system, criteria and changes of the design", "why_tests_cant": "finite differences test one direction at one design up to rounding; differentiability of the solution for every body is a limit statement", "anchors": ["src/elliptic/Problem.hpp: Problem::criterionGradient, Problem::solution", "src/elliptic/VectorFunction.hpp: gradient_u, gradient_z", "src/elliptic/ElastostaticResidual.hpp", "src/elliptic/ThermostaticResidual.hpp", "src/elliptic/ElectroelastostaticResidual.hpp"]}
{"id": "C167", "title": "A stationary thermoelastic solve returns the equilibrium", "statement": "A thermoelastic body with constant coefficients, held so that it can neither move nor drift in temperature, has one equilibrium for its prescribed displacements and temperatures, and the solve returns it: the expansion caused by prescribed temperatures is in the displacements returned.  False of a single Newton step: prescribed temperatures are eliminated with the rows of the non-symmetric matrix instead of its columns, so with temperatures given at every node and no load the displacements returned are zero whatever the temperatures.  True for a single step with zero prescribed values, and for two or more steps whatever the values.", "quantifier": "all meshes of one piece in two and three dimensions, positive materials, designs, loads, prescribed values, solvers that solve non-singular systems", "why_tests_cant": "A test of a heated body compares with stored numbers, which were computed with the same solve; no test varies the number of steps.", "anchors": ["src/elliptic/Problem.hpp solution", "src/ApplyConstraints.hpp applyBlockConstraints applyConstraints", "src/elliptic/ThermoelastostaticResidual.hpp evaluate"]}
{"id": "C168", "title": "Transient heat conduction in a body steps as it should for every step length", "statement": "In a body of any shape with constant positive conductivity, density and specific heat, with or without prescribed temperatures, every computed time step follows the trapezoid rule, takes the prescribed temperatures and balances heat at all other nodes, and is the only step that does; so the matrix of the step is never singular, whatever the positive step length.  Without supplies and with prescribed temperatures zero the stored square of the temperature never grows from any state to a later one when the share of the new rate is at least one half.", "quantifier": "all dimensions, meshes, materials, designs, numbers and lengths of steps, initial temperatures, solvers that solve non-singular systems", "why_tests_cant": "A test marches a few steps on one mesh; that the matrix is regular although the capacity matrix with one integration point is not, and that nothing grows for arbitrarily long steps, concern all of them.", "anchors": ["src/parabolic/Problem.hpp solution", "src/parabolic/HeatEquationResidual.hpp evaluate", "src/parabolic/TrapezoidIntegrator.hpp v_value v_grad_u"]}
{"id": "C169", "title": "The heat stored in an insulated body grows by what is supplied", "statement": "In a transient heat problem without prescribed temperatures the heat stored after k steps is what was there at the start plus k times the step length times the supply.  False with a supply: the rates of the initial state are never computed but taken as zero, so the first step stores only the share alpha of its supply (half of it by default) and the rest is missing for ever.  True without a supply: nothing is lost or gained.", "quantifier": "all meshes, materials, designs, supplies, numbers and lengths of steps, initial temperatures", "why_tests_cant": "A test compares temperatures with stored numbers computed in the same way; nobody adds up the heat.", "anchors": ["src/parabolic/Problem.hpp Problem solution mStateDot", "src/parabolic/TrapezoidIntegrator.hpp v_value", "src/parabolic/HeatEquationResidual.hpp evaluate"]}
{"id": "C170", "title": "Each time step of structural dynamics has exactly one solution", "statement": "In an elastic body in one piece with positive stiffness and mass, every computed time step follows Newmark's formulas, takes the prescribed displacements and satisfies the equation of motion at all other entries, and is the only state that does, for every positive step length and all Newmark parameters with beta positive and gamma not negative.  True when the supports admit no rigid motion, and without supports for a bar, for a plane body with two cells of different centres and for a solid with three cells whose centres are not on a line.  False in general: the mass of a cell acts at its centre only (one integration point), so a triangle on its own can turn about its centre without inertia and its steps are not determined.", "quantifier": "all dimensions, meshes, materials, designs, loads in time, prescribed displacements in time, numbers and lengths of steps, initial states, solvers that solve non-singular systems", "why_tests_cant": "A test marches a few steps on one mesh; which bodies have a regular step matrix although the mass matrix is singular concerns all of them.", "anchors": ["src/hyperbolic/HyperbolicProblem.hpp solution", "src/hyperbolic/Newmark.hpp v_value a_value v_grad_u a_grad_u", "src/hyperbolic/ElastomechanicsResidual.hpp evaluate", "src/hyperbolic/InertialContent.hpp operator()"]}
{"id": "C171", "title": "The computed motion of a body balances energy and momentum", "statement": "With average acceleration (gamma 1/2, beta 1/4) and supports that do not move, each step changes the energy by the work of the mean of the loads at both ends of the step on the displacements of the step, minus the step length times the power that damping takes at the mean velocity, which is never negative.  So without loads the energy never exceeds the initial one when the initial accelerations fit the initial state.  In a free body without mass damping every component of momentum and of angular momentum grows in each step by the step length times the gamma-weighted mean of the loads at both ends of the step, for all Newmark parameters; in the first step the initial accelerations stand for the load at the start.  So without loads and initial accelerations both are conserved for ever.", "quantifier": "all dimensions, meshes, materials, designs, loads in time, rigid motions, numbers and lengths of steps, initial states", "why_tests_cant": "A test compares displacements with stored numbers; that nothing is created or lost over any number of steps is a statement about all runs.", "anchors": ["src/hyperbolic/HyperbolicProblem.hpp solution", "src/hyperbolic/Newmark.hpp v_value a_value", "src/hyperbolic/ElastomechanicsResidual.hpp evaluate", "src/hyperbolic/InertialContent.hpp operator()"]}
{"id": "C172", "title": "Solutions follow the numbering, the frame and the units of the body", "statement": "Two stationary problems describe the same supported body: with other numbers for its nodes, cells and cell corners; moved and turned as a whole (its held nodes held in every direction, its materials turned with it); or in other units of length, force and (for potentials) voltage. Then, whatever the linear solvers, the second solve succeeds and returns the displacements (temperatures, potentials) of the first, at the renumbered nodes, turned, or in the new units.", "quantifier": "every mesh of linear simplices in 1 to 3 dimensions, every renumbering, rotation, reflection, translation and unit, every design, load, support that restrains the body and every correct linear solver", "why_tests_cant": "The statement compares two whole solves for every mesh and every numbering; tests compare single meshes written in one way.", "anchors": ["src/elliptic/Problem.hpp solution", "src/elliptic/VectorFunction.hpp value, gradient_u", "src/elliptic/ElastostaticResidual.hpp", "src/elliptic/ThermostaticResidual.hpp", "src/elliptic/ElectroelastostaticResidual.hpp", "src/WorksetBase.hpp assembleResidual"]}
{"id": "C173", "title": "Solutions of linear bodies add up and are reciprocal", "statement": "For supported elastic bodies without reference strains, conducting bodies and piezoelectric bodies: solving for a combination of two loads and of two sets of prescribed values returns the same combination of the two solutions; and with all prescribed values zero, the work of one load on the solution of another equals the work of the other on the solution of the one.", "quantifier": "every mesh of linear simplices in 1 to 3 dimensions, every design, all loads, prescribed values and factors, and every correct linear solver", "why_tests_cant": "It relates whole solves for all loads and all meshes; a test tries a few pairs of loads.", "anchors": ["src/elliptic/Problem.hpp solution", "src/elliptic/ElastostaticResidual.hpp", "src/elliptic/ThermostaticResidual.hpp", "src/elliptic/ElectroelastostaticResidual.hpp"]}
{"id": "C174", "title": "The forces of a moving body are its static forces plus damping and inertia", "statement": "The elastodynamic residual of a mesh is, node by node, the inertia forces (each cell's mass times its mean acceleration plus mass damping times its mean velocity, shared equally between its corners), plus the elastostatic residual of the displacements, plus the elastostatic residual of the velocities in a body whose stiffness is the damping factor times the stiffness. At rest it is the static residual.", "quantifier": "every mesh of linear simplices in 1 to 3 dimensions, every design, penalty, Rayleigh-damped material, displacement, velocity and acceleration", "why_tests_cant": "It relates two different residuals on all meshes and states; a test compares stored numbers for one of them.", "anchors": ["src/hyperbolic/ElastomechanicsResidual.hpp evaluate", "src/elliptic/ElastostaticResidual.hpp", "src/hyperbolic/InertialContent.hpp operator()"]}
{"id": "C175", "title": "Dynamic forces do not depend on the numbering and turn with the frame", "statement": "Renumbering nodes, cells and the corners of cells renumbers the elastodynamic residual. Moving the body rigidly, with its displacements, velocities, accelerations and material turned, turns the residual.", "quantifier": "every mesh of linear simplices in 1 to 3 dimensions, every bijection of nodes, permutation of cells and of corners, every orthogonal matrix and shift, every state", "why_tests_cant": "A test compares a few fixed meshes, not all renumberings and rotations of all meshes.", "anchors": ["src/hyperbolic/ElastomechanicsResidual.hpp evaluate"]}
{"id": "C176", "title": "Simulated motions follow the numbering and the frame", "statement": "For a body whose dynamic steps are determined: renumbering nodes, cells and corners, with loads, prescribed displacements and initial state renumbered, renumbers displacements, velocities and accelerations of every step. Moving the body as a whole, with loads, initial state and prescribed displacements turned, turns all of them.", "quantifier": "all numbers of steps, Newmark parameters, time steps, loads and prescribed values changing in time, meshes, renumberings, orthogonal matrices and correct linear solvers", "why_tests_cant": "It relates whole runs of the solver on all pairs of equivalent inputs; a test runs one input.", "anchors": ["src/hyperbolic/HyperbolicProblem.hpp solution", "src/hyperbolic/ElastomechanicsResidual.hpp", "src/hyperbolic/Newmark.hpp v_value a_value"]}
{"id": "C177", "title": "Simulated motions add up", "statement": "For a body without reference strains whose dynamic steps are determined: running it under a combination of two loads, two sets of prescribed displacements and two initial states returns, in every step, the same combination of the displacements, velocities and accelerations of the two separate runs.", "quantifier": "all numbers of steps, Newmark parameters, time steps, loads and prescribed values changing in time, factors, meshes, designs and correct linear solvers", "why_tests_cant": "It relates three whole runs for all loads and factors; a test runs one.", "anchors": ["src/hyperbolic/HyperbolicProblem.hpp solution", "src/hyperbolic/Newmark.hpp v_value a_value", "src/hyperbolic/ElastomechanicsResidual.hpp evaluate"]}
{"id": "C178", "title": "A body in equilibrium stays at rest", "statement": "A body put at rest in a configuration that balances its constant load and takes its constant prescribed displacements stays in it for all steps, with zero velocities and accelerations. In particular it stays in what the static solve returns for the same load, supports and prescribed values: the static and the dynamic solver agree.", "quantifier": "all numbers of steps, Newmark parameters, time steps, loads, supports, meshes, designs, Rayleigh-damped materials and correct linear solvers", "why_tests_cant": "It relates two solvers on all bodies and for every number of steps.", "anchors": ["src/hyperbolic/HyperbolicProblem.hpp solution", "src/hyperbolic/ElastomechanicsResidual.hpp evaluate", "src/elliptic/Problem.hpp solution", "src/elliptic/ElastostaticResidual.hpp"]}
{"id": "C179", "title": "Transient temperatures follow the numbering and the frame, and add up", "statement": "Take two runs of transient heat conduction in bodies with constant conductivities, stepped alike and started with zero rates. (1) If the second is the first with nodes, cells and corners numbered differently, its supplies, prescribed and starting temperatures carried along, then at every step it returns the same temperatures and rates at the renumbered nodes. (2) If the second is the first moved rigidly or mirrored, its conductivity tensors turned with it, it returns the same temperatures and rates at every step. (3) If supplies, prescribed and starting temperatures of a run are a combination of those of two others, so are its temperatures and rates at every step.", "quantifier": "Every dimension 1 to 3, mesh, cell order, node numbering, rigid motion, penalty function, material, share, step length, number of steps, supply, prescribed and starting temperature, and pair of combination coefficients", "why_tests_cant": "A test compares a few numberings, orientations or loads; the claim is about every mesh, numbering, motion and run length, and about linear solvers that only promise to solve", "anchors": ["src/parabolic/Problem.hpp solution", "src/parabolic/HeatEquationResidual.hpp evaluate", "src/parabolic/TrapezoidIntegrator.hpp"]}
{"id": "C180", "title": "Steady temperatures are kept and approached by the transient solve", "statement": "A transient heat conduction run with constant supplies and prescribed temperatures that starts at temperatures which take the prescribed values and balance the supplies stays there at every step, with zero rates. The temperatures the static solve returns for the same body, supplies and prescribed temperatures are such a state. From any other start, when the share of the new rate is at least one half, the heat-weighted square of the distance to the steady state never grows from one state to a later one.", "quantifier": "Every dimension 1 to 3, mesh, penalty function, material with constant conductivity, share, step length, number of steps, supply, and prescribed and starting temperatures", "why_tests_cant": "A test runs one bar to equilibrium; it cannot show for every mesh, material, step length and run length that the transient and the static solver agree on the steady state or that no step moves away from it", "anchors": ["src/parabolic/Problem.hpp solution", "src/parabolic/HeatEquationResidual.hpp evaluate", "src/parabolic/TrapezoidIntegrator.hpp", "src/elliptic/Problem.hpp solution", "src/elliptic/ThermostaticResidual.hpp evaluate"]}
{"id": "C181", "title": "A custom material uses the equation asked for", "statement": "A material whose parameters contain the equation uses that one. A material that names a Bingo file uses the last comma-separated entry of the line asked for, counted from zero below the line with FITNESS, COMPLEXITY and EQUATION (by the caller, else by the parameter BingoEquation, else the first), whatever text precedes or follows. A line that is not there or has no entries, a file that cannot be opened or announces no equations, and a material with neither equation nor file are errors; never is another equation used.", "quantifier": "all parameter lists, file contents, numbers of lines, indices (also negative) and both ways a file can end", "why_tests_cant": "Files are unbounded texts; tests read one well-formed file.", "anchors": ["src/CustomMaterial.cpp GetCustomExpressionValue"]}
{"id": "C182", "title": "The report of unused input parameters names what was not used", "statement": "After a run, the report of unused parameters lists every parameter that was never read, by its name and value or through a block that contains it and in which nothing was read; it lists no parameter that was read and no block in which anything was read; and a block is only listed when the blocks around it contain something read, so nothing is listed twice in that way. The report fails only when Runtime is given as a parameter instead of a block.", "quantifier": "all parameter trees of any depth and size with any sets of used parameters", "why_tests_cant": "Trees of parameters are unbounded; tests read one input file and ignore the report.", "anchors": ["src/alg/ParseInput.cpp input_file_echo, unused, add_timings"]}
{"id": "C183", "title": "Merging parameter lists keeps what the source does not replace", "statement": "Setting the parameters of one list from another succeeds unless the source has a block where the destination has a parameter. Afterwards reading a parameter gives the value of the source when it has one there, and the value of the destination when the source has no parameter there or at a block around it; no other parameters exist.", "quantifier": "all pairs of parameter trees of any depth whose names are distinct in each list", "why_tests_cant": "It relates all paths of two unbounded trees.", "anchors": ["src/alg/ParseInput.cpp setParameters"]}
{"id": "C184", "title": "Stabilised elastostatics does not depend on the unit of length", "statement": "Measuring the coordinates of a mesh and the displacements in a unit s times smaller, with the same pressures, the same materials and the pressure gradients per new unit, gives the displacement rows of the stabilised elastostatic residual times s^(d-1) and its pressure rows times s^d, so a state in balance stays in balance. The displacement rows do so in two and three dimensions and the pressure rows in three. In two dimensions the pressure rows do not, because the length in the stabilisation is the power 2/3 of the cell's area; they do where the projected pressure gradient equals the pressure gradient.", "quantifier": "Every s > 0, mesh of non-degenerate triangles or tetrahedra, isotropic materials with usable moduli, penalty function, control, displacements, pressures and projected pressure gradients.", "why_tests_cant": "Tests compute with one mesh in one unit; only quantifying over units and meshes tells a length to the right power from one to the wrong power.", "anchors": ["src/Kinetics.hpp StabilizedKinetics", "src/StabilizedElastostaticResidual.hpp evaluate", "src/ComputeStabilization.hpp operator()"]}
{"id": "C185", "title": "Transient temperatures depend on sizes, conductivities, heat capacities and time steps only through the Fourier number", "statement": "Take a second body s times as large, with conductivities k times and heat capacities per volume g times those of the first, and step lengths tau times as long, where g s^2 = k tau.  With the same initial and held temperatures and heat supplies k s^(d-2) times as large, the computed temperatures of both are the same at every node and step, and the rates of the second are those of the first divided by tau.", "quantifier": "all dimensions, meshes, conductivity tensors, designs, penalties, factors s, k, g and tau, integration parameters, numbers of steps, initial temperatures", "why_tests_cant": "A test runs one size and one set of units; similarity is a statement about pairs of runs.", "anchors": ["src/parabolic/Problem.hpp solution", "src/parabolic/HeatEquationResidual.hpp evaluate", "src/parabolic/TrapezoidIntegrator.hpp v_value v_grad_u"]}
{"id": "C186", "title": "The computed motion of a body does not depend on the units of length, force and time", "statement": "Take a second body s times as large, with moduli k times and densities r times those of the first, mass damping coefficients divided by tau and stiffness damping coefficients times tau, and step lengths tau times as long, where r s^2 = k tau^2.  With displacements held at s times, and loads k s^(d-1) times, those of the first at times tau times as late, and initial states scaled alike, the computed displacements, velocities and accelerations of every step are s, s / tau and s / tau^2 times those of the first.", "quantifier": "all dimensions, meshes, materials, designs, penalties, factors, Newmark parameters, supports and loads in time, numbers of steps, initial states", "why_tests_cant": "A test runs one set of units; similarity is a statement about pairs of runs.", "anchors": ["src/hyperbolic/HyperbolicProblem.hpp solution", "src/hyperbolic/Newmark.hpp v_value a_value", "src/hyperbolic/ElastomechanicsResidual.hpp evaluate", "src/hyperbolic/InertialContent.hpp operator()"]}
