{"id": "C01", "title": "Expression text evaluates with the usual algebra", "statement": "For every function definition written with numbers, names, parentheses, the binary operators + - * / ^ and one-argument elementary functions, the value MrHyDE computes is the mathematical value of the text under the usual precedence (sum < product < power) with left associativity and an optional leading minus.", "quantifier": "every expression of the grammar (any size and nesting), every assignment of values to the names", "why_tests_cant": "tests check a few strings; the splitter is a hand-written recursive scanner whose behaviour depends on the whole nesting structure", "anchors": ["src/tools/interpreter.cpp: Interpreter::split", "src/tools/interpreter.cpp: Interpreter::isOperator", "src/managers/function/functionManager_create.hpp: decomposeFunctions", "src/managers/function/functionManager_evaluate.hpp: evaluateOp*"]}
{"id": "C02", "title": "Blanks in an expression do not change its meaning", "statement": "Inserting blanks between tokens of a definition either leaves the computed value unchanged or is rejected with an exception; it never silently changes the value.", "quantifier": "every expression and every placement of blanks", "why_tests_cant": "the set of blank placements is unbounded and the three scanning loops treat blanks differently", "anchors": ["src/tools/interpreter.cpp: Interpreter::split"]}
{"id": "C03", "title": "Unbalanced parentheses are always rejected", "statement": "If the number of opening and closing parentheses of a definition differ, splitting it raises an exception; it is never silently given a meaning.", "quantifier": "every string", "why_tests_cant": "all strings; an unbalanced string may be unbalanced at any depth", "anchors": ["src/tools/interpreter.cpp: Interpreter::split"]}
{"id": "C04", "title": "Number recognition and scientific notation", "statement": "A text is treated as a number exactly when it is an optionally signed decimal with optional exponent, and a definition containing such a numeral has the value the numeral denotes, also when the numeral has a signed exponent.", "quantifier": "every string; every expression containing numerals", "why_tests_cant": "infinitely many strings; the interaction numeral/operator only shows in combinations", "anchors": ["src/tools/interpreter.cpp: Interpreter::isScalar", "src/tools/interpreter.cpp: Interpreter::split", "src/managers/function/functionManager_create.hpp: decomposeFunctions"]}
{"id": "C05", "title": "Unknown function names are rejected", "statement": "A definition that applies a function that MrHyDE does not know raises an exception rather than silently evaluating to something else.", "quantifier": "every name, every argument", "why_tests_cant": "all strings", "anchors": ["src/tools/interpreter.cpp: Interpreter::split", "src/tools/interpreter.cpp: Interpreter::isOperator", "src/managers/function/functionManager_evaluate.hpp: evaluateOpVToV"]}
{"id": "C06", "title": "Two-argument functions accept arbitrary arguments", "statement": "max(a,b) and min(a,b) evaluate to the maximum/minimum of the values of a and b for every pair of argument expressions, or are rejected.", "quantifier": "all argument expressions", "why_tests_cant": "nesting of arguments is unbounded", "anchors": ["src/tools/interpreter.cpp: Interpreter::isOperator"]}
{"id": "C07", "title": "Registering a function: first definition wins, locations are independent", "statement": "For any sequence of registrations, looking up a name at a location yields the expression of the first registration of that name at that location, the returned index is stable, and registrations at one location never affect another.", "quantifier": "every registration history", "why_tests_cant": "histories are unbounded", "anchors": ["src/managers/function/functionManager_create.hpp: addFunction", "src/managers/function/functionManager_util.hpp: hasFunction"]}
{"id": "C08", "title": "Circular definitions are always rejected, acyclic ones never", "statement": "Preparing a set of function definitions terminates; it raises the circularity exception exactly when some definition depends on itself through any chain of other definitions, and sharing (diamonds) is not mistaken for a cycle.", "quantifier": "every dependency graph", "why_tests_cant": "all graphs of any size", "anchors": ["src/managers/function/functionManager_create.hpp: checkDepDataType"]}
{"id": "C09", "title": "Elementwise reductions emax, emin, emean", "statement": "emax(f), emin(f), emean(f) at an element are the maximum, minimum and average of f over the points of that element.", "quantifier": "every number of points and every field", "why_tests_cant": "all data", "anchors": ["src/managers/function/functionManager_evaluate.hpp: evaluateOpVToV (emax/emin/emean)"]}
{"id": "C10", "title": "Deriving a value does not depend on the storage class of operands", "statement": "The value of an operator application is the same whether its operand is stored as a constant, a parameter, a scalar view or an AD view; constant sub-expressions evaluated once at setup give the same value as evaluating them at every point.", "quantifier": "every expression tree, every labelling of its leaves as constant or field", "why_tests_cant": "combinations of operator x storage class x nesting", "anchors": ["src/managers/function/functionManager_evaluate.hpp: evaluate", "src/managers/function/functionManager_evaluate.hpp: evaluateOpVToV", "src/managers/function/functionManager_evaluate.hpp: evaluateOpParamToV", "src/managers/function/functionManager_evaluate.hpp: evaluateOpSToV", "src/managers/function/functionManager_evaluate.hpp: evaluateOpSToS"]}
{"id": "C11", "title": "Stored states are read back as written", "statement": "After any sequence of stores of states with increasing times, extraction by index returns the state and time of the last store to that index, extraction by a stored time returns that state, later mutation of the caller's vector does not change stored data, and out-of-range requests are reported as not found.", "quantifier": "every history of store/reset/extract operations", "why_tests_cant": "unbounded histories and aliasing", "anchors": ["src/tools/solutionStorage.hpp: store", "src/tools/solutionStorage.hpp: extract", "src/tools/solutionStorage.hpp: reset"]}
{"id": "C12", "title": "Extraction by time works for every time", "statement": "Extraction by time succeeds exactly for times equal (to relative tolerance) to a stored time, and returns the matching state, for all real times including zero and negative ones.", "quantifier": "every list of stored times and every requested time", "why_tests_cant": "real-valued inputs", "anchors": ["src/tools/solutionStorage.hpp: extract", "src/tools/solutionStorage.hpp: extractPrevious", "src/tools/solutionStorage.hpp: extractNext"]}
{"id": "C13", "title": "Sparse compression of local matrices loses only negligible entries", "statement": "Compressing a dense table with tolerance tol keeps every entry with |a| > tol*max exactly, in column order, drops the rest, and the compressed product with any vector differs from the dense one by at most tol*max*sum|x|; with tol=0 it is exact.", "quantifier": "every table, tolerance and vector", "why_tests_cant": "all real data", "anchors": ["src/tools/sparse3DView.hpp: Sparse3DView"]}
{"id": "C14", "title": "Matrix-free mass application equals the assembled mass matrix", "statement": "Applying the mass operator without a matrix gives the same vector as multiplying by the assembled mass matrix, for each of the stored/recomputed/database/sparse variants, and the result does not depend on the order in which elements are processed.", "quantifier": "every connectivity, every local mass data, every vector, every element schedule", "why_tests_cant": "all meshes and all parallel schedules", "anchors": ["src/managers/assembly/assemblyManager_mass.hpp: applyMassMatrixFree", "src/managers/assembly/assemblyManager_mass.hpp: getWeightedMass"]}
{"id": "C15", "title": "Lumped mass does not depend on the storage format", "statement": "The lumped (diagonal) mass is the vector of row sums and is the same for dense and sparse storage of the same local matrices.", "quantifier": "every local mass data", "why_tests_cant": "all data", "anchors": ["src/managers/assembly/assemblyManager_mass.hpp: getWeightedMass"]}
{"id": "C16", "title": "Element groups partition the elements of a block", "statement": "For every number of elements, workset size and partitioning mode that builds groups, the groups are disjoint, together contain each element of the block exactly once, and none exceeds the workset size; in subgrid-preserving mode all elements of a group have the same boundary signature.", "quantifier": "every number of elements, workset size, and side-set layout", "why_tests_cant": "all sizes", "anchors": ["src/managers/assembly/assemblyManager_groups.hpp: createGroups"]}
{"id": "C17", "title": "Boundary groups cover each boundary side once", "statement": "For each side set the boundary groups list every (element, local side) pair of the set exactly once, every group has one local side id, and no group exceeds the workset size.", "quantifier": "every side list and every positive workset size (grouping with size 0 does not terminate, C17_zero_refuted)", "why_tests_cant": "all meshes", "anchors": ["src/managers/assembly/assemblyManager_groups.hpp: createGroups (boundary)"]}
{"id": "C18", "title": "Database compression is accurate and complete", "statement": "Every element is assigned a representative that was itself stored and that matches the element within the tolerance directly (errors do not accumulate through chains), indices are in range, and stored representatives are pairwise non-matching when added.", "quantifier": "every sequence of elements and matching test", "why_tests_cant": "all meshes", "anchors": ["src/managers/assembly/assemblyManager_database.hpp: identifyVolumetricDatabase", "src/managers/assembly/assemblyManager_database.hpp: identifyBoundaryDatabase"]}
{"id": "C19", "title": "Assembly is a schedule-independent sum and respects fixed rows", "statement": "The assembled residual and Jacobian equal, entry by entry, the sum of the element contributions over unconstrained rows; the result is independent of element order; rows of fixed degrees of freedom receive nothing from elements and become identity rows with zero residual after constraints.", "quantifier": "every mesh, element order, and set of fixed degrees of freedom", "why_tests_cant": "all connectivities and schedules", "anchors": ["src/managers/assembly/assemblyManager_scatter.hpp: scatterJac", "src/managers/assembly/assemblyManager_scatter.hpp: scatterRes", "src/managers/assembly/assemblyManager_scatter.hpp: scatter", "src/managers/assembly/assemblyManager_constraints.hpp: setJacobianConstraints", "src/managers/assembly/assemblyManager_constraints.hpp: dofConstraints"]}
{"id": "C20", "title": "Gather and scatter are adjoint", "statement": "For every global vector x and element data y, <gather x, y> over elements equals <x, scatter y> globally.", "quantifier": "every connectivity and data", "why_tests_cant": "all data", "anchors": ["src/managers/assembly/assemblyManager_gather.hpp: gather", "src/managers/assembly/assemblyManager_scatter.hpp: scatterRes"]}
{"id": "C21", "title": "The adjoint Jacobian is the transpose of the forward Jacobian", "statement": "The matrix assembled in adjoint mode is the transpose of the matrix assembled in forward mode (on unconstrained rows and columns) for every mesh and data.", "quantifier": "every mesh, residual derivatives", "why_tests_cant": "all data", "anchors": ["src/managers/assembly/assemblyManager_jacres.hpp: updateJac", "src/managers/assembly/assemblyManager_scatter.hpp: scatterJac", "src/managers/assembly/assemblyManager_scatter.hpp: scatter"]}
{"id": "C22", "title": "The automatic-differentiation type is always large enough", "statement": "For every problem accepted at setup, the derivative array length selected for assembly is at least the number of derivatives required on each block, and the smallest specialised type that suffices is used.", "quantifier": "every list of per-block requirements", "why_tests_cant": "all sizes", "anchors": ["src/managers/assembly/assemblyManager_construct.hpp: type_AD", "src/preferences.hpp: MAXDERIVS"]}
{"id": "C23", "title": "Stage formulation is the Runge-Kutta method of the tableau", "statement": "For every lower-triangular tableau with nonzero weights, the states and time derivatives presented to the physics at stage s and the final update are exactly those of the Runge-Kutta method with that tableau: u_s = u_n + dt*sum_{j<=s} a_sj k_j and u_{n+1} = u_n + dt*sum_s b_s k_s.", "quantifier": "every tableau size, coefficients, step size and stage states", "why_tests_cant": "all tableaux", "anchors": ["src/tools/workset.cpp: computeSolnTransientSeeded", "src/managers/solver/solverManager_solvers.hpp: transientSolver"]}
{"id": "C24", "title": "Built-in tableaux have their advertised order", "statement": "Each named tableau satisfies sum b = 1, row sums c, and the Runge-Kutta order conditions of its advertised order.", "quantifier": "all named methods (finite) with exact real coefficients", "why_tests_cant": "floating-point tests cannot distinguish exact from approximate coefficients", "anchors": ["src/managers/solver/solverManager_setup.hpp: setButcherTableau"]}
{"id": "C25", "title": "BDF weights are exact on polynomials", "statement": "For each order k=1..6 the BDF combination of u at t, t-dt, ..., t-k*dt, divided by dt, equals u'(t) for every polynomial of degree at most k, every t and dt; other orders are rejected.", "quantifier": "all polynomials of degree <= k, all t, dt", "why_tests_cant": "all real data", "anchors": ["src/managers/solver/solverManager_setup.hpp: setBackwardDifference"]}
{"id": "C26", "title": "The time loop ends at the requested final time", "statement": "Starting from any time with any positive step, the loop terminates, time strictly increases on accepted steps and never moves on rejected ones, and on normal exit the time is within tolerance of the final time (neither short nor beyond).", "quantifier": "every initial/final time, step, and outcome sequence of the nonlinear solves", "why_tests_cant": "all real data and failure histories", "anchors": ["src/managers/solver/solverManager_solvers.hpp: transientSolver"]}
{"id": "C27", "title": "A rejected time step leaves no trace", "statement": "When a step fails, the solution and the stored history used by the multistep scheme are the same as before the step, so that the retry with a smaller step starts from the same data.", "quantifier": "every history length and failure sequence", "why_tests_cant": "failure histories", "anchors": ["src/managers/solver/solverManager_solvers.hpp: transientSolver"]}
{"id": "C28", "title": "Nonlinear solver outcome is faithful", "statement": "The solver stops within the iteration limit; success is reported only if a tolerance was met and failure is reported whenever it was not, on every rank and for every verbosity.", "quantifier": "every residual history", "why_tests_cant": "all residual histories", "anchors": ["src/managers/solver/solverManager_solvers.hpp: nonlinearSolver"]}
{"id": "C29", "title": "Strong boundary values hold after a multi-stage step", "statement": "After a time step the degrees of freedom with prescribed values equal the prescribed data at the new time, for every tableau.", "quantifier": "every tableau and boundary data history", "why_tests_cant": "all tableaux", "anchors": ["src/managers/solver/solverManager_solvers.hpp: transientSolver", "src/managers/solver/solverManager_solvers.hpp: setDirichlet", "src/managers/solver/solverManager_util.hpp: setDirichlet"]}
{"id": "C30", "title": "A constant solution stays constant under BDF", "statement": "If the initial state is a steady state, every BDF configuration keeps it for all steps, including the start-up steps.", "quantifier": "every order, startup setting and number of steps", "why_tests_cant": "all configurations", "anchors": ["src/managers/solver/solverManager_solvers.hpp: transientSolver", "src/managers/solver/solverManager_setup.hpp: setBackwardDifference", "src/managers/solver/solverManager_construct.hpp"]}
{"id": "C31", "title": "Explicit stepping with lumped mass is the explicit Runge-Kutta update", "statement": "With a diagonal mass and no strongly prescribed values, one explicit step with a strictly lower tableau of nonzero weights changes the solution by dt*sum_s b_s M^-1 r_s and nothing else, r_s being the residual at the stage time and stage state u + dt*sum_j a_sj M^-1 r_j with zero time derivative (a stage whose residual norm is at most 1e-100 counting as zero).", "quantifier": "every tableau and residual, set, step", "why_tests_cant": "all data", "anchors": ["src/managers/solver/solverManager_solvers.hpp: explicitSolver"]}
{"id": "C32", "title": "Preconditioned conjugate gradients solves the system", "statement": "In exact arithmetic, for every symmetric positive definite matrix and preconditioner the iterate satisfies r_k = b - A x_k at every iteration, residuals are M-orthogonal and directions A-conjugate, the error decreases monotonically in energy norm, and the iteration ends with the solution after at most n steps.", "quantifier": "every dimension, SPD operator, right-hand side", "why_tests_cant": "all dimensions", "anchors": ["src/managers/solver/solverManager_solvers.hpp: PCG", "src/managers/solver/solverManager_solvers.hpp: matrixFreePCG", "src/optimization/MrHyDE_OptVector.hpp: PCG"]}
{"id": "C33", "title": "Rectangle mesh connectivity is consistent", "statement": "For every nx, ny: each cell has four distinct in-range nodes, neighbours share exactly the nodes of the common edge, every node belongs to some cell, node coordinates follow the grid, and edge numbering is consistent between neighbours.", "quantifier": "all mesh sizes", "why_tests_cant": "all sizes", "anchors": ["src/tools/simplemeshmanager.hpp: MeshManager_Rectangle"]}
{"id": "C34", "title": "Distributed rectangle mesh: global numbering and ownership", "statement": "For every processor grid dividing the mesh, local-to-global followed by global-to-local is the identity, the union of local nodes is all global nodes, and every global node is owned by exactly one processor; shared nodes have the same coordinates on all processors.", "quantifier": "all mesh sizes and processor grids", "why_tests_cant": "all sizes", "anchors": ["src/tools/simplemeshmanager.hpp: MeshManager_Rectangle_Parallel"]}
{"id": "C35", "title": "Brick mesh connectivity is consistent", "statement": "For every nx, ny, nz: each cell has eight distinct in-range nodes and neighbours share exactly the four nodes of the common face.", "quantifier": "all mesh sizes", "why_tests_cant": "all sizes", "anchors": ["src/tools/simplemeshmanager.hpp: MeshManager_Brick"]}
{"id": "C36", "title": "Side sets are exactly the boundary", "statement": "The side sets list each boundary edge of the mesh exactly once and no interior edge.", "quantifier": "all mesh sizes", "why_tests_cant": "all sizes", "anchors": ["src/tools/simplemeshmanager.hpp: computeSideSets"]}
{"id": "C37", "title": "Communicator splitting yields a consistent grid of ranks", "statement": "Splitting N ranks into linear-algebra groups of size M places every rank in exactly one group of each kind, groups of one kind are disjoint and cover all ranks, and a group of one kind meets a group of the other in exactly one rank; all ranks passed to MPI are valid.", "quantifier": "all N and M", "why_tests_cant": "all sizes", "anchors": ["src/tools/split_mpi_communicators.cpp"]}
{"id": "C38", "title": "Samples are distributed exactly once", "statement": "For every number of samples and processes, each sample (with its weight) is evaluated on exactly one process, loads differ by at most one, and the sum over processes of local weighted sums is the global weighted sum.", "quantifier": "all n and process counts", "why_tests_cant": "all sizes", "anchors": ["src/optimization/MrHyDE_Sample_Set_Reader.hpp: sample"]}
{"id": "C39", "title": "Optimization vectors form an inner-product space", "statement": "plus, scale, axpy, zero and set obey the vector-space laws and dot is symmetric and bilinear, for every combination of field and scalar components and diagonal mass weighting; positive definite when the weights are positive.", "quantifier": "all vectors", "why_tests_cant": "all data", "anchors": ["src/optimization/MrHyDE_OptVector.hpp: plus", "src/optimization/MrHyDE_OptVector.hpp: scale", "src/optimization/MrHyDE_OptVector.hpp: axpy", "src/optimization/MrHyDE_OptVector.hpp: dot"]}
{"id": "C40", "title": "dual() and apply represent the same functional, clones keep the inner product", "statement": "For all vectors x and y, x.dual().apply(y) = x.dot(y); a clone of a vector has the same inner product as the original; the dual of the dual is the original vector.", "quantifier": "all vectors", "why_tests_cant": "all data", "anchors": ["src/optimization/MrHyDE_OptVector.hpp: dual", "src/optimization/MrHyDE_OptVector.hpp: clone", "src/optimization/MrHyDE_OptVector.hpp: apply", "src/optimization/MrHyDE_OptVector.hpp: dot"]}
{"id": "C41", "title": "Scalar parameters: what is set is what is read, and only that", "statement": "Updating the parameters of one class sets exactly those values in order, reading the class back returns the vector that was written, parameters of other classes are unchanged; derivative seeds enumerate the active parameters in the same order, without gaps or repeats; bounds are in the same order.", "quantifier": "every layout of parameters and classes, every vector, every history", "why_tests_cant": "all layouts", "anchors": ["src/managers/parameter/parameterManager_update.hpp: updateParams", "src/managers/parameter/parameterManager_access.hpp: getParams", "src/managers/parameter/parameterManager_access.hpp: getActiveParamBounds", "src/managers/parameter/parameterManager_sacadoize.hpp: sacadoizeParams"]}
{"id": "C42", "title": "Stochastic objective: the gradient uses the state of its own parameters", "statement": "In every sequence of setParameter/value/gradient calls, the adjoint in gradient(x) is linearised about the forward state for exactly (x, current sample).", "quantifier": "every call history", "why_tests_cant": "unbounded histories", "anchors": ["src/optimization/MrHyDE_Stochastic_Objective.hpp: gradient", "src/optimization/MrHyDE_Stochastic_Objective.hpp: checkNewx"]}
{"id": "C43", "title": "Deterministic objective: the gradient uses the state of its own parameters", "statement": "In every sequence of value/gradient calls, the adjoint in gradient(x) is linearised about a forward state computed for parameters equal to x to the relative tolerance.", "quantifier": "every call history", "why_tests_cant": "unbounded histories", "anchors": ["src/optimization/MrHyDE_Objective.hpp: gradient", "src/optimization/MrHyDE_Objective.hpp: checkNewParams"]}
{"id": "C44", "title": "Nearest data point search returns a nearest point", "statement": "The index returned by the data lookup is a point whose distance to the query is minimal over all data points, the first such one; the reported distance is its distance.", "quantifier": "every point cloud and query", "why_tests_cant": "all real data", "anchors": ["src/tools/data.cpp: findClosestPoint"]}
{"id": "C45", "title": "Nearest grid point search agrees with the exhaustive search", "statement": "For tensor-grid data the axis-by-axis search returns a node at minimal Euclidean distance among all grid nodes and the node number addresses that grid point.", "quantifier": "every grid and query", "why_tests_cant": "all real data", "anchors": ["src/tools/data.cpp: findClosestGridPoint", "src/tools/data.cpp: importGridPoints"]}
{"id": "C46", "title": "Block settings apply only to their block", "statement": "Settings given for a named block are applied to that block only; blocks not named receive the general settings.", "quantifier": "every set of block names and settings", "why_tests_cant": "all names", "anchors": ["src/interfaces/physics/physicsInterface_construct.hpp: importPhysics"]}
{"id": "C47", "title": "Solver options fall back to the general solver settings", "statement": "For each physics set and each time-integration option, the value used is the one given for the set, else the general one, else the default.", "quantifier": "every settings table", "why_tests_cant": "all tables", "anchors": ["src/managers/solver/solverManager_construct.hpp"]}
{"id": "C48", "title": "Input-file composition", "statement": "A section present in the main input is never replaced by another file; a missing required section without file is rejected; the effective setting of a section read from a file is the file's content.", "quantifier": "every set of input files", "why_tests_cant": "all inputs", "anchors": ["src/interfaces/user/userInterface.hpp: UserInterface"]}
{"id": "C49", "title": "Sample files are read as written", "statement": "Reading sample points and weights from files yields exactly the numbers of the files in order, and a file with too few numbers is rejected.", "quantifier": "all file contents, numbers of samples and dimensions", "why_tests_cant": "Files of every length and contents cannot be enumerated; short files produce plausible numbers.", "anchors": ["src/optimization/MrHyDE_Sample_Set_Reader.hpp: sample"]}
{"id": "C50", "title": "The workset used on a block is the one made for that block", "statement": "After setup there is one workset per element block and the workset used while assembling block b is the one created for block b, for every choice of which blocks are empty, multiscale or fully explicit.", "quantifier": "all lists of blocks with arbitrary element counts and options", "why_tests_cant": "Depends on which blocks are empty on a process, which changes with the mesh partition.", "anchors": ["src/managers/assembly/assemblyManager_workset.hpp: createWorkset", "src/managers/assembly/assemblyManager_jacres.hpp: assembleJacRes"]}
{"id": "C51", "title": "The built-in mesh covers the requested box", "statement": "With the built-in mesh, the nodes lie in the box given by xmin..zmax of the Mesh (or Phase Mesh) section and include its corners.", "quantifier": "all boxes with positive extents and all cell counts", "why_tests_cant": "Tests use unit cubes, for which interchanged or shifted extents are invisible.", "anchors": ["src/interfaces/mesh/meshInterface_construct.hpp: MeshInterface", "src/tools/simplemeshmanager.hpp: SimpleMeshManager_Brick, SimpleMeshManager_Rectangle"]}
{"id": "C52", "title": "Owned unknowns of a built-in mesh", "statement": "With the built-in mesh, the list of owned unknowns of a rank is exactly the global numbers of its unshared nodes.", "quantifier": "all meshes, processor grids and phase dimensions", "why_tests_cant": "The faulty branch writes past an array of length zero, which usually goes unnoticed.", "anchors": ["src/interfaces/discretization/discretizationInterface_dof.hpp: buildSimpleDOFManagers"]}
{"id": "C53", "title": "Derivative seeds are exact", "statement": "In every seeding mode (stage solution, an earlier solution, an earlier stage) the derivative carried with the state and the time derivative presented to the physics is the exact rate of change with respect to the seeded quantity.", "quantifier": "all tableaus, BDF weights, time steps, stages, histories, seeding modes and indices", "why_tests_cant": "the seeds multiply every entry of every Jacobian; a test only fixes one tableau, and a wrong seed still converges, only slower", "anchors": ["src/tools/workset.cpp:computeSolnTransientSeeded"]}
{"id": "C54", "title": "A linear problem is solved by one linear solve", "statement": "If the residual is affine in the unknowns and the linear solver is exact, the nonlinear solver returns the exact solution after one solve, whatever the initial guess, and confirms it in its second pass.", "quantifier": "all linear problems of all sizes, norms, initial guesses, relative tolerances in (0,1] and limits", "why_tests_cant": "a test fixes one matrix and one guess; a wrong sign, damping or stale update still converges on easy cases", "anchors": ["src/managers/solver/solverManager_solvers.hpp:nonlinearSolver"]}
{"id": "C55", "title": "The adjoint solve does not depend on its starting vector", "statement": "After the adjoint solve the returned vector satisfies the (transposed) adjoint equation with the objective gradient and all stored contributions of later time steps as right-hand side, whatever vector it started from.", "quantifier": "all transposed Jacobians with exact linear solver, gradients, lists of stored products and starting vectors", "why_tests_cant": "the starting vector is zero in simple tests, which hides a missing J^T phi term", "anchors": ["src/managers/solver/solverManager_solvers.hpp:nonlinearSolver"]}
{"id": "C56", "title": "Transient adjoint gradient is the derivative of the objective", "statement": "After a forward run with a one-step time integrator and a single equation set, the gradient accumulated by the backward adjoint sweep equals, for every scalar parameter, the derivative of the objective summed over all steps, obtained by propagating the parameter's tangent through every time step.", "quantifier": "all numbers of unknowns, time steps and parameters, all linearisations at each step, all starting adjoint vectors", "why_tests_cant": "tests compare one gradient with finite differences on one problem to a tolerance; they do not cover every number of steps or every linearisation", "anchors": ["src/managers/solver/solverManager_solvers.hpp:transientSolver,nonlinearSolver", "src/managers/postprocess/postprocessManager_objective_gradient.hpp:computeSensitivities,computeObjectiveGradState"]}
{"id": "C57", "title": "Microstructure seeds carry proper rotations", "statement": "Every seed of a generated microstructure is given a proper rotation: the nine stored numbers form an orthogonal matrix of determinant one, whatever four random numbers were drawn (not all zero).", "quantifier": "all quadruples of real numbers, not all zero", "why_tests_cant": "tests sample finitely many draws and compare to a tolerance", "anchors": ["src/managers/assembly/assemblyManager_util.hpp:importNewMicrostructure"]}
{"id": "C58", "title": "An evaluation does not depend on earlier evaluations", "statement": "The solutions recorded by a forward run (hence the objective value) for given parameters are those of a new solver, whatever was evaluated before.", "quantifier": "every sequence of earlier evaluations, every parameters", "why_tests_cant": "unbounded call histories; tests start from a new solver", "anchors": ["src/managers/solver/solverManager_models.hpp: forwardModel", "src/managers/solver/solverManager_util.hpp: setDirichlet, setInitial", "src/managers/solver/solverManager_solvers.hpp: transientSolver"]}
{"id": "C59", "title": "Weak comparisons count equality", "statement": "In every function definition a comparison a<=b or a>=b between two expressions contributes 1 when it holds, equality included, and 0 otherwise, wherever in the definition it stands.", "quantifier": "every pair of expressions of the grammar, every assignment of values to the names, every position of the comparison in the definition", "why_tests_cant": "the two-character signs are handled by one of several scanner loops, and which loop sees them depends on the rest of the text; tests use values that are not equal", "anchors": ["src/tools/interpreter.cpp: Interpreter::split", "src/managers/function/functionManager_evaluate.hpp: evaluateOpVToV"]}
{"id": "C60", "title": "The kind of boundary condition on a side", "statement": "If the settings give exactly one kind of condition (Dirichlet, Neumann, far-field, slip, flux) for a variable on a side, under the name of the side or under 'all boundaries' or, for vector variables, through a component, then the physics and the subgrid models both treat the side with that kind; a side without a condition has none; a kind that is recorded was asked for.", "quantifier": "all settings, variables, basis types and sides", "why_tests_cant": "The lookup combines named sides, 'all boundaries' and component names for every variable and set; tests use a handful of decks.", "anchors": ["src/interfaces/discretization/discretizationInterface_dof.hpp:setBCData"]}
{"id": "C61", "title": "Fixed unknowns", "statement": "The unknowns that are fixed are exactly those of the elements' sides on which the variable has a strong Dirichlet condition, each listed once in increasing order; the solution is given the projected values there and left unchanged elsewhere.", "quantifier": "all settings, meshes (side tables), numberings and solution vectors", "why_tests_cant": "The set of fixed unknowns depends on the mesh, the numbering and the conditions of every variable and block.", "anchors": ["src/interfaces/discretization/discretizationInterface_dof.hpp:setDirichletData", "src/managers/assembly/assemblyManager_constraints.hpp:createConstraints", "src/managers/solver/solverManager_util.hpp:setDirichlet"]}
{"id": "C62", "title": "Prescribed expressions", "statement": "On every side, a boundary condition of any kind is evaluated from the value that the settings give for it: a text as it stands, a number as that number.", "quantifier": "all settings, sides, kinds of condition and user functions", "why_tests_cant": "Conditions are registered under composed names in a table shared with user functions; collisions and conversions only show for particular names and values.", "anchors": ["src/interfaces/physics/physicsInterface_functions.hpp:defineFunctions", "src/interfaces/physics/physicsInterface_boundary_conditions.hpp:getDirichlet,getDirichletVector"]}
{"id": "C63", "title": "Values imposed on Dirichlet sides", "statement": "The values given to the fixed unknowns are the best approximation (in the weighted norm over the Dirichlet sides, of the value, the normal component or the tangential part) of the prescribed values, on any number of processes; if the prescribed values are those of some finite element function, its coefficients are imposed.", "quantifier": "all meshes, bases, quadratures, prescribed values and distributions over processes", "why_tests_cant": "The projected system couples all boundary elements and processes; tests compare a few coefficients on axis-aligned boxes.", "anchors": ["src/managers/assembly/assemblyManager_constraints.hpp:computeConstraintProjection,getDirichletBoundary", "src/managers/assembly/assemblyManager_mass.hpp:getMassBoundary", "src/managers/solver/solverManager_util.hpp:projectDirichlet"]}
{"id": "C64", "title": "Point conditions", "statement": "The unknowns of a variable at the nodes of the node sets listed for it are fixed to zero, on every process that has them, whichever process found them.", "quantifier": "all meshes, node sets, numberings and numbers of processes", "why_tests_cant": "The exchange between processes and the offsets inside elements depend on the partition; tests use one node on one process.", "anchors": ["src/interfaces/discretization/discretizationInterface_dof.hpp:setBCData", "src/managers/solver/solverManager_util.hpp:setDirichlet"]}
{"id": "C65", "title": "Flux conditions", "statement": "A flux condition on a side adds minus the integral of its expression against the basis functions to the residual of the variable; elsewhere nothing is added.", "quantifier": "all settings, sides, expressions, bases and numbers of unknowns per element", "why_tests_cant": "Whether the term is present depends on the number type chosen from the number of unknowns per element.", "anchors": ["src/interfaces/physics/physicsInterface_boundary_conditions.hpp:fluxConditions", "src/managers/assembly/assemblyManager_jacres.hpp:assembleJacRes"]}
{"id": "C66", "title": "Constant Dirichlet data", "statement": "With 'scalar data' every Dirichlet side of a variable gets the number given for that side.", "quantifier": "all settings", "why_tests_cant": "Only decks with different numbers on different sides show a confusion of values.", "anchors": ["src/managers/solver/solverManager_setup.hpp:setupFixedDOFs"]}
{"id": "C67", "title": "The thermal module assembles the heat equation", "statement": "The volume residual added for T is the discrete weak form of rho cp T_t + v.grad T - source - div(kappa grad T) in 1, 2 and 3 dimensions, with v the coupled flow velocity (if ux is a variable) plus the prescribed advection (if switched on); rows of other variables are untouched; conduction within an element creates no heat, and tested with T itself dissipates.", "quantifier": "all elements, dimensions 1-3, bases, quadrature rules, fields, coefficient functions and variable orderings", "why_tests_cant": "a test runs a few meshes and manufactured solutions; a wrong term that vanishes or is small for those goes unseen", "anchors": ["src/physics/thermal.cpp:volumeResidual,setWorkset"]}
{"id": "C68", "title": "Thermal boundary terms: sign, consistency, symmetry and conservation", "statement": "A Neumann condition adds minus the given flux; a weakly imposed temperature adds penalty, consistency and form_param-scaled adjoint terms, which reduce to the conductive flux when T equals the data, and are symmetric for form_param 1; what leaves an element through an interface is what computeFlux reports; the adjoint solve uses the same operator as the forward solve.", "quantifier": "all sides, dimensions 1-3, bases, quadrature rules, fields, data, form_param and both modes", "why_tests_cant": "adjoint mode with non-default form_param is a combination no regression test runs", "anchors": ["src/physics/thermal.cpp:boundaryResidual,computeFlux"]}
{"id": "C69", "title": "The porous module assembles the single-phase pressure equation and a conservative interface flux", "statement": "The volume residual for p is the weak form of porosity rho0 c p_t - source - div(K/mu rho(p) grad p); Neumann and weak Dirichlet/interface terms have the right sign and are consistent; the reported interface flux balances the residual.", "quantifier": "all elements and sides, dimensions 1-3, bases, fields and coefficients", "why_tests_cant": "the loss of transverse flux depends on the orientation of the side and the dimension", "anchors": ["src/physics/porous.cpp:volumeResidual,boundaryResidual,computeFlux"]}
{"id": "C70", "title": "The cdr module assembles the convection-diffusion-reaction equation", "statement": "The volume residual for c is the weak form of c_t + v.grad c + reaction - source - div(kappa/(rho cp) grad c), rows of other variables are untouched and the element total contains no diffusion.", "quantifier": "all elements, dimensions 1-3, bases, fields and coefficients", "why_tests_cant": "tests fix coefficients and dimensions", "anchors": ["src/physics/cdr.cpp:volumeResidual", "src/physics/cdr2.cpp:volumeResidual"]}
{"id": "C71", "title": "Stokes module assembles the Stokes equations", "statement": "For every problem with velocity components and pressure in 1, 2 or 3 dimensions, every set of fields, sources, viscosity, basis functions and quadrature, the residual the stokes module adds to each velocity row is the weak form of -div(viscosity grad u - p I) = source, the pressure rows get the weak form of div u = 0 plus the requested stabilization, no other row is touched, and tested with velocity and pressure the residual is the viscous dissipation less the work of the force (the pressure does no work).", "quantifier": "all worksets (dimension, fields, bases, offsets), all settings of PSPG and LSIC", "why_tests_cant": "The residual is a function of arbitrary fields and bases; a test evaluates one manufactured solution on one mesh and cannot show that every row of every dimension carries the right term and sign.", "anchors": ["src/physics/stokes.cpp:volumeResidual"]}
{"id": "C72", "title": "Navier-Stokes module assembles momentum, continuity and traction", "statement": "For every flow problem in 1, 2 or 3 dimensions the residual for each velocity component is the weak form of density (u_t + u.grad u - source) - div(viscosity grad u - p I), with the buoyancy term if an energy variable is present and the SUPG term if requested; the pressure rows get div u and the PSPG term if requested; a side where a component has a Neumann condition adds minus its traction to that component's rows, and other sides and other rows get nothing.", "quantifier": "all worksets, all settings, all fields", "why_tests_cant": "A test runs one flow in one dimension; it cannot cover each component's rows in each dimension for arbitrary fields and options.", "anchors": ["src/physics/navierstokes.cpp:volumeResidual", "src/physics/navierstokes.cpp:boundaryResidual"]}
{"id": "C73", "title": "Navier-Stokes stabilization is consistent", "statement": "Where the strong momentum residual vanishes, switching on SUPG and PSPG changes no row of the residual, so a fluid at rest under its own weight satisfies the discrete equations; the stabilization parameter is positive, at most h^2/(4 viscosity), h/(2|u|) and dt/2, and its inverse square is the sum of the squared rates.", "quantifier": "all worksets, all settings, all fields with vanishing strong residual", "why_tests_cant": "Consistency is a statement about every exact solution; a test only observes convergence for one of them.", "anchors": ["src/physics/navierstokes.cpp:volumeResidual", "src/physics/navierstokes.cpp:computeTau"]}
{"id": "C74", "title": "Linear elasticity assembles the equations of equilibrium", "statement": "Without temperature and pore pressure, in 1, 2 and 3 dimensions, the residual of each displacement component is the weak form of -div(sigma) = load with sigma given by Hooke's law from the Lame parameters (twice mu for lambda under the incompressible plane stress option); no other row is touched; internal forces on an element balance the load; a rigid motion causes no internal force; the internal work of a displacement is twice its strain energy and not negative for a stable material; and the internal forces satisfy reciprocity, so the stiffness matrix is symmetric.", "quantifier": "all worksets (dimension, fields, bases, offsets, materials), all displacement fields", "why_tests_cant": "Symmetry, definiteness and the rigid motions of the stiffness matrix are statements about all displacement fields and materials; a test evaluates one.", "anchors": ["src/physics/linearelasticity.cpp:volumeResidual", "src/physics/linearelasticity.cpp:computeStress"]}
{"id": "C75", "title": "Linear elasticity boundary terms", "statement": "A side with an applied traction adds minus that traction; a side where the displacement is imposed weakly (by data or from another scale) adds traction, penalty and adjoint terms that reduce to the traction of the solution when the displacement has the given values, are symmetric for form_param 1 and zero data, and are balanced by the reported flux; other sides add nothing.", "quantifier": "all worksets, all displacement fields and data, all dimensions", "why_tests_cant": "Consistency and symmetry of the side terms are statements about all fields on all sides.", "anchors": ["src/physics/linearelasticity.cpp:boundaryResidual", "src/physics/linearelasticity.cpp:computeFlux"]}
{"id": "C76", "title": "Reported von Mises stress in three dimensions", "statement": "The von Mises stress reported in three dimensions is not negative, its square is 3/2 of the squared norm of the stress deviator, and it vanishes for a uniform pressure.", "quantifier": "all stress states", "why_tests_cant": "An identity in nine real numbers; tests sample a few.", "anchors": ["src/physics/linearelasticity.cpp:getDerivedValues"]}
{"id": "C77", "title": "Thermal and pore pressure stress", "statement": "With a temperature variable the stress contains -alpha_T (T - T_ambient)(3 lambda + 2 mu) I, with Biot coupling -alpha p I, in every dimension and under every option.", "quantifier": "all worksets, all settings", "why_tests_cant": "Coupled options are tested in one dimension at a time if at all.", "anchors": ["src/physics/linearelasticity.cpp:computeStress"]}
{"id": "C78", "title": "Sides with different conditions per component; flux on loaded sides", "statement": "If one component is imposed weakly and another is loaded, a solution that has the given displacement satisfies the boundary terms of the first component; the flux reported on a loaded side is the traction.", "quantifier": "all worksets, all combinations of side conditions", "why_tests_cant": "The number of combinations of conditions, dimensions and fields is unbounded.", "anchors": ["src/physics/linearelasticity.cpp:boundaryResidual", "src/physics/linearelasticity.cpp:computeFlux"]}
{"id": "C79", "title": "Reported stresses in two dimensions and stress magnitude", "statement": "The von Mises stress reported in two dimensions is that of the stress state that the equations use, and the reported stress magnitude is the norm of the stress.", "quantifier": "all stress states", "why_tests_cant": "Identities over real numbers; tests sample a few.", "anchors": ["src/physics/linearelasticity.cpp:getDerivedValues"]}
{"id": "C80", "title": "Stokes: fluid at rest", "statement": "A fluid at rest whose pressure gradient equals the force satisfies the discrete continuity equation, with and without stabilization.", "quantifier": "all hydrostatic states, all worksets", "why_tests_cant": "Well-balancedness is a statement about all forces and pressures.", "anchors": ["src/physics/stokes.cpp:volumeResidual"]}
{"id": "C81", "title": "Implicit time integration is unconditionally stable", "statement": "For u' = lambda u with complex lambda of nonpositive real part and any positive step, the stage equations of BWE, DIRK-1,1, CN, DIRK-1,2, DIRK-2,2, DIRK-2,3 and DIRK-3,3 have a solution, and after the step |u| is not larger than before; BWE and DIRK-3,3 damp stiff decaying modes by any factor.", "quantifier": "all complex lambda with Re <= 0, all steps, all initial values", "why_tests_cant": "Stability is a statement about all steps and modes; the slow growth of a mode is invisible in a short test.", "anchors": ["src/managers/solver/solverManager_setup.hpp:setButcherTableau", "src/tools/workset.cpp:computeSolnTransientSeeded"]}
{"id": "C82", "title": "The mass operator is the weighted L2 inner product", "statement": "For every mesh, every choice of bases (scalar or vector) and quadrature, y . (M x) equals the integral over all elements of the mass weight times the product of the finite element fields with coefficients x and y, for the assembled matrix and for recomputed or stored masses; hence M is symmetric, nonnegative, and x . (M x) = 0 only if the fields vanish at every quadrature point with positive weight.", "quantifier": "every connectivity, bases, weights, pair of vectors", "why_tests_cant": "all meshes and vectors", "anchors": ["src/managers/assembly/assemblyManager_mass.hpp: applyMassMatrixFree", "src/managers/assembly/assemblyManager_mass.hpp: getWeightedMass"]}
{"id": "C83", "title": "Burgers equation", "statement": "In one, two and three dimensions the residual assembled for u by the Burgers module is the weak form of u_t + div(v u^2/2 - (eps+nu) grad u) = source, with the entropy viscosity nu and the SUPG terms only where they are switched on (two dimensions); other variables get nothing. Summed over an element the convective, diffusive and stabilizing terms cancel. SUPG contributes nothing where the inviscid equation holds, the entropy viscosity stays within [0, 1/10], and with no velocity diffusion only dissipates.", "quantifier": "all element data, bases, fields, coefficients, option settings and dimensions", "why_tests_cant": "the weak form is an identity between functions of arbitrary fields and bases; runs compare a few numbers on a few meshes", "anchors": ["src/physics/burgers.cpp:volumeResidual"]}
{"id": "C84", "title": "Outflow of the Burgers equation through Neumann sides", "statement": "On a side where u has a Neumann condition the quantity convected by u leaves: the boundary residual is the integral of u^2/2 v.n times the test function; on other sides nothing is added.", "quantifier": "all sides, bases, fields, dimensions and lists of variables", "why_tests_cant": "whether the term appears depends on dimension and on the position of u among the variables of all modules", "anchors": ["src/physics/burgers.cpp:boundaryResidual"]}
{"id": "C85", "title": "Shallow water equations", "statement": "In two dimensions the module assembles the conservative shallow water equations for the elevation (the variable called H) and the momenta: the elevation changes by the divergence of the momentum and the source, the momentum by convection u_c mom, by the pressure g(D^2-b^2)/2 and by the bed term g xi grad b, with depth D = xi + b; pressure and bed terms are together g D grad xi. Nothing leaves through the boundary. Water at rest at level zero is an exact solution over any bed, and at any other level for test functions on which the quadrature integrates the derivative of (b+level/2) times the test function to zero.", "quantifier": "all element data, bases, fields, beds and values of gravity", "why_tests_cant": "balance over an arbitrary bed is a statement about every bed and every basis; a run checks one", "anchors": ["src/physics/shallowwater.cpp:volumeResidual"]}
{"id": "C86", "title": "Options of the shallow water module take effect", "statement": "Each function the shallow water module accepts in its input (sources, Coriolis, viscosity, bottom friction, boundary fluxes and Neumann sources) changes the equations solved.", "quantifier": "all choices of the functions", "why_tests_cant": "that an input never changes anything is a statement about all inputs", "anchors": ["src/physics/shallowwater.cpp:defineFunctions", "src/physics/shallowwater.cpp:volumeResidual", "src/physics/shallowwater.cpp:boundaryResidual"]}
{"id": "C87", "title": "Ordinary differential equations", "statement": "With one constant function per element, the ode module assembles the weak form of q' = source, and a residual of zero holds exactly when the derivative equals the source, whatever the volume and the quadrature of the element.", "quantifier": "all element data, quadratures and sources", "why_tests_cant": "independence of the volume and the quadrature ranges over all meshes", "anchors": ["src/physics/ode.cpp:volumeResidual"]}
{"id": "C88", "title": "Level set equation", "statement": "In two dimensions the level set module assembles phi_t + v.grad phi = 0 with streamline stabilization (parameter h/4 over the speed) and a penalty proportional to the average deviation of the gradient length from one; stabilization and penalty cancel when summed over an element. A transported function whose gradient has average length one solves it exactly, as does one without gradient; the regularization changes lengths by at most 1e-8.", "quantifier": "all element data, fields, velocities and penalty coefficients", "why_tests_cant": "exactness for all transported functions cannot be sampled", "anchors": ["src/physics/levelSet.cpp:volumeResidual", "src/physics/levelSet.cpp:computeTau"]}
{"id": "C89", "title": "The level set residual is a number", "statement": "For every velocity field the level set residual is computed without division by zero.", "quantifier": "all velocity fields", "why_tests_cant": "the failure occurs at the points where a field happens to vanish", "anchors": ["src/physics/levelSet.cpp:computeTau"]}
{"id": "C90", "title": "Maxwell equations", "statement": "The maxwell module assembles B_t + curl E = 0 tested with the functions of B, and eps n^2 E_t + sigma E + J - curl(B/mu) = 0 tested with the functions of E (in three dimensions divided by a uniform permittivity), in two and three dimensions; other variables get nothing. Tested with the fields themselves the curl terms cancel, so that the energy changes only by the resistive loss and the work of the current. With the leap frog option the first stage moves B only and the second E only. With \"active variables\" given, an equation is assembled as otherwise if its letter occurs in the text and not at all if it does not.", "quantifier": "all element data, vector bases, fields, materials, stages and both dimensions", "why_tests_cant": "energy balance is an identity over all fields and bases; a run shows one history with rounding", "anchors": ["src/physics/maxwell.cpp:volumeResidual"]}
{"id": "C91", "title": "Maxwell equations with varying permittivity", "statement": "For every permittivity, also one that varies in space, the equation assembled for E is a fixed multiple of eps n^2 E_t + sigma E + J - curl(B/mu) = 0.", "quantifier": "all permittivities and fields, both dimensions", "why_tests_cant": "the two-dimensional tests and uniform materials do not show it", "anchors": ["src/physics/maxwell.cpp:volumeResidual"]}
{"id": "C92", "title": "Magnetic flux stays free of sources", "statement": "When the rate of B and the curl of E lie in the space of B and the assembled equation for B holds over the mesh, then B_t = -curl E at every quadrature point; hence every linear measurement that is zero on curls (divergence, flux out of an element) does not change in time.", "quantifier": "all meshes, bases, fields with positive weights", "why_tests_cant": "a pointwise consequence of an assembled equation over all meshes", "anchors": ["src/physics/maxwell.cpp:volumeResidual"]}
{"id": "C93", "title": "Absorbing sides of the Maxwell module", "statement": "On sides where B has a Neumann condition (used for absorbing sides) the tangential part of E enters the equation of B with a fixed nonzero weight; other sides and variables get nothing.", "quantifier": "all sides, normals, fields, both dimensions", "why_tests_cant": "that a condition is silently dropped in one dimension concerns all data", "anchors": ["src/physics/maxwell.cpp:boundaryResidual"]}
{"id": "C94", "title": "Solution fields follow the element loaded last", "statement": "Asking the workset for a variable, a component, a gradient, a divergence, a curl or a time derivative by name gives, in the interior, the expansion of the coefficients loaded last in the corresponding basis functions, whatever was loaded or requested before and whether or not sides were visited in between; time derivatives are zero in steady problems and for parameters; components the basis does not have are zero. A name nobody provides is never answered with another variable's data.", "quantifier": "all dimensions, all numbers of physics sets, variables and parameters with distinct names free of reserved pieces, all spaces, all histories of loads, side switches and requests", "why_tests_cant": "the values are cached with flags, so a wrong answer needs a particular history of loads and requests; names are interpreted by substring search, so collisions depend on the combination of names", "anchors": ["src/tools/workset.cpp:addSolutionField", "src/tools/workset.cpp:getSolutionField", "src/tools/workset.cpp:evaluateSolutionField", "src/tools/fields.hpp:SolutionField"]}
{"id": "C95", "title": "Any variable name may be used", "statement": "A scalar variable requested by its own name gives its own expansion, whatever the variables of the problem are called.", "quantifier": "all distinct variable names, all histories", "why_tests_cant": "only particular names are misread", "anchors": ["src/tools/fields.hpp:SolutionField", "src/tools/workset.cpp:evaluateSolutionField"]}
{"id": "C96", "title": "Solution fields on sides", "statement": "On a side, requests for values, components and gradients give the expansion of the coefficients loaded last in the basis functions at the points of the side, whatever the history.", "quantifier": "all sets, variables, parameters, spaces and histories as in C94", "why_tests_cant": "needs a history mixing sides and interiors; the caches of the two are separate", "anchors": ["src/tools/workset.cpp:evaluateSideSolutionField", "src/tools/workset.cpp:getSolutionField"]}
{"id": "C97", "title": "Divergence and curl on sides", "statement": "On a side, requests for the divergence or the curl of a vector variable give these at the points of the side.", "quantifier": "all vector variables, histories and positions of the points", "why_tests_cant": "lowest order elements on affine cells, the usual test cases, have constant divergence", "anchors": ["src/tools/workset.cpp:evaluateSideSolutionField", "src/tools/workset.cpp:addSolutionField"]}
{"id": "C98", "title": "The reported objective is the stated functional, however the mesh is split", "statement": "The value reported after a forward run is the sum over the requested objectives of weight times the stated functional - the integral in space and time of an integrated control, the integral at each recorded step of a discrete control, the squared (or absolute) misfit of an integrated response, the sum of squared sensor misfits at the times with data - plus the stated regularizations, and it does not depend on how elements and sensors are divided into groups and processes.", "quantifier": "all objectives, meshes, partitions into groups and processes, recorded histories and sensor data", "why_tests_cant": "Tests run one mesh on one or a few process counts; the sum over every partition and history cannot be enumerated.", "anchors": ["src/managers/postprocess/postprocessManager_objectives.hpp:computeObjective", "src/managers/postprocess/postprocessManager_objectives.hpp:reportObjective"]}
{"id": "C99", "title": "The state gradient is the derivative of the reported objective", "statement": "At each recorded step that counts, the vector handed to the adjoint solve is minus the derivative of the reported objective with respect to the state at that step, for every degree of freedom.", "quantifier": "all objectives, states, degrees of freedom and recorded steps", "why_tests_cant": "Finite-difference tests check a few directions at a few states on one mesh.", "anchors": ["src/managers/postprocess/postprocessManager_objective_gradient.hpp:computeObjectiveGradState", "src/managers/postprocess/postprocessManager_objectives.hpp:computeObjective", "src/managers/postprocess/postprocessManager_objectives.hpp:reportObjective"]}
{"id": "C100", "title": "Regularization and response output leave the functional as stated", "statement": "Adding a regularization to an objective adds its penalty to the reported value, and asking for the responses to be written leaves the value alone.", "quantifier": "all objectives, regularizations, histories", "why_tests_cant": "Each combination of options needs its own run and an independent value to compare with.", "anchors": ["src/managers/postprocess/postprocessManager_objectives.hpp:computeObjective", "src/managers/postprocess/postprocessManager_objectives.hpp:reportObjective"]}
{"id": "C101", "title": "The penalty is weighted alike in value and gradient", "statement": "The derivative of the regularization with respect to the discretized parameter is what the gradient adds, at every step.", "quantifier": "all regularizations, objective types, steps", "why_tests_cant": "A gradient check with tolerance on one time step size of 1 cannot see a missing factor dt.", "anchors": ["src/managers/postprocess/postprocessManager_objective_gradient.hpp:computeObjectiveGradParam", "src/managers/postprocess/postprocessManager_objectives.hpp:computeObjective", "src/managers/postprocess/postprocessManager_objectives.hpp:reportObjective"]}
{"id": "C102", "title": "The gradient with respect to a discretized parameter is the derivative of the reported objective", "statement": "For every degree of freedom of a discretized parameter, the objective's part of the gradient is the derivative of the reported objective.", "quantifier": "all objectives, meshes, group sizes, parameters, degrees of freedom and steps", "why_tests_cant": "Default tests use one group size and one step size; the fault depends on how many elements share a group.", "anchors": ["src/managers/postprocess/postprocessManager_objective_gradient.hpp:computeObjectiveGradParam", "src/managers/solver/solverManager_solvers.hpp:adjointModel"]}
{"id": "C103", "title": "The gradient with respect to a scalar parameter is the derivative of the reported objective on every process", "statement": "Every process obtains the derivative of the reported objective with respect to each scalar parameter.", "quantifier": "all objectives, scalar parameters, numbers of processes", "why_tests_cant": "A serial test cannot show a missing reduction.", "anchors": ["src/managers/postprocess/postprocessManager_objective_gradient.hpp:computeSensitivities", "src/managers/postprocess/postprocessManager_objective_gradient.hpp:computeObjectiveGradParam"]}
{"id": "C104", "title": "An integrated quantity is the integral, whoever holds the elements", "statement": "The value reported for an integrated quantity over a block, or over all of its boundary, is the integral of the integrand over the block (its boundary), for every split of the elements into groups and processes.", "quantifier": "all integrands, meshes and partitions", "why_tests_cant": "Every partition of every mesh cannot be enumerated.", "anchors": ["src/managers/postprocess/postprocessManager_integrated_quantities.hpp:computeIntegratedQuantities"]}
{"id": "C105", "title": "A boundary quantity covers exactly the sides named", "statement": "The value reported for a quantity over a list of sides is the integral over those sides and no others.", "quantifier": "all lists of side names, all meshes and partitions", "why_tests_cant": "Test meshes use names that do not contain each other.", "anchors": ["src/managers/postprocess/postprocessManager_integrated_quantities.hpp:computeIntegratedQuantities"]}
{"id": "C106", "title": "A reported error is the norm of the difference", "statement": "Each error reported in the volume is the square root of the integral, over all active elements of all processes, of the squared difference of the compared field and the given true solution, summed over components; it, and the face norm, are zero exactly when the fields agree at every quadrature point.", "quantifier": "all fields, true solutions, meshes with positive weights, partitions, dimensions 1 to 3", "why_tests_cant": "Manufactured-solution tests look at a few fields and tolerances; they cannot show that zero error means agreement everywhere.", "anchors": ["src/managers/postprocess/postprocessManager_error_estimation.hpp:computeError", "src/managers/postprocess/postprocessManager_util.hpp:report"]}
{"id": "C107", "title": "Every true solution given is compared with a field that exists, or refused", "statement": "A true solution given for a variable, its gradient, faces, components, divergence or curl, either stops the run or is compared with the solution's field of that name, which exists in the workset and holds the expansion.", "quantifier": "all lists of true solutions, variables, spaces, dimensions and workset histories", "why_tests_cant": "The combinations of space, dimension and request are many and a wrong name reads memory that often looks plausible.", "anchors": ["src/managers/postprocess/postprocessManager_error_estimation.hpp:addTrueSolutions", "src/managers/postprocess/postprocessManager_error_estimation.hpp:computeError", "src/tools/workset.cpp:getSolutionField"]}
{"id": "C108", "title": "Mixed Darcy equations", "statement": "On every element the mixed porous-media module assembles, for each velocity test function, the integral of K^-1 u/mobility . v - p div v and, for each pressure test function, (source - div u) q, and nothing for other variables; where the pressure equations hold the outflow of an element equals its source; the matrix is symmetric; tested with the solution the residual is the (nonnegative) loss minus the work of the source; the flux handed to a coarse scale is u . n.", "quantifier": "all worksets in one, two and three dimensions, all bases, points, weights, permeabilities, mobilities, sources and solutions", "why_tests_cant": "Tests run a few manufactured solutions on a few meshes; they do not settle symmetry, conservation or the rows for every basis and coefficient", "anchors": ["src/physics/porousMixed.cpp:volumeResidual", "src/physics/porousMixed.cpp:computeFlux"]}
{"id": "C109", "title": "Pressure prescribed on a side of a mixed problem", "statement": "A pressure prescribed on a side (or handed down by a coarse scale) enters the velocity equations as the integral of p_D (v . n) with the velocity's own functions v, whatever other variables the physics set has.", "quantifier": "all side worksets, all lists of variables and bases", "why_tests_cant": "Depends on how the bases of all variables in a set are numbered; tests use one list of variables", "anchors": ["src/physics/porousMixed.cpp:boundaryResidual"]}
{"id": "C110", "title": "Hybridized Darcy equations", "statement": "Elements get K^-1 u . v - p div v and (source - div u) q, faces lambda (v . n) and -(u . n) mu, sides p_D (v . n), nothing else; where the equations of lambda hold the normal flux agrees across a face; faces do no work; with lambda the trace of p and integration by parts valid, the velocity equation says K^-1 u = -grad p.", "quantifier": "all element and face worksets, bases, weights, permeabilities, solutions", "why_tests_cant": "Needs all face bases and all solutions; tests compare one solution on one mesh", "anchors": ["src/physics/porousMixedHybridized.cpp:volumeResidual", "src/physics/porousMixedHybridized.cpp:boundaryResidual", "src/physics/porousMixedHybridized.cpp:faceResidual"]}
{"id": "C111", "title": "Weak Galerkin Darcy equations", "statement": "u is the weak gradient of the pair (interior pressure, trace), t = -K u, div t = source, t . n matches across faces, prescribed pressures stand in for the trace on sides; a constant pressure has zero weak gradient; each element conserves mass.", "quantifier": "all element, face and side worksets, bases, weights, permeabilities, solutions", "why_tests_cant": "Needs all bases and all solutions", "anchors": ["src/physics/porousWeakGalerkin.cpp:volumeResidual", "src/physics/porousWeakGalerkin.cpp:boundaryResidual", "src/physics/porousWeakGalerkin.cpp:faceResidual"]}
{"id": "C112", "title": "Permeability data mean the same in each form", "statement": "The same permeability data (or the same functions) give the same medium in the mixed, hybridized and weak Galerkin modules.", "quantifier": "all data values and functions", "why_tests_cant": "No test runs two modules on the same data", "anchors": ["src/physics/porousMixed.cpp:updatePerm", "src/physics/porousMixedHybridized.cpp:updatePerm", "src/physics/porousWeakGalerkin.cpp:updatePerm"]}
{"id": "C113", "title": "Random permeability", "statement": "With an expansion of the permeability, K is multiplied in every direction by the exponential of the sum of coefficient k times mode (k mod Nx, (k/Nx) mod Ny, k/(Nx Ny)), deterministic coefficients first, random ones after them, those beyond the last mode ignored.", "quantifier": "all dimensions, numbers of modes, numbers of coefficients, points", "why_tests_cant": "Tests use one dimension and one count of coefficients", "anchors": ["src/physics/porousMixed.cpp:updateKLPerm", "src/physics/porousMixed.cpp:porousMixed", "src/tools/klexpansion.hpp"]}
{"id": "C114", "title": "Modes of the expansion", "statement": "For any root of the characteristic equation the reported function is an eigenfunction on [0,L] of the covariance sigma^2 exp(-|x-y|/eta) with the reported eigenvalue, has norm one, and is orthogonal to those of other frequencies; the slope used to find roots is the derivative of the equation.", "quantifier": "all correlation lengths, variances, interval lengths, roots and points", "why_tests_cant": "An integral identity over all points and all parameters", "anchors": ["src/tools/klexpansion.hpp:chareqn", "src/tools/klexpansion.hpp:dchareqn", "src/tools/klexpansion.hpp:getEval", "src/tools/klexpansion.hpp:getEvec"]}
{"id": "C115", "title": "Wells add to the source", "statement": "Wells add to the volumetric source: given flow rates as they are, others by Peaceman's formula with the permeability of the medium; without wells the source is unchanged; in the plane the rate does not depend on the permeability across it.", "quantifier": "all lists of wells, sources, element sizes, permeabilities", "why_tests_cant": "Depends on the length of the list, including none", "anchors": ["src/physics/wells.hpp:addWellSources"]}
{"id": "C116", "title": "Hybridized shallow water: element equations", "statement": "In one and two dimensions each element equation is the weak form of the shallow water conservation law with the given sources; its side integral is that of exactly the flux given to the skeleton; that flux is the physical one where trace and element agree; tested with one, only sources and the flux through the sides change the totals.", "quantifier": "all workspaces holding the module alone, components, states, normals, gravity, stabilization", "why_tests_cant": "Ranges over all states, meshes and bases", "anchors": ["src/physics/shallowwaterHybridized.cpp:volumeResidual", "src/physics/shallowwaterHybridized.cpp:boundaryResidual", "src/physics/shallowwaterHybridized.cpp:computeFlux"]}
{"id": "C117", "title": "Hybridized shallow water: stabilization", "statement": "The interface flux is the physical flux of the trace plus M times the jump, where M is |J| (Roe option) or the spectral radius of J times the identity, J being the derivative of the normal flux at the trace.", "quantifier": "all wet traces, unit normals, jumps, both options, one and two dimensions", "why_tests_cant": "A matrix function identity over all states", "anchors": ["src/physics/shallowwaterHybridized.cpp:computeStabilizationTerm", "src/physics/shallowwaterHybridized.cpp:eigendecompFluxJacobian"]}
{"id": "C118", "title": "Hybridized shallow water: far-field sides in two dimensions", "statement": "On a far-field side the skeleton flux vanishes exactly when every outgoing characteristic of the trace equals that of the element and every incoming one that of the far-field data.", "quantifier": "all wet traces, unit normals, interior and far-field states", "why_tests_cant": "An equivalence over all states and characteristics", "anchors": ["src/physics/shallowwaterHybridized.cpp:computeBoundaryTerm"]}
{"id": "C119", "title": "Hybridized shallow water: far-field ends in one dimension", "statement": "The same holds at both ends of an interval.", "quantifier": "all wet traces, both normals, interior and far-field states", "why_tests_cant": "An equivalence over all states and characteristics", "anchors": ["src/physics/shallowwaterHybridized.cpp:computeBoundaryTerm", "src/physics/shallowwaterHybridized.cpp:eigendecompFluxJacobian"]}
{"id": "C120", "title": "Hybridized shallow water: slip sides", "statement": "On a slip side the skeleton flux vanishes exactly when trace and element have the same depth, the trace no normal discharge, and the tangential discharges agree.", "quantifier": "all states with nonzero depths, unit normals, one and two dimensions", "why_tests_cant": "An equivalence over all states and tangents", "anchors": ["src/physics/shallowwaterHybridized.cpp:computeBoundaryTerm"]}
{"id": "C121", "title": "Hybridized Euler: element equations", "statement": "Each element equation (except the z-momentum in three dimensions, see C122) is the weak form of the ideal gas conservation law with the given sources, whatever the order of the unknowns; its side integral is that of exactly the interface flux; that flux is physical where trace and element agree; tested with one, only sources and side fluxes change the totals; the sound speed is sqrt(gamma p / rho) whatever the reference state.", "quantifier": "all workspaces holding the module alone, orders of unknowns, components, states, normals, gases, both stabilizations", "why_tests_cant": "Ranges over all states, meshes, bases and orders", "anchors": ["src/physics/euler.cpp:volumeResidual", "src/physics/euler.cpp:boundaryResidual", "src/physics/euler.cpp:computeFlux", "src/physics/euler.cpp:computeInviscidFluxes", "src/physics/euler.cpp:computeThermoProps"]}
{"id": "C122", "title": "Hybridized Euler in three dimensions: every momentum has its flux", "statement": "In three dimensions all five element equations are the conservation law's and all five interface fluxes are consistent.", "quantifier": "all three-dimensional workspaces, components, states", "why_tests_cant": "Ranges over all states", "anchors": ["src/physics/euler.cpp:computeInviscidFluxes"]}
{"id": "C123", "title": "Hybridized Euler: stabilization by the largest wave speed", "statement": "With the maximum-eigenvalue option the interface flux is the physical flux of the trace plus the spectral radius of its Jacobian times the jump (z-momentum flux in three dimensions excepted).", "quantifier": "all traces with positive density and pressure, unit normals, jumps, dimensions, orders of unknowns", "why_tests_cant": "Spectral radius over all states", "anchors": ["src/physics/euler.cpp:computeStabilizationTerm"]}
{"id": "C124", "title": "Hybridized Euler: Roe stabilization", "statement": "With the Roe option the interface flux is the physical flux of the trace plus |J| times the jump.", "quantifier": "all traces with positive density and pressure, unit normals, jumps, dimensions", "why_tests_cant": "A matrix function identity over all states", "anchors": ["src/physics/euler.cpp:computeStabilizationTerm", "src/physics/euler.cpp:eigendecompFluxJacobian"]}
{"id": "C125", "title": "Hybridized Euler: far-field sides", "statement": "On a far-field side the skeleton flux vanishes exactly when outgoing characteristics of the trace come from the element and incoming ones from the far-field data.", "quantifier": "all traces with positive density and pressure, unit normals, interior and far-field states", "why_tests_cant": "An equivalence over all states and characteristics", "anchors": ["src/physics/euler.cpp:computeBoundaryTerm", "src/physics/euler.cpp:eigendecompFluxJacobian"]}
{"id": "C126", "title": "Hybridized Euler: slip sides", "statement": "On a slip side the skeleton flux vanishes exactly when densities and energies agree, the trace has no normal momentum and the tangential momenta agree.", "quantifier": "all states with nonzero densities, unit normals, dimensions, orders of unknowns", "why_tests_cant": "An equivalence over all states and tangents", "anchors": ["src/physics/euler.cpp:computeBoundaryTerm"]}
{"id": "C127", "title": "Element measures", "statement": "The Jacobian handed to integration is the derivative of the reference-to-physical map, and the integration weights of an element add up to its area (polygon area for quadrilaterals and triangles, length for lines) for every quadrature rule that integrates the Jacobian determinant exactly.", "quantifier": "all node positions, reference points and sufficiently exact rules", "why_tests_cant": "Ranges over all element shapes and rules; tests use a few meshes", "anchors": ["src/interfaces/discretization/discretizationInterface_integration.hpp:getPhysicalIntegrationData", "src/interfaces/discretization/discretizationInterface_integration.hpp:getJacobian"]}
{"id": "C128", "title": "Side weights, normals and sizes in two dimensions", "statement": "On a side of a quadrilateral or triangle the weights add up to the side's length; the normal handed to physics modules is of unit length, perpendicular to the side and points away from every other vertex when the element is convex; the side size is the length.", "quantifier": "all node positions, sides, rules whose weights add up to the reference length", "why_tests_cant": "Ranges over all element shapes", "anchors": ["src/interfaces/discretization/discretizationInterface_integration.hpp:getPhysicalBoundaryIntegrationData", "src/interfaces/discretization/discretizationInterface_integration.hpp:getPhysicalFaceIntegrationData"]}
{"id": "C129", "title": "Discrete divergence theorem", "statement": "For every affine vector field the sum over the sides of an element of weight times normal component equals the divergence times the element's measure, on quadrilaterals, triangles and hexahedra, warped ones included.", "quantifier": "all node positions with nonvanishing side Jacobians, affine fields, sufficiently exact rules", "why_tests_cant": "An identity over all element shapes and fields", "anchors": ["src/interfaces/discretization/discretizationInterface_integration.hpp:getPhysicalBoundaryIntegrationData", "src/interfaces/discretization/discretizationInterface_integration.hpp:getPhysicalIntegrationData"]}
{"id": "C130", "title": "Discrete divergence theorem in one dimension", "statement": "The same for intervals with their two end points.", "quantifier": "all intervals, affine fields, rules exact for constants", "why_tests_cant": "An identity over all intervals and fields", "anchors": ["src/interfaces/discretization/discretizationInterface_integration.hpp:getPhysicalBoundaryIntegrationData"]}
{"id": "C131", "title": "Interior faces carry the data of boundary sides", "statement": "Weights and normals on interior faces are those the same side would have on the boundary, in every dimension.", "quantifier": "all elements, sides, quadrature points", "why_tests_cant": "Compares two code paths over all geometries", "anchors": ["src/interfaces/discretization/discretizationInterface_integration.hpp:getPhysicalFaceIntegrationData"]}
{"id": "C132", "title": "Mapped bases: true derivatives", "statement": "On any quadrilateral the gradient handed out for a scalar basis function is its gradient in physical coordinates, and the divergence handed out for an HDIV function is the divergence of the mapped function.", "quantifier": "all node positions, points with nonzero Jacobian, differentiable functions", "why_tests_cant": "A calculus statement over all functions and element shapes", "anchors": ["src/interfaces/discretization/discretizationInterface_basis.hpp:getPhysicalVolumetricBasis"]}
{"id": "C133", "title": "Mapped bases: fluxes, circulations and directional derivatives", "statement": "The flux of a mapped HDIV function through a side is that of the reference function through the reference side; the tangential component of a mapped HCURL function, and the directional derivative of a mapped scalar function, are those of the reference function along the reference direction.", "quantifier": "all elements in two and three dimensions, sides, functions, rules", "why_tests_cant": "Ranges over all element shapes and functions", "anchors": ["src/interfaces/discretization/discretizationInterface_basis.hpp:getPhysicalVolumetricBasis", "src/interfaces/discretization/discretizationInterface_basis.hpp:getPhysicalBoundaryBasis"]}
{"id": "C134", "title": "Gradients on boundary sides and interior faces", "statement": "On boundary sides and on interior faces the gradients of a scalar basis are the physical gradients at the side's points.", "quantifier": "all elements in two and three dimensions, gradients, orientations", "why_tests_cant": "Compares code paths over all geometries", "anchors": ["src/interfaces/discretization/discretizationInterface_basis.hpp:getPhysicalBoundaryBasis", "src/interfaces/discretization/discretizationInterface_basis.hpp:getPhysicalFaceBasis"]}
{"id": "C135", "title": "Vector bases at the nodes", "statement": "The values of HDIV and HCURL functions at the nodes of an element are those of the mapped function there.", "quantifier": "all elements, rules, functions, nodes", "why_tests_cant": "Ranges over all element shapes and rules", "anchors": ["src/interfaces/discretization/discretizationInterface_basis.hpp:getPhysicalVolumetricBasis"]}
{"id": "C136", "title": "Nodes and orientation of an element go together", "statement": "Groups and boundary groups pair the nodes of every element with the orientation of the same element, whether the basis is stored, recomputed or taken from the database.", "quantifier": "all block layouts, element lists", "why_tests_cant": "Ranges over all multi-block meshes", "anchors": ["src/interfaces/discretization/discretizationInterface_util.hpp:getMyNodes", "src/interfaces/discretization/discretizationInterface_basis.hpp:getPhysicalBoundaryBasis", "src/tools/boundaryGroup.cpp:BoundaryGroup", "src/managers/assembly/assemblyManager_groups.hpp:createGroups", "src/managers/assembly/assemblyManager_database.hpp:identifyBoundaryDatabase"]}
{"id": "C137", "title": "Arbogast-Correa basis: the space", "statement": "The functions span (a+bx, c+dy) in one way each; on any quadrilateral their divergences are those of the mapped functions, their flux through each side is a fixed number, and every constant field is a combination of them.", "quantifier": "all quadrilaterals, coefficients, points, rules exact for constants", "why_tests_cant": "Ranges over all element shapes and coefficient vectors", "anchors": ["src/tools/Intrepid2_HDIV_AC_QUAD_I1_FEMDef.hpp:getValues", "src/interfaces/discretization/discretizationInterface_basis.hpp:getPhysicalVolumetricBasis"]}
{"id": "C138", "title": "Arbogast-Correa basis: purpose", "statement": "On every convex quadrilateral constants are divergences of the space, and each unknown carries flux through its own side only.", "quantifier": "all convex quadrilaterals, unknowns, sides", "why_tests_cant": "Ranges over all element shapes", "anchors": ["src/tools/Intrepid2_HDIV_AC_QUAD_I1_FEMDef.hpp:getValues", "src/interfaces/discretization/discretizationInterface_basis.hpp:getPhysicalVolumetricBasis"]}
{"id": "C139", "title": "Refining a quadrilateral or hexahedral coarse element gives the uniform grid", "statement": "An inline subgrid mesh made by refining a quadrilateral or hexahedral coarse element r times consists of exactly the 2^r by 2^r (by 2^r) cells of the reference element, each once, with their nodes in the order of the coarse element; every grid point is exactly one node, shared by the cells around it; mapped into any coarse quadrilateral, the cells have together its area.", "quantifier": "every number of refinements r whose grid spacing 2/2^r is not below the search tolerance 1e-6 (r <= 20); every position of the corners of the coarse quadrilateral", "why_tests_cant": "Whether two children share a node depends on a floating tolerance search over all nodes created so far in element order; tests see a few levels and look at solution errors, where a duplicated or merged node shows up only as a slightly different answer.", "anchors": ["src/subgrid/subgridTools.cpp:SubGridTools::refineSubCell", "src/subgrid/subgridTools.cpp:SubGridTools::checkExistingSubNodes", "src/subgrid/subgridTools.cpp:SubGridTools::createSubMesh"]}
{"id": "C140", "title": "Sides of subgrid cells are attached to the coarse side they lie on", "statement": "After r refinements of a quadrilateral or hexahedral coarse element, side j of a cell is marked with coarse side j exactly when all nodes of that side lie on coarse side j, and every other side is unmarked.", "quantifier": "every resolved number of refinements, every cell, every side", "why_tests_cant": "A wrong mark changes which boundary or interface condition a few small sides get; the solve still converges to something plausible.", "anchors": ["src/subgrid/subgridTools.cpp:SubGridTools::refineSubCell", "src/subgrid/subgridTools.cpp:SubGridTools::createSubMesh"]}
{"id": "C141", "title": "Refining a triangular coarse element gives correctly oriented and marked triangles", "statement": "Refining a triangular coarse element gives triangles which keep the orientation of the coarse element and whose sides are marked with the coarse side they lie on.", "quantifier": "every number of refinements", "why_tests_cant": "Orientation only enters through the sign of normals and side marks through the choice of condition; both leave the solver running.", "anchors": ["src/subgrid/subgridTools.cpp:SubGridTools::refineSubCell"]}
{"id": "C142", "title": "Refining a one-dimensional coarse element gives a mesh of the interval", "statement": "Refining an interval r times gives 2^r cells whose nodes exist, cover the interval, and of which only the first and last touch the ends.", "quantifier": "every number of refinements and both end points", "why_tests_cant": "One-dimensional subgrid problems with refinement are not among the regression tests; reading one past the node list need not crash.", "anchors": ["src/subgrid/subgridTools.cpp:SubGridTools::refineSubCell"]}
{"id": "C143", "title": "Refining a tetrahedral coarse element gives a mesh of the tetrahedron", "statement": "Refining a tetrahedral coarse element gives cells which cover it without overlap and whose sides are marked with the coarse side they lie on.", "quantifier": "every number of refinements", "why_tests_cant": "The volumes of the cells add up to that of the coarse element even though the cells do not cover it, so checks by total volume pass.", "anchors": ["src/subgrid/subgridTools.cpp:SubGridTools::refineSubCell"]}
{"id": "C144", "title": "Conditions of coarse sides reach the subgrid cells", "statement": "For quadrilateral and hexahedral meshes of the shape of the coarse element, a side of a cell which lies on a coarse side carries the boundary condition of that side when it has one, the interface marker otherwise, and interior sides carry nothing.", "quantifier": "every resolved number of refinements, coarse element, variable, cell, side, and every table of side information", "why_tests_cant": "The combination of coarse side conditions, refinement level and cell position is never enumerated in a test.", "anchors": ["src/subgrid/subgridTools.cpp:SubGridTools::getPhysicalSideinfo"]}
{"id": "C145", "title": "Subgrid meshes of different coarse elements are disjoint and consistently numbered", "statement": "The connectivity of the combined mesh of several coarse elements gives each coarse element its own nodes, and looking up the list of physical nodes with it gives the physical nodes of every cell.", "quantifier": "any subgrid mesh with indices in range, any number of coarse elements, any map to the physical frame", "why_tests_cant": "Offsets go wrong only for the second and later coarse elements of a group, and then connect unrelated elements.", "anchors": ["src/subgrid/subgridTools.cpp:SubGridTools::getPhysicalConnectivity", "src/subgrid/subgridTools.cpp:SubGridTools::getListOfPhysicalNodes", "src/subgrid/subgridTools.cpp:SubGridTools::getPhysicalNodes"]}
{"id": "C146", "title": "Boundary groups of the subgrid contain every side with a condition once", "statement": "The groups of boundary sides formed for the subgrid have one group for each pair of condition and local side that occurs, each listing exactly the cells which have that condition on that side for some variable, without repetition.", "quantifier": "any number of cells, variables and sides, any side information", "why_tests_cant": "Group formation depends on the order in which combinations are met across cells and variables.", "anchors": ["src/subgrid/subgridTools.cpp:SubGridTools::getUniqueSides"]}
{"id": "C147", "title": "Subgrid cells of another shape than the coarse element get their side information", "statement": "When a quadrilateral is cut into triangles or a triangle into quadrilaterals, sides on a coarse side get the information of that side, and no access is out of range.", "quantifier": "every coarse element, with or without boundary conditions", "why_tests_cant": "Out-of-range reads with index -1 or past the last side return whatever is in memory.", "anchors": ["src/subgrid/subgridTools.cpp:SubGridTools::createSubMesh", "src/subgrid/subgridTools.cpp:SubGridTools::getPhysicalSideinfo"]}
{"id": "C148", "title": "A sampling run evaluates the model at each requested sample, independently of the others", "statement": "A sampling (UQ) analysis returns one response per sample, in order. The j-th response is the forward model with the stochastic parameters set to the j-th sample and every other parameter as configured, whatever samples came before. Uniform samples lie between the configured bounds, Gaussian samples are mean plus standard deviation times a standard normal draw, and samples of a user file are used as they are. With the same 'max samples' and seed, asking for fewer samples gives the first of the same responses. A finite-difference run shifts exactly one parameter by delta in every sample.", "quantifier": "all random engines with draws in the unit interval, distributions, seeds, numbers of samples, parameter layouts with constant-in-time values, forward models", "why_tests_cant": "a test fixes one seed, one number of samples and one parameter list; leakage between samples and subset consistency range over all of them", "anchors": ["src/managers/analysis/analysisManager_solve.hpp:UQSolve", "src/managers/uq/uqManager.cpp:generateSamples", "src/managers/parameter/parameterManager_update.hpp:updateParams"]}
{"id": "C149", "title": "Sampling runs stay reproducible and well defined in every configuration", "statement": "With a fixed seed the first samples do not depend on how many samples are requested; every sample has its integer seed for grain and rotation regeneration; and with time-dependent parameters the sample holds at every time step.", "quantifier": "all configurations of samples, max samples, user files and time-dependent parameters", "why_tests_cant": "the defects show only when two runs of different size are compared, or with a user file longer than 'max samples', or with time-dependent parameters", "anchors": ["src/managers/analysis/analysisManager_solve.hpp:UQSolve", "src/managers/uq/uqManager.cpp:generateSamples", "src/managers/uq/uqManager.cpp:generateIntegerSamples", "src/managers/parameter/parameterManager_update.hpp:updateParams"]}
{"id": "C150", "title": "Rejection sampling keeps samples in proportion to their ratio", "statement": "Rejection sampling keeps a sample exactly when its draw is at most its ratio over the largest ratio. The sample with the largest nonzero ratio is always kept, scaling all ratios by a common factor changes nothing, and a sample with a larger ratio and a smaller draw is kept whenever the other is.", "quantifier": "all lists of ratios (including undefined ones) and draws", "why_tests_cant": "random draws: a test sees one list", "anchors": ["src/managers/uq/uqManager.cpp:rejectionSampling"]}
{"id": "C151", "title": "The weighted sampling overload delivers samples and weights", "statement": "The generateSamples overload with points and weights returns, to its caller, samples of the configured distributions with weights summing to one.", "quantifier": "all engines, distributions, numbers of samples", "why_tests_cant": "not called by the code base; its result never reaches a caller", "anchors": ["src/managers/uq/uqManager.cpp:generateSamples"]}
{"id": "C152", "title": "Reported statistics are those of the sample", "statement": "The reported mean lies between the smallest and the largest value and is the only number with zero total deviation. The reported variance is the mean of the squares minus the square of the mean, and is nonnegative. Under a change of units both change as they should. The probability levels form a distribution function: monotone in the level, 1 exactly from the largest value on and 0 exactly below the smallest. None of them depends on the order of the values, and they satisfy Chebyshev's inequality.", "quantifier": "all nonempty lists of values, levels, units", "why_tests_cant": "holds for all lists", "anchors": ["src/managers/uq/uqManager.cpp:computeStatistics"]}
{"id": "C153", "title": "Kernel density estimates are densities of the data", "statement": "The density estimate is defined exactly when there are at least two data points and every coordinate varies. It is then positive everywhere and at most the peak of one kernel, does not depend on the order of the data, is the average of Gaussians centred at the data, and under a change of units of the coordinates is divided by the change of volume.", "quantifier": "all data sets, dimensions, evaluation points, changes of units", "why_tests_cant": "quantifies over data sets and units", "anchors": ["src/managers/uq/uqManager.cpp:KDE", "src/managers/uq/uqManager.cpp:computeVariance"]}
{"id": "C154", "title": "Data-consistent inversion does not depend on units and reports existing statistics", "statement": "Which samples are accepted does not change when the responses and the observed density are expressed in other units. If the responses vary and some response has a nonzero observed density, at least one sample is accepted; the accepted responses are among the responses, and the reported mean is their average and lies between them.", "quantifier": "all responses, observed densities (Gaussian, uniform, data), changes of units, draws", "why_tests_cant": "invariance ranges over all units and all draws", "anchors": ["src/managers/analysis/analysisManager_solve.hpp:DCISolve", "src/managers/uq/uqManager.cpp:KDE", "src/managers/uq/uqManager.cpp:rejectionSampling"]}
{"id": "C155", "title": "Data-consistent inversion reports a usable result for every run", "statement": "For every set of responses the ratio of observed to predicted density is a number, compares densities of the same responses, and some sample is accepted.", "quantifier": "all responses and observed densities", "why_tests_cant": "needs degenerate or multi-response runs", "anchors": ["src/managers/analysis/analysisManager_solve.hpp:DCISolve", "src/managers/uq/uqManager.cpp:KDE"]}
{"id": "C156", "title": "cdr2: convection, diffusion and reaction of c2", "statement": "The residual the module adds for c2 is the weak form of c_t + v.grad c + r - s = div(D/(rho cp) grad c) in one, two and three dimensions, nothing is added to other rows, the rows of an element sum to the balance of the element, and diffusion only dissipates.", "quantifier": "every element workset, basis, field and coefficient values", "why_tests_cant": "a test checks a few coefficient values on one mesh; the identity must hold for all", "anchors": ["src/physics/cdr2.cpp: volumeResidual"]}
{"id": "C157", "title": "The elliptic prior is a symmetric positive operator", "statement": "The residual of T is the weak form of T_t - div(D grad T) + r T = s; without source and at rest the operator is symmetric in the coefficients and its quadratic form is the integral of r T^2 + D |grad T|^2, which is never negative.", "quantifier": "every element workset, every pair of coefficient vectors", "why_tests_cant": "symmetry and positivity range over all coefficient vectors", "anchors": ["src/physics/ellipticPrior.cpp: volumeResidual"]}
{"id": "C158", "title": "Shallow ice on lines and planes", "statement": "In one and two dimensions the residual of s is the weak form of s_t - div(D grad s) = f, and the rows of an element sum to the integral of s_t - f.", "quantifier": "every element workset of dimension 1 or 2", "why_tests_cant": "all coefficient and basis values", "anchors": ["src/physics/shallowice.cpp: volumeResidual"]}
{"id": "C159", "title": "Kuramoto-Sivashinsky with one basis", "statement": "With u and w in the same basis the residuals are the weak forms of u_t + lap w + w + |grad u|^2/2 = 0 and w = lap u, and on an element where both hold the mean of u falls at the rate of half the integral of |grad u|^2.", "quantifier": "every element workset where u and w share a basis", "why_tests_cant": "the decrease of the mean is a consequence for all solutions", "anchors": ["src/physics/kuramotoSivashinsky.cpp: volumeResidual"]}
{"id": "C160", "title": "Kuramoto-Sivashinsky with two bases", "statement": "The equation of w is tested with the functions of w's own basis when u and w are given different bases.", "quantifier": "every element workset", "why_tests_cant": "only some choices of order show it", "anchors": ["src/physics/kuramotoSivashinsky.cpp: volumeResidual"]}
{"id": "C161", "title": "Hartmann flow on a line", "statement": "In one dimension the residuals are the weak forms of u'' + Ha b' = s and b'' + Ha u' = 0, and tested with the solution the dissipation, the exchange (u b)' and the power of the source balance.", "quantifier": "every one-dimensional workset", "why_tests_cant": "all coefficients and solutions", "anchors": ["src/physics/hartmann.cpp: volumeResidual"]}
{"id": "C162", "title": "Hartmann flow in the plane and its side conditions", "statement": "In two and three dimensions the Laplacians act in every direction, and the Neumann datum of b is added only on sides with that condition.", "quantifier": "every workset and side", "why_tests_cant": "a channel test has derivatives in x only", "anchors": ["src/physics/hartmann.cpp: volumeResidual, boundaryResidual"]}
{"id": "C163", "title": "Saturation alone in its block", "statement": "With S the only variable the residual is the weak form of phi S_t + div(f_w u) = s with the rates of the wells added to s, and the rows sum to phi d/dt S less the inflow.", "quantifier": "every workset with the one variable S, any flow-rate wells", "why_tests_cant": "all coefficients, any number of wells", "anchors": ["src/physics/incompressibleSaturation.cpp: volumeResidual, computeFluxVector", "src/physics/wells.hpp: addWellSources"]}
{"id": "C164", "title": "Saturation next to other variables", "statement": "The saturation module assembles its equation whatever other variables are in the block.", "quantifier": "every variable list containing S", "why_tests_cant": "the tests have S alone", "anchors": ["src/physics/incompressibleSaturation.cpp: volumeResidual"]}
{"id": "C165", "title": "Helmholtz: the rows are the complex weak form", "statement": "With both parts in one basis, the rows of ureal and uimag hold Re + Im and Im - Re of the complex weak form of -omega^2 u - div(c^2 grad u) = s, so that all rows vanish exactly when the complex weak form vanishes for every test function.", "quantifier": "every workset, complex coefficients and complex state", "why_tests_cant": "equivalence over all states", "anchors": ["src/physics/helmholtz.cpp: volumeResidual"]}
{"id": "C166", "title": "Fractional Helmholtz", "statement": "With a fractional exponent the rows vanish exactly when the complex weak form with mass coefficient alphaHr omega^(2 s) + i alphaHi omega^(2 s) vanishes.", "quantifier": "every workset", "why_tests_cant": "over all states", "anchors": ["src/physics/helmholtz.cpp: volumeResidual"]}
{"id": "C167", "title": "Helmholtz: Robin sides", "statement": "On sides with the Neumann condition the rows hold, in the same combination as in the volume, the complex Robin residual alpha u + du/dn - s less the flux left by integration by parts; on other sides nothing is added.", "quantifier": "every side of worksets of dimension 2 or 3", "why_tests_cant": "all complex coefficients and states", "anchors": ["src/physics/helmholtz.cpp: boundaryResidual"]}
{"id": "C168", "title": "Functions these modules ask for have an effect", "statement": "A function that the module declares (SUPG tau and robin alpha of cdr2, robin alpha of the prior, resistivity of Hartmann; the flux of the prior) changes what is assembled.", "quantifier": "every such function", "why_tests_cant": "no test varies an unused option", "anchors": ["src/physics/cdr2.cpp: defineFunctions", "src/physics/ellipticPrior.cpp: defineFunctions, computeFlux", "src/physics/hartmann.cpp: defineFunctions"]}
{"id": "C169", "title": "Shallow ice in space", "statement": "In three dimensions the residual of s is the weak form of s_t - div(D grad s) = f.", "quantifier": "every three-dimensional workset", "why_tests_cant": "no three-dimensional test", "anchors": ["src/physics/shallowice.cpp: volumeResidual"]}
{"id": "C170", "title": "Helmholtz: sides of lines, and fractional sides", "statement": "The Robin residual is assembled in one dimension and with a fractional exponent.", "quantifier": "every one-dimensional workset; every fractional one", "why_tests_cant": "undefined reads may pass a test", "anchors": ["src/physics/helmholtz.cpp: boundaryResidual"]}
{"id": "C171", "title": "Sensors are located in an element that contains them", "statement": "A sensor is assigned to a local element exactly when some local element contains it, the assigned element contains it, and the bounding-box pre-check never rejects a point of an element (convex hull of its nodes).", "quantifier": "all groupings of elements, all node coordinates below 1e300, all inclusion tests that accept hull points only, all points", "why_tests_cant": "A test places a few sensors in a few meshes; here every grouping and every point including those on faces, edges and vertices shared by elements.", "anchors": ["src/managers/postprocess/postprocessManager_sensors.hpp:locateSensorPoints"]}
{"id": "C172", "title": "Locating sensors works in one and two dimensions", "statement": "Locating sensors reads only entries of the bounding boxes that exist.", "quantifier": "all dimensions, groupings and points", "why_tests_cant": "Reading beyond a view usually returns a neighbouring number and changes nothing visible.", "anchors": ["src/managers/postprocess/postprocessManager_sensors.hpp:locateSensorPoints"]}
{"id": "C173", "title": "One process owns each sensor", "statement": "A sensor contained in an element of any process is kept by exactly one process; a sensor contained in none is kept by none.", "quantifier": "all distributions of elements to any number of processes, all points", "why_tests_cant": "Ties on interfaces between processes depend on the partition; a test sees one partition.", "anchors": ["src/managers/postprocess/postprocessManager_sensors.hpp:locateSensorPoints"]}
{"id": "C174", "title": "Sensor files hold the solution at the sensors", "statement": "For sensors given to all processes (file of points or grid) each written file has one line per sensor in the order given, with its coordinates and the values of the discrete solution there at all stored times; if the solution is single-valued at the sensors the file does not depend on how elements are grouped or distributed.", "quantifier": "all meshes, groupings, process counts, bases, solution vectors, times and located sensors", "why_tests_cant": "Needs agreement of compressed local storage, owners, gathered coefficients and global sums for every partition.", "anchors": ["src/managers/postprocess/postprocessManager_sensors.hpp:computeSensorSolution,importSensorsFromFiles,importSensorsOnGrid", "src/managers/postprocess/postprocessManager_util.hpp:reportResponses"]}
{"id": "C175", "title": "Every line of a sensor file describes a sensor", "statement": "Whatever way sensors are specified, each sensor has a line in the files that starts with its coordinates.", "quantifier": "all ways to define sensors", "why_tests_cant": "Wrong lines look like plausible data.", "anchors": ["src/managers/postprocess/postprocessManager_sensors.hpp:importSensorsOnQuadrature,importSensorsFromExodus", "src/managers/postprocess/postprocessManager_util.hpp:reportResponses"]}
{"id": "C176", "title": "HDF5 sensor output equals the text output", "statement": "With HDF5 output, row s holds the values of sensor s.", "quantifier": "all process counts and sensors", "why_tests_cant": "Only wrong when a process does not own a prefix of all sensors.", "anchors": ["src/managers/postprocess/postprocessManager_util.hpp:reportResponses"]}
{"id": "C177", "title": "The dft output is the discrete Fourier transform", "statement": "With dft output the accumulated coefficient k is the k-th discrete Fourier coefficient of the sensor series.", "quantifier": "all numbers of frequencies, series and k", "why_tests_cant": "Needs trigonometric identities for all frequencies.", "anchors": ["src/managers/postprocess/postprocessManager_sensors.hpp:computeSensorSolution"]}
{"id": "C178", "title": "Transforms and far fields are written", "statement": "dft output writes the coefficients; the far field uses the field at each boundary sensor with its own point and adds all four potentials over processes.", "quantifier": "all series, boundary groups, process counts", "why_tests_cant": "Requires runs with these outputs and known far fields.", "anchors": ["src/managers/postprocess/postprocessManager_util.hpp:reportResponses"]}
{"id": "C179", "title": "Sensor files per process", "statement": "With the rank added to sensor file names, process r reads base.r.dat of both files, and keeps the sensors of its file that it contains.", "quantifier": "all names, ranks, lists of points", "why_tests_cant": "Names of equal length hide it; needs several processes.", "anchors": ["src/managers/postprocess/postprocessManager_sensors.hpp:importSensorsFromFiles"]}
{"id": "C180", "title": "Sensor grids", "statement": "A grid of Nx x Ny x Nz sensors has that many points, last coordinate fastest, equally spaced from the lower to the upper bounds; other dimensions than three are refused.", "quantifier": "all bounds, all counts", "why_tests_cant": "All sizes including 1.", "anchors": ["src/managers/postprocess/postprocessManager_sensors.hpp:importSensorsOnGrid"]}
{"id": "C181", "title": "Sensor files are read as written", "statement": "A points file with dim numbers per line gives these points; a data file with times in the first line and one full line per sensor gives these times and series in order; a different number of lines is an error.", "quantifier": "all files", "why_tests_cant": "All sizes of files.", "anchors": ["src/tools/data.cpp:importPoints,importDataOneFile", "src/managers/postprocess/postprocessManager_sensors.hpp:importSensorsFromFiles"]}
{"id": "C182", "title": "Incomplete sensor files are reported", "statement": "Blank or short lines in sensor files lead to an error, and a missing points file means no sensors as the warning says.", "quantifier": "all files", "why_tests_cant": "Each kind of damage is a separate case.", "anchors": ["src/tools/data.cpp:importPoints,importDataOneFile"]}
{"id": "C183", "title": "Bases at sensors for mixed discretizations", "statement": "The values and gradients of each basis at the sensors are stored in views of that basis.", "quantifier": "all lists of basis types and sizes", "why_tests_cant": "Depends on the order of the bases, which follows from the order of variables.", "anchors": ["src/managers/postprocess/postprocessManager_sensors.hpp:computeSensorBasis"]}
{"id": "C184", "title": "Projected initial data are the closest finite element function", "statement": "With initial type L2-projection on a mesh of one element block, the initial coefficients are those of the finite element function whose weighted squared distance from the given initial functions, over all quadrature points, variables and components, is smallest. If the given functions are themselves finite element functions they are reproduced at every quadrature point of positive weight. Condition: the mass entries each process adds to a used row are not all below 1e-14 in sum.", "quantifier": "all meshes of one block, distributions over processes, variables (scalar and vector bases), quadrature rules with nonnegative weights, given functions, and solutions of the assembled system", "why_tests_cant": "A test compares one analytic function on one mesh to a tolerance; it cannot show optimality against every other coefficient vector.", "anchors": ["src/managers/assembly/assemblyManager_initial.hpp:setInitial", "src/managers/assembly/assemblyManager_mass.hpp:getMass", "src/interfaces/physics/physicsInterface_initial.hpp:getInitial", "src/managers/solver/solverManager_util.hpp:setInitial"]}
{"id": "C185", "title": "Projection on any mesh", "statement": "The projection property holds on meshes of several blocks and of any element size.", "quantifier": "all meshes and block partitions", "why_tests_cant": "Needs blocks with separate unknowns or elements of mass below 1e-14; on one block of normal size everything passes.", "anchors": ["src/managers/assembly/assemblyManager_initial.hpp:setInitial", "src/managers/solver/solverManager_util.hpp:setInitial"]}
{"id": "C186", "title": "Lumped projection keeps constants", "statement": "With the lump mass option and bases that sum to one, if the given function is a constant on all elements around an unknown whose basis function has nonzero integral, the initial value of that unknown is the constant.", "quantifier": "all meshes, scalar bases forming a partition of unity, constants, unknowns", "why_tests_cant": "A test sees one mesh; the claim is per unknown for any mesh.", "anchors": ["src/managers/assembly/assemblyManager_initial.hpp:setInitial", "src/managers/assembly/assemblyManager_mass.hpp:getMass"]}
{"id": "C187", "title": "Projection on faces", "statement": "With initial type L2-projection-HFACE the coefficients are those closest, over the points of all faces, to the given functions, for any number of blocks; given face functions are reproduced.", "quantifier": "all meshes, blocks, distributions, face quadratures, given functions", "why_tests_cant": "Optimality over all coefficient vectors; and the contrast with several blocks cannot be seen on one-block tests.", "anchors": ["src/managers/assembly/assemblyManager_initial.hpp:setInitialFace", "src/managers/assembly/assemblyManager_mass.hpp:getMassFace", "src/managers/solver/solverManager_util.hpp:setInitial"]}
{"id": "C188", "title": "Lumped projection on faces", "statement": "The lumped face mass matrix is diagonal with the row sums of the mass matrix.", "quantifier": "all elements and face bases", "why_tests_cant": "Only used when an adjoint problem is initialised; tests of forward problems never reach it.", "anchors": ["src/managers/assembly/assemblyManager_initial.hpp:setInitialFace", "src/managers/solver/solverManager_util.hpp:setInitial"]}
{"id": "C189", "title": "Interpolated initial data", "statement": "With initial type interpolation, if every variable has one unknown at each node of its element, every unknown gets the given value at its node and nothing else is set.", "quantifier": "all meshes, numberings, variables and given nodal values", "why_tests_cant": "The result depends on write order over all elements and variables; tests fix one.", "anchors": ["src/managers/assembly/assemblyManager_initial.hpp:setInitial", "src/managers/solver/solverManager_util.hpp:setInitial"]}
{"id": "C190", "title": "Interpolation with lower-order variables", "statement": "Interpolation also sets the right values when a variable has fewer unknowns per element than nodes.", "quantifier": "all meshes and mixes of variables", "why_tests_cant": "Needs a mixed discretisation with interpolation.", "anchors": ["src/managers/assembly/assemblyManager_initial.hpp:setInitial", "src/managers/solver/solverManager_setup.hpp:finalizeWorkset"]}
{"id": "C191", "title": "Scalar initial data and initial types", "statement": "Each physics set with scalar initial data gets its own values, and an unknown initial type is refused.", "quantifier": "all lists of sets and type names", "why_tests_cant": "Needs several sets, some without scalar data, or a misspelled type.", "anchors": ["src/managers/solver/solverManager_construct.hpp:SolverManager", "src/managers/solver/solverManager_util.hpp:setInitial"]}
{"id": "C192", "title": "Cell of a point in the fire model", "statement": "A point in column i, row j of the file's grid is given number j*nx+i; every point gets the number of an existing cell; points outside get the cell of the nearest point of the domain; points of different cells get different numbers.", "quantifier": "all uniform grids and points", "why_tests_cant": "Holds for infinitely many points, including boundaries between cells and points outside; tests sample a few.", "anchors": ["src/physics/rothermal.cpp:getElementIds"]}
{"id": "C193", "title": "Interpolation of nodal spread rates", "statement": "Nodal spread rates are interpolated so that bilinear functions are reproduced at every point, node values at the nodes, and inside the domain the result lies between the smallest and largest nodal value.", "quantifier": "all uniform grids, nodal values and points", "why_tests_cant": "Exactness on all bilinear functions and the bounds are statements over all data.", "anchors": ["src/physics/rothermal.cpp:evalNodalR"]}
{"id": "C194", "title": "Cell data of the fire model", "statement": "At a point of an element of the mesh file, the fuel and slope data of that element are used.", "quantifier": "all files of uniform grids accepted by the reader", "why_tests_cant": "Depends on the numbering in the file, which tests keep fixed.", "anchors": ["src/physics/rothermal.cpp:getElementIds", "src/physics/rothermal.cpp:computeFields", "src/tools/ExoReader.cpp:computeGridAndDomain"]}
{"id": "C195", "title": "Rate of spread", "statement": "The rate of spread is nonnegative and at most base rate times exp(wind constant) times exp(slope constant); zero without fuel; base rate times fuel correction when calm and flat; wind along the front's direction never slows it and opposing wind never speeds it up; turning front, wind and slope together does not change it.", "quantifier": "all settings, points, gradients, winds, slopes", "why_tests_cant": "Inequalities and symmetry over all real inputs.", "anchors": ["src/physics/rothermal.cpp:computeFields", "src/physics/rothermal.cpp:heaviside"]}
{"id": "C196", "title": "The front moves at the rate of spread", "statement": "With the fire model, the level set transport term is the rate of spread times the length of the gradient, up to 1e-8 times the rate, and the velocity is never longer than the rate.", "quantifier": "all gradients and nonnegative rates", "why_tests_cant": "A bound for all gradients, including vanishing ones.", "anchors": ["src/physics/levelSet.cpp:volumeResidual"]}
{"id": "C197", "title": "Reaction velocity", "statement": "For fuels with surface to volume ratio at least 68, the reaction velocity is positive and largest at the optimum packing ratio, where it equals the maximum reaction velocity.", "quantifier": "all fuels and packing ratios", "why_tests_cant": "Optimality over a continuum.", "anchors": ["src/physics/rothermal.cpp:computeBaseEquations", "src/physics/rothermal.cpp:computeRothermals"]}
{"id": "C198", "title": "Moisture and the base rate", "statement": "The base rate of spread is never negative, and zero for fuel at or beyond its moisture of extinction.", "quantifier": "all fuels", "why_tests_cant": "Needs fuels wetter than extinction.", "anchors": ["src/physics/rothermal.cpp:computeBaseEquations", "src/physics/rothermal.cpp:computeRothermals"]}
{"id": "C199", "title": "Grid of a mesh file", "statement": "From node coordinates of a uniform rectangular grid, in any order and with any repetition, with spacing at least 1e-10, the reader finds the origin, the spacings and the numbers of cells, and accepts exactly the right number of elements.", "quantifier": "all uniform grids, orders and repetitions of coordinates", "why_tests_cant": "Quantifies over all permutations and multiplicities of coordinates.", "anchors": ["src/tools/ExoReader.cpp:computeGridAndDomain", "src/tools/ExoReader.cpp:unique_sorted_"]}
{"id": "C200", "title": "Uneven grids are refused", "statement": "An accepted grid has spacings that agree to 1e-4 of the first.", "quantifier": "all lists of coordinates", "why_tests_cant": "Needs small cells.", "anchors": ["src/tools/ExoReader.cpp:computeGridAndDomain"]}
{"id": "C201", "title": "Neo-Hookean stress is the derivative of the stored energy (1D, 3D)", "statement": "In one and three dimensions the stress the hyperelasticity module uses is the derivative of W = mu/2 (I1-3) + lambda/2 (ln J)^2 - mu ln J with respect to the deformation gradient in every direction, for every deformation with J > 0; it is zero at rest, to first order in the displacement it is the stress of linear elasticity, and (3D) rotating the deformed body rotates the stress with it.", "quantifier": "all displacement gradients with J > 0, all moduli, all rotations, dimensions 1 and 3", "why_tests_cant": "An identity over all deformation gradients and moduli (real numbers, logarithms); tests sample a few deformations.", "anchors": ["src/physics/neohookean.cpp:computeStress"]}
{"id": "C202", "title": "Neo-Hookean volume terms", "statement": "For each displacement component the assembled rows are the weak form of - Div P = f with the computed stress and the given source, no other rows are touched, the rows of a component sum to minus the total load, and tested with a virtual displacement the residual is the first variation of the stored energy less the work of the load (1D, 3D).", "quantifier": "all worksets (numbers of points, functions, variables), all displacements", "why_tests_cant": "Sums over arbitrary quadrature and bases for arbitrary fields.", "anchors": ["src/physics/neohookean.cpp:volumeResidual"]}
{"id": "C203", "title": "Neo-Hookean stress in two dimensions", "statement": "In two dimensions the stress is the derivative of the stored energy, a rigid rotation causes no stress, and for small displacements it is the stress of linear elasticity.", "quantifier": "all displacement gradients with J > 0", "why_tests_cant": "An identity over all deformation gradients and moduli (real numbers, logarithms); tests sample a few deformations.", "anchors": ["src/physics/neohookean.cpp:computeStress"]}
{"id": "C204", "title": "Reported Cauchy and von Mises stress (3D, 1D)", "statement": "In three dimensions the Cauchy stress formed for output is symmetric and is (mu (F F^T - 1) + lambda ln J 1)/J, and the reported von Mises stress is that of its deviator; in one dimension the reported stresses are the absolute value of the stress.", "quantifier": "all deformations with J > 0", "why_tests_cant": "An identity over all deformation gradients and moduli (real numbers, logarithms); tests sample a few deformations.", "anchors": ["src/physics/neohookean.cpp:getDerivedValues"]}
{"id": "C205", "title": "Neo-Hookean boundary terms and flux", "statement": "For each component separately, whatever the kinds of the other components: a side with given traction contributes minus the traction, a side with weakly given (or coarse scale) displacement contributes minus the traction of the computed stress plus penalty times the mismatch, other kinds nothing; the terms vanish into the exact traction where the data are met; and the flux handed out is minus the sum of the side terms.", "quantifier": "all worksets, all side kinds and mixtures of them", "why_tests_cant": "Sums over arbitrary bases and points, all combinations of kinds.", "anchors": ["src/physics/neohookean.cpp:boundaryResidual", "src/physics/neohookean.cpp:computeFlux"]}
{"id": "C206", "title": "Neo-Hookean flux on traction sides and stress magnitude", "statement": "On a side with a given traction the flux handed out is the traction, and the reported stress magnitude is the norm of the Cauchy stress.", "quantifier": "all worksets", "why_tests_cant": "Holds or fails over all fields; tests sample a few.", "anchors": ["src/physics/neohookean.cpp:computeFlux", "src/physics/neohookean.cpp:getDerivedValues"]}
{"id": "C207", "title": "Elastodynamics: momentum balance and power (1D, 2D)", "statement": "The rows of the displacements are the weak form of dv/dt - div sigma = f, the rows of v that of v = rho du/dt, nothing else is touched, and where these hold the rate of kinetic energy plus the stress power is the power of the load.", "quantifier": "all worksets and fields; dimensions 1 and 2 (momentum and power: 3 too, with one basis for vx and vy)", "why_tests_cant": "Sums over arbitrary quadrature and bases for arbitrary fields.", "anchors": ["src/physics/elastodynamics.cpp:volumeResidual"]}
{"id": "C208", "title": "Elastodynamics in three dimensions", "statement": "In three dimensions the rows of vx, vy and vz are the weak forms of v = rho du/dt.", "quantifier": "all worksets and fields", "why_tests_cant": "Sums over arbitrary quadrature and bases for arbitrary fields.", "anchors": ["src/physics/elastodynamics.cpp:volumeResidual"]}
{"id": "C209", "title": "Crystal stiffness turns with the crystal", "statement": "With crystal elasticity, three orientation angles in degrees stand for three successive turns (about z, x, z), hence a proper rotation; the stress of an element is the lattice stiffness applied to the strain seen from the crystal, turned back; turning crystal and strain together turns the stress; and no turn is applied unless rotations are allowed and given.", "quantifier": "all stiffness constants, angles, rotation matrices, displacement gradients, dimensions", "why_tests_cant": "The identity holds for every orientation; tests use identity or one crystal.", "anchors": ["src/physics/CrystalElasticity.cpp:computeRotatedTensor", "src/physics/CrystalElasticity.cpp:computeStress"]}
{"id": "C210", "title": "Crystal stress is symmetric and energetic", "statement": "The stress given by crystal elasticity is a symmetric tensor for every strain, and the work of stress(g) on strain(h) equals that of stress(h) on strain(g).", "quantifier": "all constants, orientations, gradients, dimension up to 3", "why_tests_cant": "Needs all strain pairs; a regression value hides an unsymmetric entry.", "anchors": ["src/physics/CrystalElasticity.cpp:computeLatticeTensor"]}
{"id": "C211", "title": "Crystal elasticity with E and nu only is isotropic", "statement": "With only Young's modulus and Poisson's ratio given, crystal elasticity gives the stress and the thermal stress of the isotropic Hooke solid with these moduli.", "quantifier": "all E, nu, gradients, dimensions", "why_tests_cant": "A statement about every strain state.", "anchors": ["src/physics/CrystalElasticity.cpp:CrystalElastic", "src/physics/CrystalElasticity.cpp:computeStress"]}
{"id": "C212", "title": "The stiffness constants and parameters given are used", "statement": "Every stiffness constant in the settings (C11 ... C46) and every active elastic parameter (lambda, mu, youngs_mod, poisson_ratio) enters the stress.", "quantifier": "all constants and active parameters", "why_tests_cant": "Setting one constant and observing no change needs a run per constant; the overwrite happens at every evaluation.", "anchors": ["src/physics/CrystalElasticity.cpp:updateParams"]}
{"id": "C213", "title": "Each element is given its own orientation", "statement": "Whatever the order in which the elements of a group are processed, also at the same time, each element's stiffness uses that element's orientation.", "quantifier": "all interleavings of the elements' steps, all orientations", "why_tests_cant": "A race needs a schedule that tests cannot force.", "anchors": ["src/physics/CrystalElasticity.cpp:computeRotatedTensor"]}
{"id": "C214", "title": "The phase-field residual is the Allen-Cahn equation of each element", "statement": "For the multiple-species phase field, the residual of phase j on element e is (phi_t,v) + L (16 A phi_j (sum phi^2 - phi_j), v) + L eps^2 (grad phi_j, grad v) with the fields of that element at its own quadrature points.", "quantifier": "all numbers of phases, elements, points, fields, bases, parameters", "why_tests_cant": "Wrong fields at later points change values, not structure; a one-cell or uniform test passes.", "anchors": ["src/physics/msphasefield.cpp:volumeResidual"]}
{"id": "C215", "title": "The phase-field reaction comes from an energy", "statement": "The reaction term is the derivative of the bulk energy 16 A (1/4 (sum phi^2)^2 - 1/3 sum phi^3) along every direction, and a pure phase at rest has zero residual in every dimension and with either mobility.", "quantifier": "all numbers of phases, states, directions", "why_tests_cant": "A derivative identity for every state.", "anchors": ["src/physics/msphasefield.cpp:volumeResidual"]}
{"id": "C216", "title": "The phase field solves the same equation in every dimension", "statement": "In one, two and three dimensions, with constant or variable mobility, the phase-field residual is that of C214 (a variable mobility built from equal entries L equals L).", "quantifier": "all dimensions, fields, parameters", "why_tests_cant": "One dimension per test; the coefficients differ silently.", "anchors": ["src/physics/msphasefield.cpp:volumeResidual"]}
{"id": "C217", "title": "The test module assembles the operator named", "statement": "physicsTest with a scalar basis assembles the projection (p,v) or the Laplace form (grad p, grad v) to the rows of p and nothing elsewhere; any other operator name assembles nothing; the Laplace form is nonnegative and the projection tested with p is its squared norm.", "quantifier": "all worksets, dimensions, operator names", "why_tests_cant": "For all bases and fields.", "anchors": ["src/physics/physics_test.cpp:volumeResidual"]}
{"id": "C218", "title": "The phase-space test module integrates over all phase elements", "statement": "The residual of the phase-space test module is (dT/dt - source, v) over the product of the spatial element and all phase elements.", "quantifier": "all numbers of phase elements, points, fields", "why_tests_cant": "One phase element passes.", "anchors": ["src/physics/phase_elliptic.cpp:volumeResidual"]}
{"id": "C219", "title": "Every variable uses the basis of its own type and order", "statement": "On each block the bases built are exactly the (type, order) pairs of the variables and discretized parameters, each once; when no two variables of the block share a name, the basis a variable is connected to has its type and order; a type marked -DG is the type before the mark and is discontinuous.", "quantifier": "all lists of physics sets, variables, types, orders and parameters", "why_tests_cant": "Depends on how pairs repeat across sets and on the order of declaration; tests use few combinations.", "anchors": ["src/interfaces/physics/physicsInterface_construct.hpp:importPhysics", "src/interfaces/physics/physicsInterface_util.hpp:getUniqueIndex", "src/interfaces/discretization/discretizationInterface_construct.hpp"]}
{"id": "C220", "title": "Physics sets may use the same variable name", "statement": "A variable uses the basis of its own type and order also when another physics set has a variable of the same name.", "quantifier": "all physics sets and variables", "why_tests_cant": "Needs two sets sharing a name with different orders.", "anchors": ["src/interfaces/physics/physicsInterface_util.hpp:getUniqueIndex"]}
{"id": "C221", "title": "A discretized parameter uses its own basis on every block", "statement": "On every block, a discretized parameter is evaluated with the basis of its type and order.", "quantifier": "all numbers of blocks, variables and parameters", "why_tests_cant": "Needs blocks with different physics.", "anchors": ["src/managers/parameter/parameterManager_setup.hpp:setupDiscretizedParameters"]}
{"id": "C222", "title": "Lists of physics modules are read name by name, in order", "statement": "Names joined by a comma and a blank are read back exactly; every known name or alias gives one module, of its class, in the order of the list; no name stands for two modules.", "quantifier": "all lists of names", "why_tests_cant": "All lists and names.", "anchors": ["src/interfaces/physics/physicsInterface_util.hpp:breakupList", "src/physics/physicsImporter.cpp:import"]}
{"id": "C223", "title": "Unknown physics modules are reported", "statement": "A name in a module list that is no module is an error.", "quantifier": "all lists of names", "why_tests_cant": "All strings.", "anchors": ["src/physics/physicsImporter.cpp:import", "src/interfaces/physics/physicsInterface_construct.hpp:importPhysics"]}
{"id": "C224", "title": "Functions of a block: general ones, replaced by the block's", "statement": "A function given in a list whose name contains the block's replaces the general one of that name on the block (the last such list counts); otherwise the general one is used; a function given nowhere is not defined.", "quantifier": "all lists of functions and block names", "why_tests_cant": "All names and nestings.", "anchors": ["src/interfaces/physics/physicsInterface_functions.hpp:defineFunctions"]}
{"id": "C225", "title": "Functions given for one block do not reach another", "statement": "On a block with no list of its own, the general functions are used.", "quantifier": "all block names", "why_tests_cant": "Needs block names contained in one another, as from ten blocks on.", "anchors": ["src/interfaces/physics/physicsInterface_functions.hpp:defineFunctions"]}
{"id": "C226", "title": "Initial values are those given", "statement": "An initial condition given as a formula is used as it stands, one given as a number with at most six decimals keeps its value, a variable without one starts from zero.", "quantifier": "all variables, formulas, numbers", "why_tests_cant": "All values.", "anchors": ["src/interfaces/physics/physicsInterface_functions.hpp:defineFunctions"]}
{"id": "C227", "title": "Any number may be an initial value", "statement": "An initial condition given as a number, integer or not, keeps its value.", "quantifier": "all numbers", "why_tests_cant": "All values.", "anchors": ["src/interfaces/physics/physicsInterface_functions.hpp:defineFunctions"]}
{"id": "C228", "title": "Mass and norm weights are those given", "statement": "The weight of a variable is the number given for it, and one otherwise.", "quantifier": "all variables and numbers", "why_tests_cant": "All values and ways of writing them.", "anchors": ["src/interfaces/physics/physicsInterface_functions.hpp:defineFunctions"]}
{"id": "C229", "title": "The matrix graph has every coupling and enough room", "statement": "Without phase space, row r has column c exactly when some element on the process has both unknowns; the space reserved per row is enough for its distinct columns (also with phase space).", "quantifier": "all meshes, numberings and element sizes", "why_tests_cant": "Connectivity of arbitrary meshes; a missing entry only shows for the mesh that needs it.", "anchors": ["src/interfaces/linear_algebra/linearAlgebraInterface_construct.hpp:setupLinearAlgebra"]}
{"id": "C230", "title": "Unknowns in phase space are numbered once each", "statement": "If the spatial unknowns 0..N-1 are shared out among the processes then the products with n unknowns in phase space are the numbers 0..N n-1, each owned once, and a number determines its pair.", "quantifier": "all N, n, processes and orders", "why_tests_cant": "All partitions.", "anchors": ["src/interfaces/linear_algebra/linearAlgebraInterface_construct.hpp:setupLinearAlgebra"]}
{"id": "C231", "title": "The graph couples the unknowns of phase space", "statement": "Any two unknowns of a spatial element and of phase space are coupled in the graph.", "quantifier": "all meshes and numbers of unknowns in phase space", "why_tests_cant": "Needs a problem in phase space.", "anchors": ["src/interfaces/linear_algebra/linearAlgebraInterface_construct.hpp:setupLinearAlgebra"]}
{"id": "C232", "title": "Exchange between processes is consistent", "statement": "Exporting with addition gives the owner the sum of all copies, for one process and for many; importing gives every copy the owner's value; a vector whose copies agree survives export with replacement and import; import is the transpose of export with addition.", "quantifier": "all numbers of processes, partitions and vectors", "why_tests_cant": "All partitions and values.", "anchors": ["src/interfaces/linear_algebra/linearAlgebraInterface_vector.hpp:exportVectorFromOverlapped,exportVectorFromOverlappedReplace,importVectorToOverlapped"]}
{"id": "C233", "title": "Which matrix a linear system is solved with", "statement": "Without Jacobian reuse each linear system is solved with the matrix of the current iteration; with reuse, with that of the first iteration of the run (forward or adjoint) for that physics set, never with one from an earlier run, another set or the mass matrix; never with one that was not filled.", "quantifier": "all sequences of setups, runs and iterations over all physics sets", "why_tests_cant": "All histories.", "anchors": ["src/interfaces/linear_algebra/linearAlgebraInterface_matrix.hpp:getNewMatrix", "src/interfaces/linear_algebra/linearAlgebraInterface_util.hpp:getJacobianReuse,resetAllJacobian", "src/interfaces/linear_algebra/linearSolverContext.hpp", "src/managers/solver/solverManager_solvers.hpp:nonlinearSolver"]}
{"id": "C234", "title": "Each linear solver has its own options", "statement": "A solver with its own section takes the options kept with it from that section alone; one without takes them from the general section; an entry has the effect it names and the defaults hold otherwise; sections have different names. The preconditioner switch of the boundary projection excepted (C235).", "quantifier": "all settings and kinds of solver", "why_tests_cant": "All combinations.", "anchors": ["src/interfaces/linear_algebra/linearAlgebraInterface_construct.hpp:LinearAlgebraInterface", "src/interfaces/linear_algebra/linearSolverContext.hpp"]}
{"id": "C235", "title": "Every solver option given has an effect", "statement": "Number of Krylov vectors, iterations, preconditioner variant and preconditioner switch are used as given, in the general section or the solver's own.", "quantifier": "all settings", "why_tests_cant": "Options without effect show only in behaviour.", "anchors": ["src/interfaces/linear_algebra/linearAlgebraInterface_util.hpp:getBelosParameterList", "src/interfaces/linear_algebra/linearAlgebraInterface_solvers.hpp:linearSolver"]}
{"id": "C236", "title": "A time step's residual uses the group's own stage, history and earlier stage values", "statement": "While a physics set is being advanced, the unknowns of that set that the residual of any group or boundary group is evaluated with are the Runge-Kutta/BDF combination of that group's own entries of the current stage vector, the previous solutions and the earlier stages, and so is the time derivative, regardless of what the reused element buffers held and of the groups treated before.", "quantifier": "all layouts, calls with stage/history vectors, lists of groups, earlier contents of buffers and workset, positions in the sweep, elements, variables and unknowns", "why_tests_cant": "buffers are shared by all groups of a block; a stale entry shows only for particular group sequences and histories", "anchors": ["src/managers/assembly/assemblyManager_gather.hpp:performGather", "src/managers/assembly/assemblyManager_jacres.hpp:assembleJacRes", "src/tools/workset.cpp:computeSolnTransientSeeded"]}
{"id": "C237", "title": "Other physics sets, steady sweeps and discretized parameters are evaluated from the vectors passed", "statement": "In an assembly, the unknowns of a set that is not being advanced, all unknowns in a steady assembly, and the discretized parameters are the group's own entries of the vectors passed by the caller.", "quantifier": "all layouts, calls, groups, earlier buffer contents, sets, elements, variables and unknowns", "why_tests_cant": "buffers are reused between groups and sets", "anchors": ["src/managers/assembly/assemblyManager_gather.hpp:performGather", "src/tools/workset.cpp:computeSolnSteadySeeded"]}
{"id": "C238", "title": "Adjoint data of a group are its own entries of the adjoint vectors", "statement": "In an adjoint assembly the adjoint values, adjoint history and earlier adjoint stages of a group are its entries of the vectors passed.", "quantifier": "all layouts, adjoint calls, groups, earlier buffer contents, elements, variables, unknowns", "why_tests_cant": "buffers are reused between groups and sets", "anchors": ["src/managers/assembly/assemblyManager_gather.hpp:performGather"]}
{"id": "C239", "title": "An assembly is determined by the vectors it is given", "statement": "The time derivative the residual of the advanced set is evaluated with is a function of the vectors passed, the integrator and the group, also when the caller passes only the solution (as the discretized-parameter sensitivity does).", "quantifier": "all calls, groups and earlier buffer contents", "why_tests_cant": "the result depends on what was assembled before", "anchors": ["src/managers/assembly/assemblyManager_gather.hpp:performGather", "src/managers/postprocess/postprocessManager_objective_gradient.hpp:computeDiscreteSensitivities"]}
{"id": "C240", "title": "Every time derivative visible to the residual belongs to the current step", "statement": "In a time step with several physics sets, the time derivative of the unknowns of every set that the residual can read is determined by the vectors of that step.", "quantifier": "all calls, groups, sets and earlier workset contents", "why_tests_cant": "needs coupled physics sets and a residual that reads the rate of another set", "anchors": ["src/tools/workset.cpp:computeSolnTransientSeeded"]}
{"id": "C241", "title": "Variable-density flow assembles its weak momentum, energy and continuity equations", "statement": "Without grad-div stabilization, in one, two and three dimensions, the residual rows of the velocities are the weak form of rho Dv/Dt = div(2 mu dev(eps)) - grad p + source (plus the streamline term when SUPG is on), those of T the weak energy equation with dp0/dt, those of pr the weak form of div v = (DT/Dt)/T - (dp0/dt)/p0 (plus the pressure term when PSPG is on), and no other row is changed.", "quantifier": "every well-formed workset holding pr, T and the velocities, every option set without grad-div, every coefficient and state", "why_tests_cant": "The terms are written out three times, once per dimension; a test compares one solution of one dimension.", "anchors": ["src/physics/variableDensityNS.cpp: VDNS::volumeResidual, VDNS::computeTau"]}
{"id": "C242", "title": "Grad-div stabilization of variable-density flow penalises the continuity residual", "statement": "With grad-div on, each momentum equation gains (div v, h^2/tau times the residual of the continuity equation).", "quantifier": "every well-formed workset of one to three dimensions and every state", "why_tests_cant": "The term is small for resolved solutions, so convergence tests pass with a wrong one.", "anchors": ["src/physics/variableDensityNS.cpp: VDNS::volumeResidual (lines 408, 495)"]}
{"id": "C243", "title": "Streamline and pressure stabilization of variable-density flow are consistent", "statement": "Where the strong residuals of momentum and energy vanish at all points, turning SUPG and PSPG on changes no row of the residual.", "quantifier": "every well-formed workset, option set and state", "why_tests_cant": "Exact solutions reachable by a test are few and do not exercise all terms of the strong residual.", "anchors": ["src/physics/variableDensityNS.cpp: VDNS::volumeResidual, VDNS::computeTau"]}
{"id": "C244", "title": "Neumann data of variable-density flow enter as tractions and heat fluxes", "statement": "On a side where a velocity or T has Neumann data its rows gain minus the integral of data times test function; with any other kind of data nothing is added, and no other row is changed.", "quantifier": "every well-formed workset, kind of boundary data and dimension", "why_tests_cant": "Needs all combinations of conditions on all variables in all dimensions.", "anchors": ["src/physics/variableDensityNS.cpp: VDNS::boundaryResidual"]}
{"id": "C245", "title": "The stabilization time of variable-density flow is bounded by each of its time scales", "statement": "The stabilization time is positive and at most h^2/(4 diffusivity); in a transient run at most dt/(2 rho); and, unless the flow is nearly at rest, at most h/(2 rho |v|).", "quantifier": "every workset, diffusivity, velocity, density, mesh size and step", "why_tests_cant": "A bound over all real inputs.", "anchors": ["src/physics/variableDensityNS.cpp: VDNS::computeTau"]}
{"id": "C246", "title": "The background pressure follows its balance with in- and outflow", "statement": "With open boundaries the update of the background pressure is an explicit step dt of |V| dp0/dt + gamma p0 (velocity flux) = (gamma-1)(heat flux + heating), with the integrated quantities registered by the module.", "quantifier": "every gas constant, list of quadrature points in the volume and on the boundary, step and pressure", "why_tests_cant": "The quantities are only equal to each other in the symmetric cases used in tests.", "anchors": ["src/physics/variableDensityNS.cpp: VDNS::setupIntegratedQuantities, VDNS::updateIntegratedQuantitiesDependents"]}
{"id": "C247", "title": "A closed variable-density system keeps its mass", "statement": "In a closed system without flow through the boundary the background pressure is updated so that the mass of the ideal gas stays what it was when the temperature changes.", "quantifier": "every gas constant, pressure, temperature before and after, weights and step", "why_tests_cant": "Quantifies over all temperature changes; constant-temperature tests hold anyway.", "anchors": ["src/physics/variableDensityNS.cpp: VDNS::setupIntegratedQuantities, VDNS::updateIntegratedQuantitiesDependents"]}
{"id": "C248", "title": "A control current enters Maxwell's equations as a magnetization", "statement": "With a control the equation for E is eps n^2 E_t + sigma E + J - curl(B/mu - M) = 0 with M the control, weakly, as it stands in 2D and divided by a uniform permittivity in 3D; the equation for B is unchanged; nothing else is assembled; the leap-frog stages split the two equations.", "quantifier": "every well-formed workset holding E and B in 2D and 3D, every stage, state and coefficient", "why_tests_cant": "Ranges over all states; a control that is zero hides any error.", "anchors": ["src/physics/maxwell_control.cpp: maxwell_control::volumeResidual"]}
{"id": "C249", "title": "Absorbing sides of the controlled Maxwell problem dissipate", "statement": "On a side marked absorbing, the residual tested with E is a fixed positive multiple of the squared tangential part of E; on other sides nothing is added, and only rows of E change.", "quantifier": "every well-formed workset in 2D and 3D with unit normals, every field", "why_tests_cant": "Quantifies over all fields and normals.", "anchors": ["src/physics/maxwell_control.cpp: maxwell_control::boundaryResidual"]}
{"id": "C250", "title": "Faraday's law in bianisotropic media", "statement": "The rows of B are the weak form of sqrt(mu0 eps0) B_t + curl E = 0, with curl E only in the first stage of a leap frog; nothing else is assembled.", "quantifier": "every 3D workset, stage, leap-frog setting and state", "why_tests_cant": "Ranges over all states.", "anchors": ["src/physics/maxwell_bianisotropic.cpp: maxwell_bianisotropic::volumeResidual"]}
{"id": "C251", "title": "Bianisotropic media use the tensors the user gives", "statement": "With the functions the module defines, the rows of E are the weak form with the permittivity, inverse permeability, coupling and conductivity tensors of the input.", "quantifier": "every 3D workset, every value of the 45 tensor entries, every state", "why_tests_cant": "A test with isotropic tensors cannot tell which entry is read.", "anchors": ["src/physics/maxwell_bianisotropic.cpp: maxwell_bianisotropic::defineFunctions, volumeResidual"]}
{"id": "C252", "title": "Absorbing sides of bianisotropic media", "statement": "On a side marked absorbing the rows of B gain a fixed multiple of the weak form of the tangential part of E; otherwise nothing; no other row changes.", "quantifier": "every 3D workset with unit normals, every field", "why_tests_cant": "Quantifies over all fields and normals.", "anchors": ["src/physics/maxwell_bianisotropic.cpp: maxwell_bianisotropic::boundaryResidual"]}
{"id": "C253", "title": "Every plasma species evolves under its own source", "statement": "For each of the unknowns H, C, G and E of the Vlasov-Fokker-Planck modules the rows of the unknown are the weak form of d/dt u = source_u.", "quantifier": "every well-formed workset holding the four unknowns, every state and source", "why_tests_cant": "A test in which all species have the same data cannot see which rows are written.", "anchors": ["src/physics/vlasov_fokker_planck.cpp: VFP::volumeResidual", "src/physics/vlasov_fokker_planck_0d2v.cpp", "src/physics/vlasov_fokker_planck_1d2v.cpp"]}
{"id": "C254", "title": "The collision potentials solve Poisson equations", "statement": "The rows of each active potential are the weak form (quadrature weights included) of - laplace r = source in the plane of velocities, and nothing else is changed.", "quantifier": "every well-formed 2D workset, selection of potentials, state and source", "why_tests_cant": "On one mesh size the missing factor can be absorbed in the source.", "anchors": ["src/physics/rosenbluth_potential.cpp: rosenbluth::volumeResidual"]}
{"id": "C255", "title": "Sources of the collision potentials are set by their own names", "statement": "The function source_r of each potential r is the setting of that name if given and the default otherwise.", "quantifier": "every selection of potentials and every list of settings", "why_tests_cant": "Default settings hide which name is looked up.", "anchors": ["src/physics/rosenbluth_potential.cpp: rosenbluth::defineFunctions"]}
{"id": "C256", "title": "Potentials at a fixed frequency solve the complex weak form", "statement": "With the module 'maxwells_freq_pot', a steady assembly puts into the rows of the real and imaginary parts of each component of the vector potential, and of the scalar potential, the real and imaginary parts of the integral over the element of nu(curl A.curl v + div A div v) - w^2 eps A.v - i w eps (grad phi.v + phi div v) - J.v, respectively eps grad phi.grad v - w^2 eps^2 mu phi v - i w eps (A.grad v + v div A) - rho v, tested with (1+i) times each basis function, and nothing into other rows.", "quantifier": "all worksets in 1, 2, 3 dimensions, all fields, bases, media, frequencies, sources", "why_tests_cant": "The eight expressions have some thirty products each of real and imaginary parts; a test with real coefficients or one dimension leaves most of them zero.", "anchors": ["src/physics/maxwells_fp.cpp:volumeResidual"]}
{"id": "C257", "title": "The rates of the potentials enter their own rows", "statement": "In a transient run the rate of each potential, times each test function, is added to the row of that potential and test function.", "quantifier": "all worksets, all fields", "why_tests_cant": "A run with one unknown per variable and no other physics, in the declared order, is right.", "anchors": ["src/physics/maxwells_fp.cpp:volumeResidual"]}
{"id": "C258", "title": "One medium in both equations", "statement": "In every test setting and at every point, the coefficient of the curl and divergence terms is the complex inverse of the permeability in the equation of the scalar potential, and the permittivity has positive real and non-negative imaginary part.", "quantifier": "all settings of 'test', all points", "why_tests_cant": "Six hand-coded complex functions of the position.", "anchors": ["src/physics/maxwells_fp.cpp:getPermeability", "src/physics/maxwells_fp.cpp:getInvPermeability", "src/physics/maxwells_fp.cpp:getPermittivity"]}
{"id": "C259", "title": "Face basis on quadrilaterals", "statement": "With basis type HFACE of any order on quadrilaterals, every side carries its own line basis: at every point of a side each function of that side has the value of its line function at the coordinate along the side, and at points away from the side it is zero; each side has each index once; the reported points of the degrees of freedom lie on the side and are the nodes of its functions; on a side, away from the corners, all functions add up to one.", "quantifier": "all orders (all line bases that are Lagrange bases), all lists of points, all sides and indices", "why_tests_cant": "The layout of values, tags and points is coded in three separate loops; a test at the side quadrature points of one order sees one layout.", "anchors": ["src/tools/Intrepid2_HFACE_QUAD_In_FEMdef.hpp:getValues", "src/tools/Intrepid2_HFACE_QUAD_In_FEM.hpp:Functor"]}
{"id": "C260", "title": "Two elements see the same trace on a shared side", "statement": "On a side shared by two quadrilaterals or two triangles, the j-th function of the side, seen from either element, is the same function of the points of the side, whichever way the elements are numbered.", "quantifier": "all orders, all pairs of sides, all orientations", "why_tests_cant": "Meshes generated by the code run through all interior sides of quadrilaterals in the same direction.", "anchors": ["src/tools/Intrepid2_HFACE_QUAD_In_FEM.hpp:requireOrientation", "src/tools/Intrepid2_HFACE_TRI_In_FEM.hpp:requireOrientation", "src/tools/Intrepid2_HFACE_TRI_In_FEMdef.hpp:getValues"]}
{"id": "C261", "title": "Face basis on hexahedra", "statement": "With basis type HFACE of any order on hexahedra, every face carries the products of the line functions of its two coordinates, each exactly once, which vanish away from the face; on a face, away from its edges, all functions add up to one.", "quantifier": "all orders, all lists of points, all faces and indices", "why_tests_cant": "Six hand-coded double loops.", "anchors": ["src/tools/Intrepid2_HFACE_HEX_In_FEMdef.hpp:getValues"]}
{"id": "C262", "title": "Two hexahedra see the same trace on a shared face", "statement": "On a face shared by two hexahedra of a structured mesh, the m-th function of the face, seen from either element, is the same function of the points of the face.", "quantifier": "all orders, all three directions", "why_tests_cant": "With order 0, or with a solution symmetric in y and z, both numberings agree.", "anchors": ["src/tools/Intrepid2_HFACE_HEX_In_FEMdef.hpp:getValues"]}
{"id": "C263", "title": "Reported points of the hexahedron's face functions", "statement": "The points reported for the degrees of freedom of the face basis on hexahedra lie on the face, and each function is one at its own point and zero at the others of its face.", "quantifier": "all orders, all faces and indices", "why_tests_cant": "The points on the diagonal of a face are right.", "anchors": ["src/tools/Intrepid2_HFACE_HEX_In_FEMdef.hpp:Basis_HFACE_HEX_In_FEM"]}
{"id": "C264", "title": "Face basis on triangles", "statement": "With basis type HFACE of any order on triangles, every side carries its own n functions, which are the line functions of the coordinate along the side (x, x, y) and vanish away from the side; on a side, away from the corners, all functions add up to one.", "quantifier": "all orders, all lists of points, all sides and indices", "why_tests_cant": "As for quadrilaterals.", "anchors": ["src/tools/Intrepid2_HFACE_TRI_In_FEMdef.hpp:getValues"]}
{"id": "C265", "title": "Points of the triangle's face functions are in the triangle", "statement": "The points reported for the degrees of freedom of the face basis on triangles are the nodes of the functions of their side and lie in the triangle.", "quantifier": "all orders, all sides and indices", "why_tests_cant": "Visible only if a test compares the points with the reference triangle.", "anchors": ["src/tools/Intrepid2_HFACE_TRI_In_FEMdef.hpp:Basis_HFACE_TRI_In_FEM"]}
{"id": "C266", "title": "Face basis on tetrahedra", "statement": "With basis type HFACE of any order on tetrahedra, every face carries its own n functions, equal to the triangle functions at the first two coordinates of the point; they vanish away from the face; on a face, away from its edges, all functions add up to one.", "quantifier": "all orders, all lists of points, all faces and indices", "why_tests_cant": "Four hand-coded loops.", "anchors": ["src/tools/Intrepid2_HFACE_TET_In_FEMdef.hpp:getValues"]}
{"id": "C267", "title": "Face functions of tetrahedra are a basis on every face", "statement": "The functions of a face are one at their own point and zero at the other points of the face, so they determine a trace on the face.", "quantifier": "all orders, all four faces", "why_tests_cant": "Order 0 and the faces z=0 and x+y+z=1 work.", "anchors": ["src/tools/Intrepid2_HFACE_TET_In_FEMdef.hpp:getValues"]}
{"id": "C268", "title": "Subgrid model voting picks the model most used in the group", "statement": "For every group of a block that has subgrid models, the model assigned is one whose usage function is at least one at the largest number of integration points of the group among the models of that block (the last one of them if there are several); if some model of the block is used at a point of the group, the model assigned belongs to the block.", "quantifier": "all lists of models, meshes, groups, usage functions", "why_tests_cant": "The choice depends on the values of user functions at every point and on ties; tests use one or two models.", "anchors": ["src/managers/assembly/assemblyManager_util.hpp:identifySubgridModels"]}
{"id": "C269", "title": "A group is given a subgrid model of its own block", "statement": "Every group of a block that has subgrid models is assigned one of the models of that block.", "quantifier": "all lists of models, meshes, groups, usage functions", "why_tests_cant": "Only shows with several blocks and several models none of which claims a point.", "anchors": ["src/managers/assembly/assemblyManager_util.hpp:identifySubgridModels", "src/managers/multiscale/multiscaleManager.cpp:MultiscaleManager"]}
{"id": "C270", "title": "Initialisation makes every group active in exactly its model", "statement": "If every block has a subgrid model, initialisation numbers the groups consecutively from zero, gives each the model selected for it, and for every group and model the group is active in the model exactly when it is the one selected.", "quantifier": "all models, groups, selections", "why_tests_cant": "An invariant over all groups and models.", "anchors": ["src/managers/multiscale/multiscaleManager.cpp:MultiscaleManager::initialize"]}
{"id": "C271", "title": "Blocks without a subgrid model keep their own physics", "statement": "A block for which the input defines no subgrid model is assembled with its own physics and does not affect which users are active in the subgrid models.", "quantifier": "all inputs, groups", "why_tests_cant": "Depends on uninitialised memory, so a test may pass by luck.", "anchors": ["src/tools/groupMetaData.cpp:GroupMetaData", "src/managers/assembly/assemblyManager_jacres.hpp:assembleJacRes", "src/managers/multiscale/multiscaleManager.cpp:MultiscaleManager::initialize"]}
{"id": "C272", "title": "Reported multiscale cost and load balance", "statement": "The cost reported for a processor is the sum over its groups of model cost times number of elements, and the printed load balancing factor is the largest cost over the smallest.", "quantifier": "all groups, costs, processors", "why_tests_cant": "Needs several processors and verbose output.", "anchors": ["src/managers/multiscale/multiscaleManager.cpp:MultiscaleManager::update", "src/managers/multiscale/multiscaleManager.cpp:MultiscaleManager::initialize", "src/managers/solver/solverManager_setup.hpp:finalizeMultiscale"]}
{"id": "C273", "title": "Changing subgrid models projects the previous solution", "statement": "When models are reassigned, every group gets the selected model and is active in it only; if the model changes its previous solution solves the projection equation with the old model's previous solution on the right, and every other previous solution is unchanged; a previous time common to the models stays common.", "quantifier": "all projections (with exact solves), states, groups with distinct numbers, selections", "why_tests_cant": "Interference between groups and models can only be excluded for all of them at once.", "anchors": ["src/managers/multiscale/multiscaleManager.cpp:MultiscaleManager::update"]}
{"id": "C274", "title": "Hierarchical selection stops at the first converged model", "statement": "With hierarchical selection and at least two models, the model chosen for a group is the first one after the coarsest whose residual differs from the previous model's by less than the tolerance relative to its own norm, or the last model; the residual returned is that model's alone. With one model the residual is that model's.", "quantifier": "all numbers of models, residuals, tolerances", "why_tests_cant": "The loop has no bound in the input; termination and the zero-norm case need a proof.", "anchors": ["src/managers/multiscale/multiscaleManager.cpp:MultiscaleManager::evaluateMacroMicroMacroMap"]}
{"id": "C275", "title": "Training data pair each input with the label of its element", "statement": "For any sequence of training evaluations, the inputs and labels kept for each model but the last have equal length and each pair belongs to one element of one evaluation: label one exactly if the model's residual is within the absolute tolerance of the last model's or within the relative one of its norm. The residual given to the macro model is the last model's.", "quantifier": "all sequences of evaluations, models, tolerances", "why_tests_cant": "Alignment over an arbitrarily long history.", "anchors": ["src/managers/multiscale/multiscaleManager.cpp:MultiscaleManager::evaluateMacroMicroMacroMap"]}
{"id": "C276", "title": "Predicted model of a group comes from its own elements", "statement": "With machine-learned selection a group gets the first model predicted to be good for all elements of that group, or the last model if there is none.", "quantifier": "all predictions, group and workset sizes", "why_tests_cant": "Only shows when a group smaller than the workset is followed by another block.", "anchors": ["src/managers/multiscale/multiscaleManager.cpp:MultiscaleManager::update"]}
{"id": "C277", "title": "Machine-learned selection is used once models exist", "statement": "Once machine-learned models are available, update chooses models from predictions and the evaluation uses the model chosen.", "quantifier": "all numbers of training steps, updates, nonlinear iterations", "why_tests_cant": "A state machine over arbitrarily many updates.", "anchors": ["src/managers/multiscale/multiscaleManager.cpp:MultiscaleManager::update", "src/managers/multiscale/multiscaleManager.cpp:MultiscaleManager::evaluateMacroMicroMacroMap"]}
{"id": "C278", "title": "Each subgrid section makes the model it describes", "statement": "Every sublist of Subgrid makes one model with the type, macro block and usage it gives (default usage one for the first, zero for the others); a section that cannot be honoured is rejected.", "quantifier": "all inputs, block names", "why_tests_cant": "The space of inputs is unbounded; wrong names pass silently.", "anchors": ["src/managers/multiscale/multiscaleManager.cpp:MultiscaleManager::MultiscaleManager"]}
{"id": "C279", "title": "Optimised parameters survive a trip through files", "statement": "Scalar and discretised parameters written to files at the end of an analysis and read at the start of the next one, with the same number of time steps, are the same fields and the same scalars up to a relative error of 1e-11, whatever the directory held before; a missing file is an error, never a default value.", "quantifier": "all parameter vectors, all numbers of steps, all states of the disk", "why_tests_cant": "An accuracy bound over all real values; tests compare a few runs.", "anchors": ["src/managers/analysis/analysisManager_solve.hpp::writeOptVectorToFile", "src/managers/analysis/analysisManager_solve.hpp::recoverParametersFromFile"]}
{"id": "C280", "title": "Parameter files are an exact checkpoint", "statement": "Parameters written to files and read back are bit for bit those that were written.", "quantifier": "all parameter vectors", "why_tests_cant": "Shows in the last five digits only.", "anchors": ["src/managers/analysis/analysisManager_solve.hpp::writeOptVectorToFile"]}
{"id": "C281", "title": "An adjoint run recovers every forward state from its files", "statement": "An adjoint run that recovers the forward solution from files uses the states of all the time steps the forward run wrote.", "quantifier": "all solutions, sets, numbers of steps", "why_tests_cant": "Shows only when the number of time steps differs from the number of history terms of the time integrator.", "anchors": ["src/managers/solver/solverManager_util.hpp:recoverForwardStateFromFile", "src/interfaces/linear_algebra/linearAlgebraInterface_util.hpp:writeStateToFile"]}
{"id": "C282", "title": "A restart from text files continues from the final solution", "statement": "The solution written as text and recovered by a restart is the last one, up to the printed digits, and each process reads the file it wrote.", "quantifier": "all stored solutions, file names, ranks", "why_tests_cant": "Needs files written with more than one time.", "anchors": ["src/managers/analysis/analysisManager_util.hpp::recoverSolution", "src/managers/analysis/analysisManager_util.hpp::writeSolutionToText"]}
{"id": "C283", "title": "Order of file input, solves and file output in an analysis", "statement": "Parameters asked for from files are read first and once, parameters asked to be written are written last, neither happens when not asked for, and an adjoint solve only ever comes after a forward solve or the recovery of the forward states.", "quantifier": "all analysis types and options", "why_tests_cant": "Exhaustive over option combinations.", "anchors": ["src/managers/analysis/analysisManager_solve.hpp::run"]}
{"id": "C284", "title": "A requested analysis computes something", "statement": "Every accepted analysis type other than a dry run solves, samples, inverts or optimises.", "quantifier": "all analysis types and options", "why_tests_cant": "Exhaustive over option combinations.", "anchors": ["src/managers/analysis/analysisManager_solve.hpp::run", "src/managers/analysis/analysisManager_solve.hpp::restartSolve"]}
{"id": "C285", "title": "A subgrid solve is Newton's method with a relative tolerance", "statement": "The solution of a local step of a subgrid problem is the result of some number of Newton updates from the previous solution, at most the maximum; unless that maximum was used, the residual norm has dropped below the tolerance times the initial one.", "quantifier": "all subgrid residuals, Jacobians, linear solvers, norms, tolerances and starting points", "why_tests_cant": "A statement about every residual function; tests solve a few smooth problems.", "anchors": ["src/subgrid/subgridDtN_solver.cpp::nonlinearSolver"]}
{"id": "C286", "title": "A subgrid solve that returns has converged", "statement": "When a subgrid solve returns normally, its residual norm is at most the tolerance times the initial one.", "quantifier": "all subgrid problems", "why_tests_cant": "Shows only for problems on which Newton does not converge.", "anchors": ["src/subgrid/subgridDtN_solver.cpp::nonlinearSolver"]}
{"id": "C287", "title": "The derivative handed to the coarse problem is the derivative of the subgrid solution", "statement": "For a linear subgrid problem with a one-step local integrator with any number of stages and steps, changing the current coarse values by any amount changes the subgrid solution at the end by exactly that amount times the derivative that was propagated (iterative linear solver).", "quantifier": "all linear subgrid problems, Runge-Kutta tableaus, numbers of local steps, coarse values and changes", "why_tests_cant": "An identity over all directions, steps and stages; finite differences check it approximately at a few points.", "anchors": ["src/subgrid/subgridDtN_solver.cpp::forwardSensitivityPropagation", "src/subgrid/subgridDtN_solver.cpp::solve", "src/subgrid/subgridDtN_solver.cpp::lagrangeInterpolate"]}
{"id": "C288", "title": "The propagated derivative does not depend on the kind of linear solver", "statement": "The derivative of the subgrid solution with respect to the coarse values is exact with the direct linear solver too, for linear and nonlinear subgrid problems.", "quantifier": "all subgrid problems and factorisations held from before", "why_tests_cant": "Coarse Newton converges more slowly instead of failing.", "anchors": ["src/subgrid/subgridDtN_solver.cpp::forwardSensitivityPropagation", "src/subgrid/subgridDtN_solver.cpp::nonlinearSolver"]}
{"id": "C289", "title": "The propagated derivative is exact with multistep local integrators", "statement": "With a local integrator that uses several earlier steps the derivative with respect to the coarse values is that of the solution.", "quantifier": "all linear subgrid problems, BDF orders, numbers of local steps", "why_tests_cant": "Needs three local steps of a two-step method.", "anchors": ["src/subgrid/subgridDtN_solver.cpp::forwardSensitivityPropagation", "src/subgrid/subgridDtN_solver.cpp::solve"]}
{"id": "C290", "title": "Repeating a subgrid solve repeats its result", "statement": "With a one-step local integrator, a subgrid solve for given coarse values and given solution at the previous coarse time does not depend on the subgrid solves made before it at other coarse Newton iterates.", "quantifier": "all problems, solvers, tableaus, leftover states", "why_tests_cant": "Ranges over all leftover states.", "anchors": ["src/subgrid/subgridDtN_solver.cpp::solve", "src/tools/group.cpp:resetPrevSoln", "src/tools/group.cpp:resetStageSoln"]}
{"id": "C291", "title": "Repeating a subgrid solve repeats its result with multistep integrators", "statement": "The same with a local integrator that uses several earlier steps.", "quantifier": "all problems and histories", "why_tests_cant": "Needs a multistep local method and several coarse Newton iterations.", "anchors": ["src/subgrid/subgridDtN_solver.cpp::solve", "src/tools/group.cpp:resetPrevSoln"]}
{"id": "C292", "title": "The subgrid problem sees the coarse solution at the right times", "statement": "The local steps are equal, start at the previous coarse time and end at the current one; in between the coarse solution is interpolated, exactly when it is affine (one earlier coarse step) or quadratic in time (two earlier, equal steps), together with the exact derivative of the interpolated values with respect to the current ones.", "quantifier": "all coarse values, times, numbers of local steps", "why_tests_cant": "An identity over all times and values.", "anchors": ["src/subgrid/subgridDtN_solver.cpp::solve", "src/subgrid/subgridDtN_solver.cpp::lagrangeInterpolate"]}
{"id": "C293", "title": "The subgrid problem sees the coarse solution with any coarse integrator", "statement": "The interpolation in time is exact for affine coarse solutions whatever the number of earlier steps of the coarse integrator and whatever their sizes.", "quantifier": "all histories of coarse values", "why_tests_cant": "Needs BDF-3 or a change of the step size with BDF-2.", "anchors": ["src/subgrid/subgridDtN_solver.cpp::solve", "src/subgrid/subgridDtN_solver.cpp::lagrangeInterpolate"]}
{"id": "C294", "title": "Every accepted coarse step advances the subgrid problems over that step", "statement": "After an accepted coarse step from t to t+dt every subgrid solution has been advanced from t to t+dt, starting from the subgrid solution at t.", "quantifier": "all coarse integrators, steps, numbers of Newton iterations", "why_tests_cant": "Ranges over all sequences of steps.", "anchors": ["src/subgrid/subgridDtN.cpp::advance", "src/subgrid/subgridDtN.cpp::advanceStage", "src/managers/solver/solverManager_solvers.hpp:transientSolver"]}
{"id": "C295", "title": "A rejected coarse step leaves no trace in the subgrid problems", "statement": "When a coarse step is rejected and retried with a smaller one, the subgrid problems do what they would have done had the rejected step not been tried.", "quantifier": "all problems, steps, numbers of Newton iterations", "why_tests_cant": "Needs a coarse solve that fails to converge.", "anchors": ["src/subgrid/subgridDtN.cpp::advanceStage", "src/managers/solver/solverManager_solvers.hpp:transientSolver"]}
{"id": "C296", "title": "The flux handed to the coarse problem conserves the subgrid flux", "statement": "In the row of a test function of a macro element stands the sum over the subgrid boundary points of that element of test function times flux times weight, and nothing in other rows; if the test functions of a variable add up to one the rows add up to the total subgrid flux of the element.", "quantifier": "all boundary groups, points, numbers of variables and test functions", "why_tests_cant": "An identity over all discretisations.", "anchors": ["src/subgrid/subgridDtN_solver.cpp::updateFlux"]}
{"id": "C297", "title": "The time-averaged flux is the average of the fluxes of the local steps", "statement": "With time averaging the flux handed back is the mean over the local steps of the flux at their times.", "quantifier": "all fluxes, coarse values, local steps", "why_tests_cant": "Shows only when the coarse values change during the step.", "anchors": ["src/subgrid/subgridDtN_solver.cpp::solve", "src/subgrid/subgridDtN_solver.cpp::updateFlux"]}
{"id": "C298", "title": "Every element in the output file carries its own values", "statement": "The nodal and cell values written for a variable or a discretized parameter are, for every element, its own coefficients (or the field at its own nodes), whatever the grouping of the elements and whatever earlier output left in the shared buffers.", "quantifier": "all vectors, groupings of distinct elements, sets, previous buffer contents, nodal bases", "why_tests_cant": "The grouping depends on the mesh, the workset size and the process count; a wrong row shows only as a subtly wrong picture.", "anchors": ["src/managers/postprocess/postprocessManager_exodus.hpp:writeSolution", "src/managers/assembly/assemblyManager_gather.hpp:performGather", "src/managers/assembly/assemblyManager_util.hpp:getSolutionAtNodes"]}
{"id": "C299", "title": "Cell values of vector fields are weighted means", "statement": "The cell value written for an HDIV, HCURL or HFACE variable, and for a cell field under the mean reduction, is the weighted mean of the field over the element (over its faces): a constant is reproduced and, with nonnegative weights, the value lies between the bounds of the field.", "quantifier": "all coefficients, bases, weights with nonzero sum", "why_tests_cant": "Tests compare a few values with a reference.", "anchors": ["src/managers/postprocess/postprocessManager_exodus.hpp:writeSolution", "src/managers/assembly/assemblyManager_util.hpp:computeSolutionAverage", "src/managers/postprocess/postprocessManager_derived_quantities.hpp:getDerivedQuantities"]}
{"id": "C300", "title": "Cell fields of the first set are computed from the element's own values", "statement": "An extra cell field that depends on the variables of the first physics set and on parameters, and a derived quantity of the first set, are computed on every element from its own coefficients.", "quantifier": "all functions of the first set, reductions, groupings, previous buffer contents", "why_tests_cant": "Depends on the grouping.", "anchors": ["src/managers/postprocess/postprocessManager_exodus.hpp:writeSolution", "src/managers/assembly/assemblyManager_workset.hpp:updateWorkset"]}
{"id": "C301", "title": "Cell fields of all sets and parameters are computed from the element's own values", "statement": "An extra cell field of any physics set, and a derived quantity that depends on a discretized parameter, are computed on every element from its own values.", "quantifier": "all functions, sets, groupings", "why_tests_cant": "A run with one group per block shows no error.", "anchors": ["src/managers/postprocess/postprocessManager_exodus.hpp:writeSolution"]}
{"id": "C302", "title": "Max and min reductions", "statement": "With the reduction max (min) the cell value is the largest (smallest) value of the field at the points of the element.", "quantifier": "all values", "why_tests_cant": "Examples have positive fields.", "anchors": ["src/managers/postprocess/postprocessManager_exodus.hpp:writeSolution getExtraCellFields", "src/managers/postprocess/postprocessManager_derived_quantities.hpp:getDerivedQuantities"]}
{"id": "C303", "title": "Discretized parameters of every type are written", "statement": "A discretized parameter is written as a nodal field (HGRAD), a cell field (HVOL) or its components (HDIV, HCURL).", "quantifier": "all lists of bases and parameters", "why_tests_cant": "Depends on the order in which parameters and variables are declared.", "anchors": ["src/managers/postprocess/postprocessManager_exodus.hpp:writeSolution", "src/managers/parameter/parameterManager_setup.hpp:setupDiscretizedParameters"]}
{"id": "C304", "title": "Every written field was declared", "statement": "Every field that is written to the mesh was declared when the mesh was set up, for every sample of an uncertainty analysis.", "quantifier": "all variables, parameters, extra fields, derived quantities, samples", "why_tests_cant": "The product of analysis types, field types and flags is not covered by runs.", "anchors": ["src/managers/postprocess/postprocessManager_exodus.hpp:writeSolution", "src/interfaces/mesh/meshInterface_construct.hpp:finalize", "src/managers/analysis/analysisManager_solve.hpp:UQSolve"]}
{"id": "C305", "title": "Extra nodal fields hold their function", "statement": "A field listed under Extra fields holds the value of its function at the nodes.", "quantifier": "all functions", "why_tests_cant": "No reference file contains such a field.", "anchors": ["src/managers/postprocess/postprocessManager_exodus.hpp:writeSolution"]}
{"id": "C306", "title": "The optimization movie shows the parameters of the element", "statement": "The values written for a discretized parameter in the optimization movie are those of the element, as in the final output.", "quantifier": "all partitions, rows", "why_tests_cant": "Serial runs have no ghosts.", "anchors": ["src/managers/postprocess/postprocessManager_exodus.hpp:writeOptimizationSolution"]}
{"id": "C307", "title": "Lattice microstructure seeds", "statement": "The fast microstructure has as many seeds as the product of the three numbers asked for, all inside the box, and any two of them are apart by at least half a spacing in some direction.", "quantifier": "all boxes, numbers of seeds and random perturbations", "why_tests_cant": "Random: a test sees a few draws.", "anchors": ["src/interfaces/mesh/meshInterface_util.hpp:generateNewMicrostructure"]}
{"id": "C308", "title": "Well spaced microstructure seeds", "statement": "Each well spaced seed is one of the candidates drawn for it and, among these, has the largest weighted distance to the earlier seeds.", "quantifier": "all nonnegative weights (not all zero), candidates and numbers of seeds; distances below 1e200", "why_tests_cant": "Random: a test sees a few draws.", "anchors": ["src/interfaces/mesh/meshInterface_util.hpp:generateNewMicrostructure"]}
{"id": "C309", "title": "New rotations follow the seeds of the elements", "statement": "When rotations are drawn again for a sample, every element receives the proper rotation whose number is its seed, the same for every number of processes and distribution of the elements.", "quantifier": "all random numbers, processes, distributions, seeds", "why_tests_cant": "Depends on the partition.", "anchors": ["src/managers/analysis/analysisManager_util.hpp:updateRotationData"]}
{"id": "C310", "title": "Grains keep their own rotations", "statement": "When rotations are drawn again on a generated microstructure, every grain receives its own rotation, on its boundary elements too.", "quantifier": "all microstructures", "why_tests_cant": "Needs more than 100 seeds.", "anchors": ["src/managers/assembly/assemblyManager_util.hpp:importNewMicrostructure", "src/managers/analysis/analysisManager_util.hpp:updateRotationData"]}
{"id": "C311", "title": "The combined subgrid mesh is the union of the subgrid meshes", "statement": "The combined mesh for subgrid output has the nodes of all the subgrid meshes and, in order, their elements, each at the coordinates it has in its own subgrid mesh.", "quantifier": "all lists of subgrid meshes with valid connectivity, any coordinates", "why_tests_cant": "Depends on the number of macro elements and groups.", "anchors": ["src/subgrid/subgridDtN.cpp:setupCombinedExodus", "src/subgrid/subgridMeshFactory.cpp:modifyMesh"]}
{"id": "C312", "title": "The subgrid mesh factory accepts several patches", "statement": "A mesh built after several calls of addElems has the elements of every patch at their own coordinates.", "quantifier": "all lists of patches with valid connectivity", "why_tests_cant": "No caller adds a second patch.", "anchors": ["src/subgrid/subgridMeshFactory.cpp:addElems", "src/subgrid/subgridMeshFactory.cpp:modifyMesh"]}
{"id": "C313", "title": "The adjoint sweep undoes the steps of the forward run", "statement": "If no time step was rejected, the transient adjoint goes through exactly the steps of the forward run, last first: with the dynamic parameters, the starting time and the step size of that step, and about the solutions at its two ends.", "quantifier": "all initial and final times, step sizes, numbers of steps, write frequencies", "why_tests_cant": "tests run a few steps of one size; an index off by one shifts parameters or states in a way small tolerances hide", "anchors": ["src/managers/solver/solverManager_solvers.hpp:transientSolver"]}
{"id": "C314", "title": "The adjoint uses the step sizes of the forward run also after rejected steps", "statement": "Whatever steps were rejected and halved, each adjoint step uses the parameters, starting time, solutions and step size of the forward step it undoes.", "quantifier": "all outcomes of the nonlinear solves", "why_tests_cant": "rejected steps do not occur in gradient tests", "anchors": ["src/managers/solver/solverManager_solvers.hpp:transientSolver"]}
{"id": "C315", "title": "The objective is differentiated at the steps at which it was evaluated", "statement": "The adjoint takes the derivative of the objective with respect to the state at exactly the recorded steps (after the initial one) and times at which the forward run evaluated it, for every write frequency and recording window.", "quantifier": "all write frequencies, recording windows, steps", "why_tests_cant": "each combination of output options needs a gradient check of its own", "anchors": ["src/managers/postprocess/postprocessManager_util.hpp:record", "src/managers/postprocess/postprocessManager_objective_gradient.hpp:computeObjectiveGradState"]}
{"id": "C316", "title": "Explicit parameter dependence is differentiated where the objective was evaluated", "statement": "The derivative of the objective with respect to the parameters at fixed state is taken at the steps at which the objective was evaluated and against the data of those times.", "quantifier": "all write frequencies, sensor times, steps", "why_tests_cant": "shows only for transient sensor misfits whose response depends on a parameter explicitly", "anchors": ["src/managers/postprocess/postprocessManager_objective_gradient.hpp:computeObjectiveGradParam,computeSensitivities", "src/managers/solver/solverManager_solvers.hpp:transientSolver"]}
{"id": "C317", "title": "Steady sensitivities belong to the time of the value", "statement": "For a steady problem the sensitivities are computed for the time at which the objective was evaluated, also if the initial time is not 0.", "quantifier": "all initial times and sensor times", "why_tests_cant": "tests use the initial time 0", "anchors": ["src/managers/solver/solverManager_models.hpp:adjointModel", "src/managers/postprocess/postprocessManager_objective_gradient.hpp:computeSensitivities"]}
{"id": "C318", "title": "Every linear system is solved with its own matrix, whatever was solved before", "statement": "In every sequence of solves and resets the library is handed the matrix and right-hand side of the call. With algebraic multigrid, or without reuse, the preconditioner is that of the same matrix; with reuse the Schwarz and Ifpack2 preconditioners are those of the first system since the last reset. A direct solve works with a symbolic factorization of its own pattern if all matrices of the solver share one pattern.", "quantifier": "all call histories, options, matrices and right-hand sides", "why_tests_cant": "stale factorizations show only in particular orders of calls, and an iterative solver hides a stale preconditioner", "anchors": ["src/interfaces/linear_algebra/linearAlgebraInterface_solvers.hpp:linearSolver", "src/interfaces/linear_algebra/linearSolverContext.hpp:reset"]}
{"id": "C319", "title": "The responses of a realization are complete and in a fixed order", "statement": "When all objectives are sensor objectives or integrated responses, the collected response array holds, objective after objective, for each sensor and each recorded value the value of the process that owns the sensor, and for an integrated response and each time the sum of the contributions of the processes; no entry is overwritten by another objective or sensor.", "quantifier": "all lists of objectives, numbers of sensors, times and values, all numbers of processes and all distributions of sensors", "why_tests_cant": "Tests run on one or four processes with one sensor objective; overlap of index ranges depends on the number and order of objectives and on the distribution.", "anchors": ["src/managers/postprocess/postprocessManager_util.hpp:collectResponses"]}
{"id": "C320", "title": "Responses can be collected beside any other objective", "statement": "Responses are collected whatever other objectives (integrated control, discrete control) are present.", "quantifier": "all lists of objectives", "why_tests_cant": "Only inputs that combine a response with a control objective reach it, and the access out of range need not fail.", "anchors": ["src/managers/postprocess/postprocessManager_util.hpp:collectResponses"]}
{"id": "C321", "title": "The weighted norm is a norm", "statement": "The weighted norm printed for the solution is nonnegative, zero only if every weighted unknown is zero, and scales with the absolute value of a factor of the solution.", "quantifier": "all solutions, weights and numbers of physics sets", "why_tests_cant": "A printed number has no reference; scaling is a relation between two runs.", "anchors": ["src/managers/postprocess/postprocessManager_util.hpp:computeWeightedNorm"]}
{"id": "C322", "title": "Output after an optimization belongs to the optimum", "statement": "The solution written and the parameters saved after an optimization are those of the parameters the optimizer returned.", "quantifier": "all sequences of evaluations an optimizer can make and all returned points", "why_tests_cant": "Only runs whose last evaluation is a rejected trial show a difference, and the files are not compared with final_params_.dat.", "anchors": ["src/managers/analysis/analysisManager_solve.hpp:ROLSolve", "src/managers/analysis/analysisManager_solve.hpp:ROL2Solve", "src/optimization/MrHyDE_Objective.hpp:value,gradient"]}
{"id": "C323", "title": "Integration points from the database are within its tolerance", "statement": "With the database of integration points on a general mesh, every coordinate of every integration point of every element differs from the element's own by at most the database tolerance, and is exact if different elements differ by more than the tolerance.", "quantifier": "all meshes, divisions into groups, numbers of points and tolerances", "why_tests_cant": "A wrong index shows only on meshes whose elements repeat in one coordinate in an order the test does not have.", "anchors": ["src/managers/assembly/assemblyManager_database.hpp:identifyVolumetricIPDatabase", "src/managers/assembly/assemblyManager_database.hpp:buildVolumetricIPDatabase", "src/tools/group.cpp:computeBasis"]}
{"id": "C324", "title": "The integration points of a two-dimensional simple mesh are exact", "statement": "On a two-dimensional simple mesh whose elements are given to groups in order, for every division into groups the database holds one entry per column and row and every element reads its own integration points; the search for the rows ends.", "quantifier": "all numbers of columns and rows, all divisions into nonempty groups, all elements", "why_tests_cant": "Group boundaries may fall anywhere in a row; tests use one group size.", "anchors": ["src/managers/assembly/assemblyManager_database.hpp:identifyVolumetricIPDatabase"]}
{"id": "C325", "title": "The database of integration points can be switched on by itself", "statement": "The setting use ip database changes no integration point, whatever other settings and mesh are used.", "quantifier": "all settings, meshes and points", "why_tests_cant": "Test inputs set both database options on Exodus or inline meshes.", "anchors": ["src/managers/assembly/assemblyManager_database.hpp:buildDatabase,identifyVolumetricIPDatabase", "src/managers/assembly/assemblyManager_groups.hpp", "src/tools/group.cpp:computeBasis"]}
{"id": "C326", "title": "The basis database changes no boundary term", "statement": "With the basis database, the values and gradients of the basis functions on boundary sides are those of the element, as without it.", "quantifier": "all boundary elements, basis functions and points", "why_tests_cant": "Only problems with both the database and a boundary term that uses gradients are affected, and a zero flux is a plausible number.", "anchors": ["src/managers/assembly/assemblyManager_database.hpp:buildBoundaryDatabase", "src/tools/boundaryGroup.cpp:computeBasis"]}
{"id": "C327", "title": "A physics module reads its own integrals", "statement": "Whatever physics modules share a block, in whatever order and physics sets, and whatever integrated quantities the user adds under other names, the j-th integrated quantity a module reads is the integral of the j-th integrand it asked for.", "quantifier": "all lists of modules of the code, options, dimensions and user lists", "why_tests_cant": "Storage is shared and assigned by order of set-up in two different places; a test runs one module.", "anchors": ["src/managers/postprocess/postprocessManager_construct.hpp:setup", "src/managers/postprocess/postprocessManager_integrated_quantities.hpp:addIntegratedQuantities,computeIntegratedQuantities", "src/tools/workset.cpp:addIntegratedQuantities", "src/physics/thermal.cpp", "src/physics/variableDensityNS.cpp", "src/physics/vlasov_fokker_planck.cpp"]}
{"id": "C328", "title": "A user's integrated quantity is the integral of the user's integrand", "statement": "The value reported under a name the user chose in Integrated quantities is the integral of the integrand given there.", "quantifier": "all names and integrands", "why_tests_cant": "Only names already taken by a module or a function show the difference.", "anchors": ["src/managers/postprocess/postprocessManager_integrated_quantities.hpp:addIntegratedQuantities", "src/managers/function/functionManager_create.hpp:addFunction"]}
{"id": "C329", "title": "The background pressure is carried from step to step", "statement": "In a closed variable-density run the residual of a step is assembled with the background pressure computed at the end of the step before.", "quantifier": "all transient runs, pressures and dynamic parameters", "why_tests_cant": "It needs a history of steps, and the update and the reset are in different managers.", "anchors": ["src/managers/solver/solverManager_solvers.hpp:transientSolver", "src/managers/parameter/parameterManager_update.hpp:updateDynamicParams", "src/physics/variableDensityNS.cpp:updateIntegratedQuantitiesDependents"]}
{"id": "C330", "title": "The background pressure is that of the whole domain", "statement": "In a closed system of several blocks the background pressure computed is the total mass (times R) over the integral of 1/T over all blocks.", "quantifier": "all numbers of blocks and their integrals", "why_tests_cant": "Every test of the closed system has one block.", "anchors": ["src/managers/postprocess/postprocessManager_integrated_quantities.hpp:computeIntegratedQuantities", "src/physics/variableDensityNS.cpp:updateIntegratedQuantitiesDependents"]}
{"id": "C331", "title": "Each boundary group of a refined subgrid mesh covers one coarse side", "statement": "When a coarse quadrilateral or hexahedron is refined uniformly any number of times for the DtN2 subgrid model, the boundary group built for side s contains exactly the fine cells with that side lying on coarse side s, each exactly once, for every coarse element in the set.", "quantifier": "every refinement level for which the cell size exceeds the geometric tolerance, every side, every number of coarse elements", "why_tests_cant": "the cell count grows exponentially with the level, and matching is by floating comparison of coordinates", "anchors": ["src/subgrid/subgridTools2.cpp:createSubMesh, getBoundaryGroups", "src/subgrid/subgridDtN2.cpp:createNewBoundaryGroups"]}
{"id": "C332", "title": "Later sets of coarse elements reuse the right unknowns", "statement": "A set with at most as many coarse elements as the first one gets, for each fine element and each boundary group member, the unknowns of the element at the same place in the first set, and each coarse element's own coarse unknowns.", "quantifier": "every subgrid mesh, every set size up to that of the first set, every element and side", "why_tests_cant": "tests use sets of equal size, where views are shared rather than copied", "anchors": ["src/subgrid/subgridDtN2.cpp:createNewGroups"]}
{"id": "C333", "title": "Sets of coarse elements may come in any size", "statement": "The unknowns of a set of coarse elements are right whatever the size of the first set, as needed when the first block has fewer elements per set than a later one.", "quantifier": "every pair of set sizes", "why_tests_cant": "only meshes where a later block has a larger set reach the case", "anchors": ["src/subgrid/subgridDtN2.cpp:createNewGroups", "src/managers/multiscale/multiscaleManager.cpp:initialize"]}
{"id": "C334", "title": "Boundary cells of the first subgrid set see their own coarse functions", "statement": "In the first set of coarse quadrilaterals, for every refinement and every shape of the coarse elements, each fine boundary cell is given the values of its own coarse element's basis functions, with that element's orientation, at its own integration points.", "quantifier": "every refinement level resolved by the geometric tolerance, every set of coarse quadrilaterals, every side, cell and point", "why_tests_cant": "values are computed for one coarse element and copied to the others, which only shows with many distorted elements and orientations", "anchors": ["src/subgrid/subgridDtN2.cpp:computeMacroBasisSubgridIP", "src/subgrid/subgridTools2.cpp:getPhysicalNodes"]}
{"id": "C335", "title": "Boundary cells of later subgrid sets see their own coarse functions", "statement": "Each fine boundary cell of every set of coarse elements is given the values of its own coarse element's basis functions, with that element's orientation.", "quantifier": "every set after the first", "why_tests_cant": "tests use lowest-order functions, for which orientations do not matter", "anchors": ["src/subgrid/subgridDtN2.cpp:computeMacroBasisSubgridIP", "src/subgrid/subgridDtN.cpp:setUpSubgridModels"]}
{"id": "C336", "title": "Coarse elements with different side conditions may share a set", "statement": "Coarse functions at boundary cells are right also when the coarse elements of a set have different conditions on the same side.", "quantifier": "every set and every assignment of conditions", "why_tests_cant": "requires a set that straddles a coarse boundary", "anchors": ["src/subgrid/subgridDtN.cpp:setUpSubgridModels", "src/subgrid/subgridTools.cpp:getPhysicalSideinfo"]}
{"id": "C337", "title": "Initial value and bounds of a field parameter reach each of its unknowns", "statement": "Every unknown of a field parameter starts at that parameter's initial_value (1 if not given) in each time step's vector, and is bounded by its lower_bound and upper_bound (-1 and 1 if not given), whichever process owns it and in whatever order the processes' copies are combined. An element gets the same parameter unknowns in its volume group and in its boundary groups.", "quantifier": "all lists of field parameters, all numberings of their unknowns over blocks and processes, all orders of the export, all numbers of steps", "why_tests_cant": "Tests run one or two parameters on few processes and cannot show that no numbering or export order mixes the parameters.", "anchors": ["src/managers/parameter/parameterManager_setup.hpp:setupDiscretizedParameters", "src/managers/parameter/parameterManager_util.hpp:setInitialParams", "src/managers/parameter/parameterManager_access.hpp:getDiscretizedParamBounds"]}
{"id": "C338", "title": "Each stochastic field parameter is sampled with its own distribution", "statement": "With stochastic field parameters each unknown is sampled with the mean, variance and range of its own parameter, once; and asking for a custom initial guess starts the parameters from that guess.", "quantifier": "all lists of field parameters, all numberings", "why_tests_cant": "Tests use one stochastic field parameter on one process.", "anchors": ["src/managers/parameter/parameterManager_setup.hpp:setupDiscretizedParameters"]}
{"id": "C339", "title": "Bounds files bound each active component in order", "statement": "When each active parameter names a bounds file with one line of two numbers per component, the bounds given to the optimizer are, in the order of the active values, the numbers of those lines in single precision; inactive parameters take no place.", "quantifier": "all lists of parameters, all well formed files with or without a final newline, all rounding functions", "why_tests_cant": "A test compares a few files; the place of each pair depends on all the parameters before it.", "anchors": ["src/managers/parameter/parameterManager_setup.hpp:setupParameters", "src/managers/parameter/parameterManager_access.hpp:getActiveParamBounds"]}
{"id": "C340", "title": "An active parameter without a bounds file is not bounded", "statement": "When optimization variables are bounded, an active parameter that names no bounds file is left free.", "quantifier": "all lists of parameters", "why_tests_cant": "The regression inputs with bounds have no active scalar.", "anchors": ["src/managers/parameter/parameterManager_setup.hpp:setupParameters", "src/managers/parameter/parameterManager_access.hpp:getActiveParamBounds", "src/managers/analysis/analysisManager_solve.hpp:ROLSolve"]}
{"id": "C341", "title": "A bounds file may have blank lines or a wrong number of lines", "statement": "Lines of a bounds file without two numbers are skipped or reported, and a file whose lines do not match the number of components is reported.", "quantifier": "all files", "why_tests_cant": "Tests have well formed files.", "anchors": ["src/managers/parameter/parameterManager_setup.hpp:setupParameters"]}
{"id": "C342", "title": "Bounded optimization keeps all parameters within their bounds", "statement": "With bounded optimization variables, projecting the current parameters gives values within the bounds and keeps those that are; for field parameters, scalars, or both, and for parameters that vary in time.", "quantifier": "all values, all ordered bounds, all numbers of steps", "why_tests_cant": "No test has bounds with scalars only or with dynamic parameters.", "anchors": ["src/managers/analysis/analysisManager_solve.hpp:ROLSolve", "src/optimization/MrHyDE_OptVector.hpp:applyBinary", "src/managers/parameter/parameterManager_access.hpp:getCurrentVector"]}
{"id": "C343", "title": "The inner product of field parameters weighs each unknown by its basis function", "statement": "Without lumping, the weight of an unknown in the optimizer's inner product of field parameters is the integral over the mesh of the square of its basis function, for scalar and vector bases and any number of parameters; so the product is nonnegative, definite when no basis function vanishes at all quadrature points, and the dual product is its inverse.", "quantifier": "all meshes, numberings, bases, quadratures, parameters and vectors", "why_tests_cant": "Tests evaluate few vectors on few meshes; definiteness is a claim on all vectors.", "anchors": ["src/managers/assembly/assemblyManager_mass.hpp:getParamMass", "src/managers/solver/solverManager_setup.hpp:setupDiscretizedParamMass", "src/optimization/MrHyDE_OptVector.hpp:dot"]}
{"id": "C344", "title": "The inner product of field parameters is the L2 product", "statement": "The optimizer's inner product of two field parameters is the integral of the product of the fields, and does not depend on where the data are stored.", "quantifier": "all meshes, bases and pairs of fields", "why_tests_cant": "Gradient checks use the same product on both sides and cannot see its size.", "anchors": ["src/managers/assembly/assemblyManager_mass.hpp:getParamMass", "src/optimization/MrHyDE_OptVector.hpp:dot"]}
{"id": "C345", "title": "Stored local masses are quadratures of products of basis functions", "statement": "Each local mass matrix kept by the basis database has, for two basis functions of a variable, the weighted quadrature of their product: with the usual rule, or for edge elements with the tensor Gauss-Lobatto rule when the sparsifying quadrature is on in three dimensions. The matrix is symmetric, and nonnegative as a form when quadrature weights are, whatever other variables write into it.", "quantifier": "all sets of variables, offsets, bases, rules, and elements", "why_tests_cant": "Tests look at few elements and one set of variables; the form must be nonnegative for all vectors.", "anchors": ["src/managers/assembly/assemblyManager_database.hpp:buildVolumetricDatabase", "src/interfaces/discretization/discretizationInterface_basis.hpp:evaluateBasisNewQuadrature"]}
{"id": "C346", "title": "Sparsified edge masses of a box are the lumped exact masses", "statement": "For lowest order edge elements on a box, the sparsifying quadrature with two points per direction gives a diagonal local mass matrix, and each diagonal entry is the sum of the row of the exact mass matrix.", "quantifier": "all boxes, mass weights and scales of the transformation", "why_tests_cant": "Row sums hold for all box sizes and weights; a test fixes one.", "anchors": ["src/managers/assembly/assemblyManager_database.hpp:buildVolumetricDatabase", "src/interfaces/discretization/discretizationInterface_basis.hpp:evaluateBasisNewQuadrature"]}
{"id": "C347", "title": "The sparsifying mass quadrature works for edge elements on every mesh", "statement": "With the sparsifying quadrature on, edge elements on any supported mesh get a mass whose value on a unit constant field is the volume of the element.", "quantifier": "all dimensions and element shapes", "why_tests_cant": "The option is tried on hexahedra only; other shapes are different inputs.", "anchors": ["src/managers/assembly/assemblyManager_database.hpp:buildVolumetricDatabase", "src/interfaces/discretization/discretizationInterface_basis.hpp:evaluateBasisNewQuadrature"]}
{"id": "C348", "title": "Flux responses add up sides, times and processes, and start at zero for each run", "statement": "The number written for a variable of a flux response is the sum over all processes, all recorded times and all boundary groups of its block whose side name occurs in its side sets of the integral of weight times flux of the solution in use; numbers are written response by response, and all are zero before the first and after every run.", "quantifier": "all numbers of processes, recorded times, blocks, groups, responses and weights", "why_tests_cant": "The order and grouping of boundary elements and the partition change with the mesh and the process count.", "anchors": ["src/managers/postprocess/postprocessManager_flux_response.hpp:addFluxResponses", "src/managers/postprocess/postprocessManager_flux_response.hpp:computeFluxResponse", "src/tools/postprocessTools.hpp:fluxResponse", "src/managers/postprocess/postprocessManager_util.hpp:report"]}
{"id": "C349", "title": "A flux response is the flux of the recorded solution", "statement": "A flux response recorded at a time is computed from the solution at that time on each boundary element.", "quantifier": "all solutions, groups and storage choices", "why_tests_cant": "A test with a constant solution or one group cannot see which group's data is used.", "anchors": ["src/managers/postprocess/postprocessManager_flux_response.hpp:addFluxResponses", "src/managers/postprocess/postprocessManager_flux_response.hpp:computeFluxResponse", "src/tools/postprocessTools.hpp:fluxResponse", "src/managers/postprocess/postprocessManager_util.hpp:report", "src/managers/assembly/assemblyManager_workset.hpp:updateWorksetBoundary"]}
{"id": "C350", "title": "A flux response counts exactly the sides it lists", "statement": "A flux response counts exactly the sides listed in its side sets, and all sides when it lists none.", "quantifier": "all side names and lists", "why_tests_cant": "Tests use distinct names; a name inside another is a different input.", "anchors": ["src/managers/postprocess/postprocessManager_flux_response.hpp:addFluxResponses", "src/managers/postprocess/postprocessManager_flux_response.hpp:computeFluxResponse", "src/tools/postprocessTools.hpp:fluxResponse", "src/managers/postprocess/postprocessManager_util.hpp:report"]}
{"id": "C351", "title": "Frequency output of a sensor is the cosine transform of its time history", "statement": "With the frequency output format, the value of a sensor field at frequency k is the sum of its samples times the cosine of the angle; frequencies k and n-k agree; other sensors and fields have no effect; and the even part of the time history is recovered exactly from the output by the same sum divided by n.", "quantifier": "all numbers of samples, sensors and fields, and all histories", "why_tests_cant": "Recovery holds for every history and every n; tests transform few waves.", "anchors": ["src/interfaces/fft/fftInterface.hpp:fftInterface::compute", "src/managers/postprocess/postprocessManager_util.hpp:report"]}
{"id": "C352", "title": "Frequency output determines the time history", "statement": "Two different time histories give different frequency output, so waves present in a history show in the output.", "quantifier": "all histories", "why_tests_cant": "A test wave that happens to be a cosine passes.", "anchors": ["src/interfaces/fft/fftInterface.hpp:fftInterface::compute", "src/managers/postprocess/postprocessManager_util.hpp:report"]}
{"id": "C353", "title": "Sums over batches of samples give every process the full sum", "statement": "For parameters that do not depend on time, the batch sum of optimization vectors gives every process the entry by entry sum of the vectors of all processes, fields and scalars; so the mean gradient over samples read from file is the weighted sum over all samples, whatever the number of processes.", "quantifier": "all numbers of processes and samples, vectors and sizes", "why_tests_cant": "The number of processes and the split of samples vary; tests run on few processes.", "anchors": ["src/optimization/MrHyDE_TeuchosBatchManager.hpp:sumAll", "src/optimization/MrHyDE_Sample_Set_Reader.hpp:sample"]}
{"id": "C354", "title": "Sums over batches include every time step", "statement": "For time dependent parameters, the batch sum gives every process the sum of the vectors of all processes at every time step.", "quantifier": "all numbers of time steps", "why_tests_cant": "Tests with parameters constant in time have one part.", "anchors": ["src/optimization/MrHyDE_TeuchosBatchManager.hpp:sumAll", "src/optimization/MrHyDE_OptVector.hpp:getParameter"]}
{"id": "C355", "title": "Setup and output find all their data", "statement": "Without the memory purge, the setup of the matrices gets the global unknowns of every element of every block and set in order, output gets the elements of every block, and every element has its own orientation.", "quantifier": "all discretizations, numbers of blocks and sets, settings", "why_tests_cant": "Ranges over all meshes and settings.", "anchors": ["src/driver.cpp:main", "src/interfaces/linear_algebra/linearAlgebraInterface_construct.hpp:setupLinearAlgebra", "src/interfaces/discretization/discretizationInterface_dof.hpp:getGIDs", "src/managers/postprocess/postprocessManager_exodus.hpp:writeSolution"]}
{"id": "C356", "title": "The memory purge changes nothing but the memory used", "statement": "With enable memory purge the run does what it does without.", "quantifier": "all discretizations and settings", "why_tests_cant": "All combinations of settings; freed data may by accident still be there in a test.", "anchors": ["src/driver.cpp:main", "src/interfaces/discretization/discretizationInterface_util.hpp:purgeLIDs,purgeOrientations", "src/interfaces/mesh/meshInterface_util.hpp:purgeMesh"]}
{"id": "C357", "title": "Dual-weighted residual without shared unknowns", "statement": "When no unknown is held by more than one process, in particular on one process, computeDualWeightedResidual returns the residual of the given state applied to the adjoint solution: the sum over all unknowns of residual times adjoint value.", "quantifier": "All numberings of the unknowns, all residual contributions and all adjoint solutions.", "why_tests_cant": "The estimate is one number; a test compares it with an exact error on one mesh, where the pairing of entries cannot be told from a near miss.", "anchors": ["src/managers/postprocess/postprocessManager_error_estimation.hpp:computeDualWeightedResidual", "src/interfaces/linearAlgebraInterface_vector.hpp:exportVectorFromOverlapped"]}
{"id": "C358", "title": "Dual-weighted residual independent of the partition", "statement": "computeDualWeightedResidual returns the residual applied to the adjoint solution on any number of processes. (False: the adjoint solution, whose copies already hold the full values, is brought to the owners with addition, so each unknown is weighted with its value times the number of processes that hold it.)", "quantifier": "All partitions of the unknowns among processes, all residuals and adjoint solutions.", "why_tests_cant": "The error appears only for unknowns on process boundaries; serial tests pass.", "anchors": ["src/managers/postprocess/postprocessManager_error_estimation.hpp:computeDualWeightedResidual", "src/interfaces/linearAlgebraInterface_vector.hpp:exportVectorFromOverlapped"]}
{"id": "C359", "title": "Which block shows which postprocessing field", "statement": "The extra fields and extra cell fields of a block, and the lists handed to its objective functions, flux responses and integrated quantities, are those of the block's own section of Postprocess if it has one, and those of Postprocess itself otherwise. An extra field means what its section says, at integration points and at points, and an extra cell field at integration points, unless its name is also that of a response, weight, target or true solution (or, for a cell field, of an extra field). The section of one block has no effect on another block.", "quantifier": "All Postprocess lists with distinct names, all blocks and block sections.", "why_tests_cant": "Inputs are arbitrary trees of names; a test fixes one input deck and one set of blocks.", "anchors": ["src/managers/postprocess/postprocessManager_construct.hpp:setup", "src/managers/function/functionManager_create.hpp:addFunction"]}
{"id": "C360", "title": "A block's section of Postprocess is honoured", "statement": "Whatever a block's own section of Postprocess states (responses, weights, targets, extra fields) is what the name means on that block. (False: Responses, Weights and Targets are read from Postprocess itself only and those of a block's section are passed over without a message; and an extra field whose name is also that of a shared response, weight or target shows that one at integration points.)", "quantifier": "All Postprocess lists with distinct names, all blocks, sections and names.", "why_tests_cant": "No message is given; the field is written with the other function's values.", "anchors": ["src/managers/postprocess/postprocessManager_construct.hpp:setup", "src/managers/function/functionManager_create.hpp:addFunction"]}
{"id": "C361", "title": "Sensors from the mesh file", "statement": "With sensor points file \"mesh\", one block, groups of one element, and a mesh file whose first element field counts the sensors of each element and which has the location and response fields they need, the import succeeds and the sensors of the objective are exactly those of the file: for each element and each of its sensors the point from sensor_j_Loc_x/y/z, the datum from the response field and the element as owner; their number is the sum of the counts.", "quantifier": "All mesh files with distinct field names, any number of elements, fields and sensors, dimensions up to three.", "why_tests_cant": "A test has one mesh file; which field is read for which sensor depends on names built from numbers.", "anchors": ["src/managers/postprocess/postprocessManager_sensors.hpp:importSensorsFromExodus", "src/interfaces/mesh/meshInterface_exodus.hpp:readExodusData"]}
{"id": "C362", "title": "Sensors from the mesh file for any groups and blocks", "statement": "The sensors of the mesh file are imported, each with its datum, however the elements are put in groups and whatever the number of the block. (False: the loops run over the groups but index the fields by element, so with groups of several elements, the default, only the first elements of the file are looked at and the owners are wrong; the number of the block selects the field taken as the count; all sensors of an element get the same datum.)", "quantifier": "All mesh files, groupings and block numbers.", "why_tests_cant": "Small tests with one element per group pass.", "anchors": ["src/managers/postprocess/postprocessManager_sensors.hpp:importSensorsFromExodus", "src/interfaces/mesh/meshInterface_exodus.hpp:readExodusData"]}
{"id": "C363", "title": "Matrices for previous steps in a transient adjoint", "statement": "In a transient adjoint run without the option reuse Jacobian, the products with the derivatives with respect to the previous steps use the matrices of the moment in every solve. With the option, and one physics set, every solve uses the matrices of the first solve since the run began (the last reset), for every previous step, and never a matrix that has not been assembled.", "quantifier": "All sequences of solves and resets, any number of previous steps, any matrices.", "why_tests_cant": "Depends on the history of two caches across a whole run; a test sees one history.", "anchors": ["src/interfaces/linear_algebra/linearAlgebraInterface_matrix.hpp:getNewPreviousMatrix", "src/interfaces/linear_algebra/linearAlgebraInterface_util.hpp:getPrevJacobianReuse,resetAllJacobian", "src/managers/solver/solverManager_solvers.hpp:nonlinearSolver"]}
{"id": "C364", "title": "No matrix is used that was not assembled", "statement": "Whatever the option reuse Jacobian and the number of physics sets, each solve of a transient adjoint uses matrices for the previous steps that were assembled in that solve or an earlier one of the same set since the last reset. (False for two sets: the cache is asked with the number of the set in place of the step, reading past its end; and since it holds a context for every pair of sets it never counts as filled, so that the matrices are set to zero and not assembled again when the Jacobian is kept. For several sets the adjoint run prints a warning on process 0 only.)", "quantifier": "All sequences of solves and resets, options, numbers of sets and previous steps.", "why_tests_cant": "Needs several sets, reuse and a second solve at once.", "anchors": ["src/interfaces/linear_algebra/linearAlgebraInterface_matrix.hpp:getNewPreviousMatrix", "src/interfaces/linear_algebra/linearAlgebraInterface_util.hpp:getPrevJacobianReuse,resetAllJacobian", "src/managers/solver/solverManager_solvers.hpp:nonlinearSolver"]}
