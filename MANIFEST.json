{
 "claims": [
  {
   "property": "C01",
   "status": "proved",
   "theorems": [
    "C01_expression_value",
    "C01_expression_accepted",
    "C01_real_value",
    "C01_name_reference"
   ],
   "note": "For every arithmetic, environment and user expression (numerals, declared names including parameter components and time derivatives, + - * / ^ < >, one- and two-argument functions): an accepted definition has the denoted value; accepted when at most 100 levels deep. What each name refers to is specified separately (refers) and shown unique."
  },
  {
   "property": "C02",
   "status": "partial",
   "theorems": [
    "C02_blanks_partial",
    "C02_blank_before_parenthesis_refuted",
    "C02_blank_before_exponent_refuted"
   ],
   "note": "Accepted spaced text has the value of the expression provided all recorded operators are known and numerals are plain. The unconditional claim is false of the code: 'sin (x)' is accepted with a stale value, ' 1e-5' reads as 1-5."
  },
  {
   "property": "C03",
   "status": "partial",
   "theorems": [
    "C03_accepted_is_nested_partial",
    "C03_unbalanced_accepted_refuted"
   ],
   "note": "Accepted text is properly nested when all recorded operators are known. Unconditionally false: 'x)(y)' is accepted."
  },
  {
   "property": "C04",
   "status": "partial",
   "theorems": [
    "C04_numeral_value",
    "C04_recognised",
    "C04_scientific_in_product_refuted",
    "C04_not_a_numeral_refuted"
   ],
   "note": "Every decimal numeral is recognised and read with its exact rational value; the texts taken for numbers are characterised exactly. False parts: '1e-5*x' is split at the exponent sign; '1e5.2' is taken for a number."
  },
  {
   "property": "C05",
   "status": "partial",
   "theorems": [
    "C05_unknown_name_rejected_partial",
    "C05_unknown_function_refuted"
   ],
   "note": "Names without meaning in the environment are rejected; unknown functions are proved to be accepted and ignored (defect)."
  },
  {
   "property": "C06",
   "status": "partial",
   "theorems": [
    "C06_two_arguments_partial",
    "C06_nested_call_refuted"
   ],
   "note": "Correct when the arguments have no closing parenthesis; refuted for nested calls."
  },
  {
   "property": "C07",
   "status": "proved",
   "theorems": [
    "C07_first_wins",
    "C07_index_stable",
    "C07_locations_independent"
   ],
   "note": "For every registration history. Also shown: a registration at an unknown location returns index 0 and is dropped silently."
  },
  {
   "property": "C08",
   "status": "proved",
   "theorems": [
    "C08_circular",
    "C08_storage_class",
    "C08_names",
    "flat_decompose_correct",
    "flat_decompose_wf"
   ],
   "note": "Every set of parseable definitions: circularity exception iff some definition depends on itself; termination (fuel never runs out) included. flat_decompose_correct ties the recursive decomposition to the round-based loop of the code."
  },
  {
   "property": "C09",
   "status": "partial",
   "theorems": [
    "C09_emax_partial",
    "C09_emin_partial",
    "C09_two_points",
    "C09_emean_partial",
    "C09_reductions_refuted"
   ],
   "note": "The code's emax/emin/emean are wrong in general (refuted with a pipeline witness). Proved: emax/emin are right exactly when the last point exceeding the first is the extremum; emean = mean + r(0)/n, right iff r(0)=0."
  },
  {
   "property": "C10",
   "status": "partial",
   "theorems": [
    "C10_storage_partial",
    "C10_relabel_partial",
    "C10_pointwise",
    "C10_parameter_alias_refuted",
    "C10_emean_storage_refuted"
   ],
   "note": "For all acyclic definitions the typed evaluator (constants frozen at setup) gives the untyped pointwise value, independent of leaf labelling and stale storage; excluded because false: definitions that are a bare parameter used by another definition, and emean (both refuted with witnesses)."
  },
  {
   "property": "C11",
   "status": "partial",
   "theorems": [
    "C11_index",
    "C11_time_partial",
    "C11_previous_partial",
    "C11_last",
    "C11_previous_of_zero_refuted",
    "C11_extracted_alias_refuted",
    "C11_gap_refuted"
   ],
   "note": "Lookup after any sequence of stores returns the stored vector. Guarded: nonnegative, well separated times. Refuted in general: previous of t=0, aliasing of extracted handles, index gaps."
  },
  {
   "property": "C12",
   "status": "partial",
   "theorems": [
    "C12_time_partial",
    "C12_negative_time_always",
    "C12_negative_time_refuted"
   ],
   "note": "The relative time tolerance separates nonnegative times; negative times match every entry (refuted)."
  },
  {
   "property": "C13",
   "status": "partial",
   "theorems": [
    "C13_kept",
    "C13_product_error",
    "C13_exact",
    "C13_size",
    "C13_local_columns",
    "C13_separate_memory_refuted"
   ],
   "note": "Exact/bounded-error compression on builds whose host and device memory coincide; refuted when the memories are separate (exchanged deep_copy arguments)."
  },
  {
   "property": "C14",
   "status": "partial",
   "theorems": [
    "C14_matrix_free",
    "C14_order",
    "C14_database",
    "C14_sparse_error",
    "C14_sparse_exact",
    "C14_sparse_matrix_refuted"
   ],
   "note": "Matrix-free application equals the assembled product for recomputed, stored and dense database masses, in any order of additions; sparse exact with tol 0 and bounded otherwise. The sparse format leaves the assembled matrix empty (refuted)."
  },
  {
   "property": "C15",
   "status": "partial",
   "theorems": [
    "C15_row_sums",
    "C15_sparse_partial",
    "C15_nonnegative_partial",
    "C15_host_upper",
    "C15_storage_refuted"
   ],
   "note": "Row sums without absolute values and with the sparse format (tol 0); the absolute-value path only for nonnegative entries (3 vs 1 on a 2x2 matrix)."
  },
  {
   "property": "C16",
   "status": "partial",
   "theorems": [
    "C16_sequential",
    "C16_subgrid_partial",
    "C16_subgrid_interior",
    "C16_multiblock_refuted",
    "C16_zero_refuted",
    "C16_other_modes_refuted"
   ],
   "note": "Sequential mode is proved for every block and positive workset size. Subgrid-preserving mode is proved when element ids are block indices; it is refuted on multi-block processes, and workset size 0 and the other accepted partitioning names are refuted."
  },
  {
   "property": "C17",
   "status": "proved",
   "theorems": [
    "C17_boundary_groups",
    "C17_zero_refuted"
   ],
   "note": "For every side set and every positive workset size; size 0 is shown not to terminate."
  },
  {
   "property": "C18",
   "status": "partial",
   "theorems": [
    "C18_boundary",
    "C18_volume_partial",
    "C18_small_groups_exact",
    "C18_small_groups_refuted"
   ],
   "note": "Boundary database: all of the statement. Volume database: accuracy, ranges and self-representation for every input; irredundancy for representatives from groups of at least ten elements, refuted for smaller groups (they are stored unconditionally)."
  },
  {
   "property": "C19",
   "status": "partial",
   "theorems": [
    "C19_residual_free",
    "C19_residual_fixed",
    "C19_jacobian_free",
    "C19_jacobian_forward",
    "C19_jacobian_fixed",
    "C19_fixed_unchanged",
    "C19_order",
    "C19_partition",
    "C19_unshared_refuted",
    "C19_point_refuted",
    "C19_other_set_refuted",
    "C19_zero_rows_refuted"
   ],
   "note": "Proved for both assembly paths, all meshes, processes and orders, when every process knows which rows are fixed. Refuted: a process sharing a fixed unknown without a boundary face assembles into the row; fixed rows are k times identity rows on k sharing processes; point constraints keep their residual; the stored path masks residuals with the first set's flags; zero-row fixing per block adds spurious diagonal entries."
  },
  {
   "property": "C20",
   "status": "proved",
   "theorems": [
    "C20_adjoint"
   ],
   "note": "For every mesh, distribution and data; the vector vanishes at fixed unknowns, which scattering leaves out."
  },
  {
   "property": "C21",
   "status": "proved",
   "theorems": [
    "C21_transpose",
    "C21_transpose_direct",
    "C21_adjoint_solution",
    "C21_fixed_columns_refuted"
   ],
   "note": "Transposed on unconstrained rows and columns; fixed columns keep derivatives (refuted as a plain transpose), but the adjoint solution is that of the transposed constrained system when the right-hand side vanishes at fixed unknowns."
  },
  {
   "property": "C22",
   "status": "proved",
   "theorems": [
    "C22_capacity",
    "C22_smallest",
    "C22_too_large_rejected"
   ],
   "note": "Selection cascade and its rejection, for every list of per-block requirements."
  },
  {
   "property": "C23",
   "status": "proved",
   "theorems": [
    "C23_step",
    "C23_stages",
    "C23_all_methods",
    "C23_custom"
   ],
   "note": "C23_step: every accepted step of the time loop, any solver and boundary data; C23_stages: algebra of the gather; C23_all_methods: every set of slopes is reachable; C23_custom: a custom tableau is taken as given and refused when the sizes differ."
  },
  {
   "property": "C24",
   "status": "partial",
   "theorems": [
    "C24_names",
    "C24_quadrature",
    "C24_dirk33_root",
    "C24_dirk33_partial",
    "C24_dirk33_refuted",
    "C24_leapfrog_refuted",
    "C24_rk44",
    "C24_ssprk33",
    "C24_dirk23",
    "C24_dirk22",
    "C24_dirk12",
    "C24_cn",
    "C24_bwe",
    "C24_fwe"
   ],
   "note": "Order conditions hold for every named tableau except DIRK-3,3 (ten-digit root, holds to 1e-9) and leap-frog (false, witness)."
  },
  {
   "property": "C25",
   "status": "partial",
   "theorems": [
    "C25_exact",
    "C25_constant",
    "C25_order_refuted"
   ],
   "note": "Exact on polynomials up to the order for 1..6; orders outside 1..6 are silently accepted with no weights (refuted)."
  },
  {
   "property": "C26",
   "status": "partial",
   "theorems": [
    "C26_terminates",
    "C26_exit",
    "C26_exact_partial",
    "C26_overshoot_refuted",
    "C26_negative_end_refuted",
    "C26_cuts_refuted"
   ],
   "note": "Termination and exit condition proved; the end time is reached exactly only if the step divides the interval; overshoot, negative end time and accumulated cuts refuted by witnesses."
  },
  {
   "property": "C27",
   "status": "partial",
   "theorems": [
    "C27_solution_kept",
    "C27_retry_partial",
    "C27_history_refuted"
   ],
   "note": "A rejected step keeps the solutions; the retry equals a fresh smaller step for one-step methods; false for multi-step histories (shifted twice)."
  },
  {
   "property": "C28",
   "status": "partial",
   "theorems": [
    "C28_terminates",
    "C28_early_exit_partial",
    "C28_never_fails",
    "C28_backtracking",
    "C28_backtrack_pass",
    "C28_backtrack_run",
    "C28_failure_reported_refuted",
    "C28_ranks_refuted"
   ],
   "note": "Termination and soundness of an early exit proved for every residual and linear solver; failure is never reported with a positive limit (refuted by witness), and ranks may disagree."
  },
  {
   "property": "C29",
   "status": "partial",
   "theorems": [
    "C29_value",
    "C29_constant_partial",
    "C29_affine_partial",
    "C29_sums",
    "C29_multistage_refuted"
   ],
   "note": "Exact value after a step for every tableau; right for constant data, for affine data iff the stage times sum to one; false for RK-4,4, FWE, DIRK-1,2 (witnesses)."
  },
  {
   "property": "C30",
   "status": "partial",
   "theorems": [
    "C30_constant_partial",
    "C30_default_refuted"
   ],
   "note": "Proved for first-order start-up with enough start-up steps (any tableau, BDF 1-6, any number of sets); false for the default start-up (witness)."
  },
  {
   "property": "C31",
   "status": "proved",
   "theorems": [
    "C31_step"
   ],
   "note": "Prescribed values in multi-stage steps are the subject of C29."
  },
  {
   "property": "C32",
   "status": "proved",
   "theorems": [
    "C32_residual",
    "C32_orthogonal",
    "C32_energy",
    "C32_optimal",
    "C32_finite",
    "C32_result"
   ],
   "note": "Every symmetric positive definite matrix and positive diagonal preconditioner, exact arithmetic."
  },
  {
   "property": "C33",
   "status": "proved",
   "theorems": [
    "C33_geometry",
    "C33_nodes",
    "C33_conforming",
    "C33_edges"
   ],
   "note": "For every positive nx, ny and extents. The edge map is proved for the function; the rectangle constructor does not call it."
  },
  {
   "property": "C34",
   "status": "partial",
   "theorems": [
    "C34_round_trip",
    "C34_ownership",
    "C34_matches_serial",
    "C34_nondivisible_refuted",
    "C34_rank_check_refuted"
   ],
   "note": "All parts for every processor grid that divides the mesh (round trip and ownership for every grid). Refuted: grids that do not divide the mesh are silently accepted and rank = number of ranks passes the check."
  },
  {
   "property": "C35",
   "status": "proved",
   "theorems": [
    "C35_geometry",
    "C35_nodes",
    "C35_conforming",
    "C35_edges"
   ],
   "note": "For every positive nx, ny, nz and extents."
  },
  {
   "property": "C36",
   "status": "proved",
   "theorems": [
    "C36_rectangle",
    "C36_brick"
   ],
   "note": "Rectangle and brick, i.e. the classes that are instantiated. The interval, cylinder and step-channel classes leave virtual functions undefined and cannot be instantiated; not modelled."
  },
  {
   "property": "C37",
   "status": "partial",
   "theorems": [
    "C37_consistent_partial",
    "C37_valid_iff",
    "C37_reset_refuted",
    "C37_default",
    "C37_main_ranks"
   ],
   "note": "Consistent exactly when the group size divides the rank count (C37_valid_iff); the fallback taken otherwise uses a stale group count and produces invalid ranks (C37_reset_refuted)."
  },
  {
   "property": "C38",
   "status": "proved",
   "theorems": [
    "C38_samples_once",
    "C38_default_weights"
   ],
   "note": "For every number of samples and batches."
  },
  {
   "property": "C39",
   "status": "proved",
   "theorems": [
    "C39_binary",
    "C39_unary",
    "C39_extensional",
    "C39_laws",
    "C39_dot",
    "C39_dot_symmetric",
    "C39_dot_bilinear",
    "C39_dot_positive",
    "C39_full_mass_refuted",
    "C39_values"
   ],
   "note": "Vectors with the same parts. With a full mass matrix and no diagonal the branch of dot is empty and fields do not count (C39_full_mass_refuted)."
  },
  {
   "property": "C40",
   "status": "partial",
   "theorems": [
    "C40_dual",
    "C40_clone",
    "C40_dual_refuted",
    "C40_dual_norm_refuted",
    "C40_clone_refuted"
   ],
   "note": "Holds without mass and scale. With a mass diagonal dual() neither applies the mass nor marks the result dual; clone drops the dual flag and scale."
  },
  {
   "property": "C41",
   "status": "partial",
   "theorems": [
    "C41_step",
    "C41_history",
    "C41_read",
    "C41_round_trip",
    "C41_round_trip_string",
    "C41_seeds",
    "C41_all_seeded",
    "C41_bounds",
    "C41_setup",
    "C41_unknown_usage_refuted",
    "C41_dynamic_refuted",
    "C41_short_refuted",
    "C41_named"
   ],
   "note": "Every layout, vector and history, when every usage is known and vectors have the size of the class. Refuted: unknown usage shifts classes; reading by name concatenates all times when a parameter is dynamic; a short vector is read past its end."
  },
  {
   "property": "C42",
   "status": "partial",
   "theorems": [
    "C42_in_order",
    "C42_cache_kept",
    "C42_second_sample_refuted",
    "C42_unevaluated_refuted",
    "C42_close_samples_refuted"
   ],
   "note": "From every state, calls at one point in which each sample is evaluated before its gradient give right gradients. Refuted: gradients at a new point for two samples without evaluation (as in finite-difference Hessian products) - the second uses the solution for the old point; never evaluated samples; samples closer than 1e-7."
  },
  {
   "property": "C43",
   "status": "partial",
   "theorems": [
    "C43_history",
    "C43_after_value",
    "C43_close_entries",
    "C43_first_gradient_refuted"
   ],
   "note": "Every call history after a first evaluation: parameters within 1e-12 (mass-weighted, entry by entry) and the forward solution for exactly these parameters. Refuted: a gradient at the initial parameters before any evaluation uses no forward solution. The forward solve is taken as a function of the parameters (see C58)."
  },
  {
   "property": "C44",
   "status": "partial",
   "theorems": [
    "C44_nearest",
    "C44_mesh_data",
    "C44_rows",
    "C44_import",
    "C44_microstructure",
    "C44_distance_refuted",
    "C44_microstructure_refuted",
    "C44_blank_refuted"
   ],
   "note": "The Compadre search is an oracle whose contract (nonempty lists, nearest first) is a hypothesis. The reported distance is never set (refuted), microstructure generation reads the concatenated lists without offsets (refuted), and a blank line in a point file duplicates a point (refuted)."
  },
  {
   "property": "C45",
   "status": "partial",
   "theorems": [
    "C45_grid1",
    "C45_grid2",
    "C45_grid3",
    "C45_far_refuted"
   ],
   "note": "Proved for files listing the grid with the first coordinate fastest and queries whose squared distance along each axis is below RAND_MAX; beyond that node 0 is returned (refuted)."
  },
  {
   "property": "C46",
   "status": "partial",
   "theorems": [
    "C46_block_settings",
    "C46_unnamed",
    "C46_refuted",
    "C46_lists_replaced"
   ],
   "note": "Proved for every settings table when no sublist name properly contains the block name. Refuted in general: block names are compared as substrings, so settings of eblock-10 leak into eblock-1."
  },
  {
   "property": "C47",
   "status": "partial",
   "theorems": [
    "C47_default_set",
    "C47_named_set_partial",
    "C47_compatible",
    "C47_named_order_refuted"
   ],
   "note": "Proved for the unnamed set for every option, and for named sets for every option but the BDF order. Refuted for the BDF order: the general order is ignored for a named set."
  },
  {
   "property": "C48",
   "status": "partial",
   "theorems": [
    "C48_effective",
    "C48_main_kept",
    "C48_accepts",
    "C48_missing",
    "C48_main_kept_refuted",
    "C48_present_rejected",
    "C48_aux_rejected"
   ],
   "note": "Proved for files that contain only their own section; a missing required section is rejected for every input. Refuted in general: a file named for one section overrides other sections of the main input."
  },
  {
   "property": "C49",
   "status": "partial",
   "theorems": [
    "C49_complete_files_partial",
    "C49_short_file_refuted"
   ],
   "note": "Complete files are read as written; short files are silently accepted."
  },
  {
   "property": "C50",
   "status": "partial",
   "theorems": [
    "C50_worksets_partial",
    "C50_explicit_partial",
    "C50_fully_explicit_refuted"
   ],
   "note": "Holds without the fully explicit option or when its guard holds; refuted otherwise."
  },
  {
   "property": "C51",
   "status": "partial",
   "theorems": [
    "C51_rectangle",
    "C51_rectangle_parallel",
    "C51_brick_partial",
    "C51_brick_refuted",
    "C51_phase_refuted"
   ],
   "note": "Proved in 2D, serial and distributed. In 3D the y and z extents are interchanged: true exactly for equal extents. The phase mesh subtracts the lower ends of the spatial section."
  },
  {
   "property": "C52",
   "status": "partial",
   "theorems": [
    "C52_owned_partial",
    "C52_no_phase_refuted"
   ],
   "note": "Correct with a phase mesh; without one the owned array has length zero and is written out of range."
  },
  {
   "property": "C53",
   "status": "proved",
   "theorems": [
    "C53_seeds"
   ],
   "note": "All seeding modes, tableaus, weights, stages, histories, over dual numbers."
  },
  {
   "property": "C54",
   "status": "proved",
   "theorems": [
    "C54_linear_problem",
    "C54_one_pass"
   ],
   "note": "Any size; exact linear solver as hypothesis."
  },
  {
   "property": "C55",
   "status": "proved",
   "theorems": [
    "C55_adjoint"
   ],
   "note": "Any size; exact linear solver as hypothesis."
  },
  {
   "property": "C56",
   "status": "partial",
   "theorems": [
    "C56_dirichlet",
    "C56_gradient",
    "C56_fixed_initial",
    "C56_assembled",
    "C56_initial_refuted",
    "C56_multistep_refuted",
    "C56_unmasked_refuted"
   ],
   "note": "Proved for one-step methods with one set and exact linear solves, with Dirichlet conditions that do not depend on the parameters, on any number of processes that agree on the fixed rows, the initial state not depending on the parameters; with parameter-dependent initial states the contribution of the initial state is missing (witness); multi-step methods index outside the stored vectors (refuted); an objective gradient that is not masked at fixed unknowns gives a wrong gradient (refuted)."
  },
  {
   "property": "C57",
   "status": "proved",
   "theorems": [
    "C57_rotation"
   ],
   "note": "Exact real arithmetic."
  },
  {
   "property": "C58",
   "status": "partial",
   "theorems": [
    "C58_history",
    "C58_static_refuted",
    "C58_cut_refuted",
    "C58_bdf_refuted",
    "C58_restart_refuted"
   ],
   "note": "Holds when static boundary data do not depend on the parameters, no set has BDF order above 1, no step is cut and there is no restart solution; each of the four conditions is needed (refuted with witnesses)."
  },
  {
   "property": "C59",
   "status": "partial",
   "theorems": [
    "C59_weak_comparison_partial",
    "C59_weak_comparison_in_sum_refuted"
   ],
   "note": "Proved when the comparison is the whole definition. Refuted below a sum: '(x<=y)+1' at x=y is 1, because the sum loop drops the equality sign."
  },
  {
   "property": "C60",
   "status": "partial",
   "theorems": [
    "C60_kind_partial",
    "C60_none",
    "C60_recorded",
    "C60_two_kinds_refuted"
   ],
   "note": "Holds when a side has one kind of condition. With two kinds the physics sees the last, the subgrid models the first, and the unknowns are fixed although no value is projected for them (C60_two_kinds_refuted)."
  },
  {
   "property": "C61",
   "status": "proved",
   "theorems": [
    "C61_fixed",
    "C61_once",
    "C61_flag",
    "C61_imposed"
   ],
   "note": "For all side tables, numberings and settings without repeated names."
  },
  {
   "property": "C62",
   "status": "partial",
   "theorems": [
    "C62_text",
    "C62_number_partial",
    "C62_number_refuted",
    "C62_flux_number_refuted",
    "C62_integer_refuted",
    "C62_all_boundaries_refuted",
    "C62_component_refuted"
   ],
   "note": "Proved for texts of all kinds; numbers are rounded to six decimals (C62_number_partial). Refuted: small numbers become zero, numbers are refused for other kinds, integers define nothing, 'all boundaries' overrides a named side, a vector condition without its x component is not found."
  },
  {
   "property": "C63",
   "status": "partial",
   "theorems": [
    "C63_best_partial",
    "C63_exact_partial",
    "C63_hdiv_refuted",
    "C63_unshared_refuted"
   ],
   "note": "Proved for scalar and HCURL variables, and for HDIV variables on sides with normals along an axis, when every process that has an unknown knows whether it is fixed. Refuted for HDIV on slanted sides (the matrix sums products of components instead of products of normal components) and for unknowns whose being fixed is not known to all processes."
  },
  {
   "property": "C64",
   "status": "partial",
   "theorems": [
    "C64_exchange",
    "C64_exchange_once",
    "C64_nodes_partial",
    "C64_imposed_partial",
    "C64_two_elements_refuted",
    "C64_names_refuted",
    "C64_unimposed_refuted"
   ],
   "note": "The exchange is proved; the local unknowns are right with at most one element per node set and process. Refuted: a second element takes an unknown of the first, names are matched as substrings, nothing is imposed when no side has a Dirichlet condition."
  },
  {
   "property": "C65",
   "status": "partial",
   "theorems": [
    "C65_flux_partial",
    "C65_none",
    "C65_ignored_refuted"
   ],
   "note": "Holds for the residual computed alone and for the largest derivative type; with at most 32 unknowns per element a small derivative type is selected and the condition is silently ignored (C65_ignored_refuted)."
  },
  {
   "property": "C66",
   "status": "partial",
   "theorems": [
    "C66_scalar_partial",
    "C66_scalar_refuted"
   ],
   "note": "Holds when all sides have the same number; otherwise the last number is used for all of them, and components are not looked at."
  },
  {
   "property": "C67",
   "status": "proved",
   "theorems": [
    "C67_heat_equation",
    "C67_heat_balance",
    "C67_dissipation"
   ],
   "note": "Exact arithmetic, one element; all three dimensions."
  },
  {
   "property": "C68",
   "status": "partial",
   "theorems": [
    "C68_boundary_terms",
    "C68_consistent",
    "C68_symmetric",
    "C68_interface_balance",
    "C68_adjoint_partial",
    "C68_adjoint_refuted",
    "C68_adjoint_interface_refuted"
   ],
   "note": "False in adjoint mode unless form_param is 1: the boundary term switches its scaling with isAdjoint, so the adjoint operator is not the transpose and the flux no longer balances. Everything else proved in forward mode."
  },
  {
   "property": "C69",
   "status": "partial",
   "theorems": [
    "C69_mass_equation",
    "C69_mass_balance",
    "C69_boundary_terms",
    "C69_interface_balance_partial",
    "C69_interface_balance_refuted"
   ],
   "note": "The interface flux only contains the x component because computeFlux takes the dimension from the wrong array: balance proved in 1D, refuted in 2D. Gravity is evaluated but unused."
  },
  {
   "property": "C70",
   "status": "proved",
   "theorems": [
    "C70_transport_equation",
    "C70_balance"
   ],
   "note": "cdr2 is the same code with other names."
  },
  {
   "property": "C71",
   "status": "proved",
   "theorems": [
    "C71_stokes_equations",
    "C71_energy"
   ],
   "note": ""
  },
  {
   "property": "C72",
   "status": "partial",
   "theorems": [
    "C72_equations_partial",
    "C72_third_component",
    "C72_equations_refuted",
    "C72_traction"
   ],
   "note": "Proved in full in one and two dimensions, and for ux and pr in three (with one basis for the velocity). In three dimensions navierstokes.cpp line 688 takes the offsets of uy for the uz equation: the uz rows are empty and the uy rows get both equations (C72_third_component), so the full statement is refuted."
  },
  {
   "property": "C73",
   "status": "partial",
   "theorems": [
    "C73_consistent_partial",
    "C73_consistent_refuted",
    "C73_hydrostatic",
    "C73_tau"
   ],
   "note": "Consistency holds without an energy variable or with unit density; with both, the PSPG buoyancy term is not divided by the density and does not vanish (refuted)."
  },
  {
   "property": "C74",
   "status": "proved",
   "theorems": [
    "C74_stress",
    "C74_equations",
    "C74_balance",
    "C74_rigid_motion",
    "C74_energy",
    "C74_reciprocity"
   ],
   "note": ""
  },
  {
   "property": "C75",
   "status": "proved",
   "theorems": [
    "C75_boundary_terms",
    "C75_consistent",
    "C75_reciprocity",
    "C75_flux_balance"
   ],
   "note": "Sides where all components are imposed the same way; mixed sides are C78."
  },
  {
   "property": "C76",
   "status": "proved",
   "theorems": [
    "C76_von_mises",
    "C76_hydrostatic"
   ],
   "note": ""
  },
  {
   "property": "C77",
   "status": "partial",
   "theorems": [
    "C74_stress",
    "C77_biot_refuted",
    "C77_thermal_refuted"
   ],
   "note": "C74_stress gives the full law for temperature without the plane stress option and for Biot coupling in three dimensions. In one dimension the pore pressure cancels, in two it counts twice and entries outside the array are accessed; under incplanestress the thermal coefficient is 5 mu instead of 8 mu."
  },
  {
   "property": "C78",
   "status": "partial",
   "theorems": [
    "C75_boundary_terms",
    "C75_flux_balance",
    "C78_mixed_refuted",
    "C78_flux_refuted"
   ],
   "note": "True when all components of the side are imposed the same way. Mixed sides use the traction as a displacement; so does the flux in one and two dimensions."
  },
  {
   "property": "C79",
   "status": "partial",
   "theorems": [
    "C79_magnitude_partial",
    "C79_magnitude_refuted",
    "C79_plane_stress_partial",
    "C79_plane_strain_refuted"
   ],
   "note": "Magnitude correct without shear only; 2D von Mises uses the plane stress formula for a plane strain state."
  },
  {
   "property": "C80",
   "status": "partial",
   "theorems": [
    "C80_hydrostatic_partial",
    "C80_hydrostatic_refuted"
   ],
   "note": "Holds without PSPG only: stokes.cpp adds the source in the PSPG term where the momentum equation subtracts it, refuted by a witness."
  },
  {
   "property": "C81",
   "status": "partial",
   "theorems": [
    "C81_implicit_stable",
    "C81_solvable",
    "C81_bwe_damps",
    "C81_dirk33_damps",
    "C81_dirk33_partial",
    "C81_dirk33_refuted"
   ],
   "note": "All methods except DIRK-3,3 proved in full. DIRK-3,3 proved for real lambda; with its ten-digit coefficient a purely oscillating mode grows (by less than 1e-11 per radian squared), refuted with a witness."
  },
  {
   "property": "C82",
   "status": "proved",
   "theorems": [
    "C82_inner_product",
    "C82_symmetric",
    "C82_nonnegative",
    "C82_definite"
   ],
   "note": ""
  },
  {
   "property": "C83",
   "status": "proved",
   "theorems": [
    "C83_equation",
    "C83_conservation",
    "C83_consistent",
    "C83_viscosity",
    "C83_energy"
   ],
   "note": "Burgers module, volume terms."
  },
  {
   "property": "C84",
   "status": "partial",
   "theorems": [
    "C84_outflow_partial",
    "C84_outflow_refuted",
    "C84_first_variable_refuted"
   ],
   "note": "Holds in two dimensions when u is the first variable. Missing, because false: in one and three dimensions the term is not added; with several modules the condition of the first variable of the block decides."
  },
  {
   "property": "C85",
   "status": "proved",
   "theorems": [
    "C85_equations",
    "C85_volume",
    "C85_surface_slope",
    "C85_lake"
   ],
   "note": "Two dimensions (the module reads the second gradient component)."
  },
  {
   "property": "C86",
   "status": "partial",
   "theorems": [
    "C86_sources_partial",
    "C86_options_refuted"
   ],
   "note": "The sources act with their weight. Missing, because false: Coriolis, viscosity, bottom friction and boundary data are accepted and change nothing."
  },
  {
   "property": "C87",
   "status": "proved",
   "theorems": [
    "C87_equation",
    "C87_solution"
   ],
   "note": "Lowest order basis (one constant function); other unknowns would get no equation."
  },
  {
   "property": "C88",
   "status": "proved",
   "theorems": [
    "C88_equation",
    "C88_total",
    "C88_exact",
    "C88_regularized",
    "C88_tau"
   ],
   "note": "Without the Rothermel spread model."
  },
  {
   "property": "C89",
   "status": "partial",
   "theorems": [
    "C89_defined_partial",
    "C89_defined_refuted"
   ],
   "note": "Holds where the velocity is nonzero at every point. Missing, because false: where it vanishes the stabilization parameter divides by zero."
  },
  {
   "property": "C90",
   "status": "proved",
   "theorems": [
    "C90_faraday",
    "C90_ampere",
    "C90_only",
    "C90_leapfrog",
    "C90_energy",
    "C90_selected"
   ],
   "note": "Volume terms of maxwell.cpp."
  },
  {
   "property": "C91",
   "status": "partial",
   "theorems": [
    "C91_permittivity_partial",
    "C91_permittivity_refuted"
   ],
   "note": "Holds in two dimensions. Missing, because false: in three dimensions the permittivity divides the flux under the curl of the test function."
  },
  {
   "property": "C92",
   "status": "proved",
   "theorems": [
    "C92_pointwise",
    "C92_flux"
   ],
   "note": "The equation over the mesh is stated as: tested with every global vector the sum over elements vanishes."
  },
  {
   "property": "C93",
   "status": "partial",
   "theorems": [
    "C93_absorbing_partial",
    "C93_absorbing_refuted"
   ],
   "note": "Holds in three dimensions (weight 0.0056, unit normals). Missing, because false: in two dimensions the loop has no body and nothing is added."
  },
  {
   "property": "C94",
   "status": "proved",
   "theorems": [
    "C94_volume",
    "C94_absent"
   ],
   "note": "names without the reserved pieces ([x] ... [w], grad, div, curl, _t); other names are C95"
  },
  {
   "property": "C95",
   "status": "partial",
   "theorems": [
    "C95_names_partial",
    "C95_names_refuted"
   ],
   "note": "holds for a variable whose own name is free of reserved pieces, whatever the other names are; false in general: heat_transfer contains _t, is taken for a time derivative, and is zero in a steady problem"
  },
  {
   "property": "C96",
   "status": "proved",
   "theorems": [
    "C96_side"
   ],
   "note": "divergence and curl on sides are C97"
  },
  {
   "property": "C97",
   "status": "partial",
   "theorems": [
    "C97_curl_found_partial",
    "C97_divergence_partial",
    "C97_divergence_refuted",
    "C97_curl_refuted"
   ],
   "note": "the divergence is taken from the interior points, so it is right only where it agrees there; the curl request returns a component of the field itself"
  },
  {
   "property": "C98",
   "status": "proved",
   "theorems": [
    "C98_control",
    "C98_discrete",
    "C98_response",
    "C98_sensors"
   ],
   "note": "Regularizations of integrated responses and sensors with response output are separated as C100."
  },
  {
   "property": "C99",
   "status": "proved",
   "theorems": [
    "C99_state"
   ],
   "note": "Sensors: without response output (see C100)."
  },
  {
   "property": "C100",
   "status": "partial",
   "theorems": [
    "C100_regularization_partial",
    "C100_output_partial",
    "C100_regularization_refuted",
    "C100_output_refuted"
   ],
   "note": "Holds for the other types and without response output; refuted: the penalty of an integrated response lands inside the square, and sensors with response output count misfits at times without data."
  },
  {
   "property": "C101",
   "status": "partial",
   "theorems": [
    "C101_regularization_partial",
    "C101_regularization_refuted"
   ],
   "note": "Proved for discrete control; refuted for sensors: the value is not scaled by dt while the gradient is."
  },
  {
   "property": "C102",
   "status": "partial",
   "theorems": [
    "C102_sensors_partial",
    "C102_control_partial",
    "C102_groups_refuted",
    "C102_times_refuted"
   ],
   "note": "Proved for integrated control with at most one element per group and for sensors whose data do not change in time; refuted with two elements in a group (the sum of the group is added to each element) and for sensors (data are looked up at the start of the step)."
  },
  {
   "property": "C103",
   "status": "partial",
   "theorems": [
    "C103_scalar_partial",
    "C103_scalar_refuted"
   ],
   "note": "Proved on one process; refuted on two: the objective's own derivative is not summed over processes."
  },
  {
   "property": "C104",
   "status": "proved",
   "theorems": [
    "C104_volume",
    "C104_all"
   ],
   "note": ""
  },
  {
   "property": "C105",
   "status": "partial",
   "theorems": [
    "C105_sides_partial",
    "C105_sides_refuted"
   ],
   "note": "Proved when no other side name is written inside the list; refuted: asking for topleft also integrates over top."
  },
  {
   "property": "C106",
   "status": "proved",
   "theorems": [
    "C106_norm",
    "C106_exact",
    "C106_face"
   ],
   "note": "The curl in two dimensions is C107."
  },
  {
   "property": "C107",
   "status": "partial",
   "theorems": [
    "C107_fields_partial",
    "C107_compared_partial",
    "C107_curl_refuted",
    "C107_compared_refuted"
   ],
   "note": "Refuted in two dimensions for the curl (no field of that name) and for plain values given for vectors (silently ignored)."
  },
  {
   "property": "C108",
   "status": "proved",
   "theorems": [
    "C108_velocity",
    "C108_pressure",
    "C108_only",
    "C108_conserves",
    "C108_symmetric",
    "C108_energy",
    "C108_flux"
   ],
   "note": "Darcy_Model, Darcy_Props"
  },
  {
   "property": "C109",
   "status": "partial",
   "theorems": [
    "C109_side_partial",
    "C109_side_refuted"
   ],
   "note": "Holds when the variable's number is the number of its basis; refuted otherwise: basis_side is indexed with the number of the variable"
  },
  {
   "property": "C110",
   "status": "proved",
   "theorems": [
    "C110_volume",
    "C110_side",
    "C110_face",
    "C110_continuous",
    "C110_energy",
    "C110_consistent"
   ],
   "note": "Darcy_Model, Darcy_Props"
  },
  {
   "property": "C111",
   "status": "proved",
   "theorems": [
    "C111_volume",
    "C111_face",
    "C111_side",
    "C111_conserves",
    "C111_constant",
    "C111_continuous"
   ],
   "note": "Darcy_Model, Darcy_Props"
  },
  {
   "property": "C112",
   "status": "partial",
   "theorems": [
    "C112_data_partial",
    "C112_data_refuted"
   ],
   "note": "Functions agree, mixed and weak Galerkin agree on data; refuted for the hybridized module, which takes the datum as its own inverse"
  },
  {
   "property": "C113",
   "status": "partial",
   "theorems": [
    "C113_field_partial",
    "C113_factor_partial",
    "C113_field_refuted"
   ],
   "note": "Proved in one and two dimensions and in three with random coefficients only; refuted in three dimensions with deterministic coefficients: x gets the term twice, z never, and the z eigenvalue comes from the y expansion"
  },
  {
   "property": "C114",
   "status": "proved",
   "theorems": [
    "C114_eigen",
    "C114_unit",
    "C114_orthogonal",
    "C114_slope"
   ],
   "note": "The search for roots itself is not modelled"
  },
  {
   "property": "C115",
   "status": "partial",
   "theorems": [
    "C115_wells_partial",
    "C115_wells_refuted",
    "C115_plane_refuted"
   ],
   "note": "Proved when there is a well; refuted with none (source lost) and for the plane (z permeability enters)"
  },
  {
   "property": "C116",
   "status": "proved",
   "theorems": [
    "C116_order",
    "C116_volume",
    "C116_boundary",
    "C116_consistent",
    "C116_conservation"
   ],
   "note": ""
  },
  {
   "property": "C117",
   "status": "proved",
   "theorems": [
    "C117_stabilized"
   ],
   "note": ""
  },
  {
   "property": "C118",
   "status": "proved",
   "theorems": [
    "C118_farfield"
   ],
   "note": ""
  },
  {
   "property": "C119",
   "status": "partial",
   "theorems": [
    "C119_right_end_partial",
    "C119_left_end_refuted"
   ],
   "note": "Proved where the normal points along x; refuted at the other end, whose decomposition ignores the normal"
  },
  {
   "property": "C120",
   "status": "proved",
   "theorems": [
    "C120_slip"
   ],
   "note": ""
  },
  {
   "property": "C121",
   "status": "proved",
   "theorems": [
    "C121_volume",
    "C121_boundary",
    "C121_consistent",
    "C121_conservation",
    "C121_sound_speed"
   ],
   "note": "z-momentum in three dimensions is C122"
  },
  {
   "property": "C122",
   "status": "partial",
   "theorems": [
    "C121_volume",
    "C121_consistent",
    "C122_z_momentum_refuted"
   ],
   "note": "The other four hold by C121; the flux of rhouz is never set, so both halves are refuted for it"
  },
  {
   "property": "C123",
   "status": "proved",
   "theorems": [
    "C123_max_speed"
   ],
   "note": ""
  },
  {
   "property": "C124",
   "status": "partial",
   "theorems": [
    "C124_ordered_partial",
    "C124_order_refuted",
    "C124_1d_refuted"
   ],
   "note": "Proved when the unknowns are in the matrices' order (and in one dimension at rest); refuted for the module's own order in two dimensions and for moving gas in one"
  },
  {
   "property": "C125",
   "status": "partial",
   "theorems": [
    "C125_ordered_partial",
    "C125_order_refuted",
    "C125_1d_refuted"
   ],
   "note": "As C124; in one dimension also only at the end whose normal points along x"
  },
  {
   "property": "C126",
   "status": "proved",
   "theorems": [
    "C126_slip"
   ],
   "note": ""
  },
  {
   "property": "C127",
   "status": "proved",
   "theorems": [
    "C127_jacobian",
    "C127_quad",
    "C127_tri",
    "C127_line"
   ],
   "note": ""
  },
  {
   "property": "C128",
   "status": "proved",
   "theorems": [
    "C128_length",
    "C128_size",
    "C128_normal"
   ],
   "note": ""
  },
  {
   "property": "C129",
   "status": "proved",
   "theorems": [
    "C129_quad",
    "C129_tri",
    "C129_hex"
   ],
   "note": ""
  },
  {
   "property": "C130",
   "status": "proved",
   "theorems": [
    "C130_line"
   ],
   "note": ""
  },
  {
   "property": "C131",
   "status": "partial",
   "theorems": [
    "C131_faces_partial",
    "C131_faces_1d_refuted"
   ],
   "note": "Proved in two and three dimensions; in one dimension interior faces have weight zero and no normal"
  },
  {
   "property": "C132",
   "status": "proved",
   "theorems": [
    "C132_gradient",
    "C132_divergence"
   ],
   "note": ""
  },
  {
   "property": "C133",
   "status": "proved",
   "theorems": [
    "C133_flux",
    "C133_circulation",
    "C133_gradient"
   ],
   "note": ""
  },
  {
   "property": "C134",
   "status": "partial",
   "theorems": [
    "C134_boundary_partial",
    "C134_faces_oriented_partial",
    "C134_faces_refuted"
   ],
   "note": "Proved on boundary sides, and on faces for bases that need an orientation; on faces the others stay zero"
  },
  {
   "property": "C135",
   "status": "partial",
   "theorems": [
    "C135_affine_partial",
    "C135_general_refuted",
    "C135_short_refuted"
   ],
   "note": "Proved on affine elements with at least as many integration points as nodes; otherwise the Jacobian of an integration point is used, or read out of range"
  },
  {
   "property": "C136",
   "status": "partial",
   "theorems": [
    "C136_interior_partial",
    "C136_boundary_partial",
    "C136_recomputed_partial",
    "C136_boundary_refuted"
   ],
   "note": "Proved for groups, for boundary groups whose basis is stored, and for the others with one block; with several blocks a side whose basis is recomputed or in the database gets the nodes of another element (or reads past the list)"
  },
  {
   "property": "C137",
   "status": "proved",
   "theorems": [
    "C137_divergence",
    "C137_mapped_divergence",
    "C137_span",
    "C137_flux",
    "C137_constants"
   ],
   "note": ""
  },
  {
   "property": "C138",
   "status": "partial",
   "theorems": [
    "C138_divergence_partial",
    "C138_divergence_refuted",
    "C138_dual_refuted",
    "C138_conforming_refuted"
   ],
   "note": "Proved on parallelograms for the divergence; refuted on a trapezoid, since all four functions go through the Piola map; functions are not dual to the side unknowns"
  },
  {
   "property": "C139",
   "status": "proved",
   "theorems": [
    "C139_quads",
    "C139_hexes",
    "C139_levels",
    "C139_area"
   ],
   "note": "For the tables of refineSubCell and the find-or-add search over the node list, by induction over the levels: Permutation with the grid of cells and of points, corner order of each cell, and the sum of the mapped areas. Real arithmetic."
  },
  {
   "property": "C140",
   "status": "proved",
   "theorems": [
    "C140_quads",
    "C140_hexes",
    "C140_quad_sides",
    "C140_hex_sides"
   ],
   "note": "Marks stated twice: by the position of the cell in the grid, and by the coordinates of the nodes of the side."
  },
  {
   "property": "C141",
   "status": "partial",
   "theorems": [
    "C141_partial",
    "C141_refuted"
   ],
   "note": "Proved: distinct nodes, 4^r cells inside the triangle, each with area 1/4^r of the whole up to sign. Missing and false: after one refinement the second triangle runs clockwise, and its side on the second coarse side is marked with the third."
  },
  {
   "property": "C142",
   "status": "partial",
   "theorems": [
    "C142_marks_partial",
    "C142_refuted"
   ],
   "note": "Proved: the number of cells and the marks of the ends at every level. Missing and false: the index of the new midpoint is taken after it is appended, so after one refinement both cells refer to node 3 of 3."
  },
  {
   "property": "C143",
   "status": "partial",
   "theorems": [
    "C143_partial",
    "C143_refuted"
   ],
   "note": "Proved: distinct nodes, 8^r cells, each with volume 1/8^r of the whole up to sign. Missing and false: the last three cells are identical, and the first cell is marked on an interior side and unmarked on a coarse one."
  },
  {
   "property": "C144",
   "status": "proved",
   "theorems": [
    "C144_quads",
    "C144_hexes"
   ],
   "note": "Composition of C140 with getPhysicalSideinfo, with out-of-range accesses modelled and shown not to happen."
  },
  {
   "property": "C145",
   "status": "proved",
   "theorems": [
    "C145_nodes",
    "C145_disjoint",
    "C145_range"
   ],
   "note": "The range hypothesis is proved for refined quadrilaterals in C145_range."
  },
  {
   "property": "C146",
   "status": "proved",
   "theorems": [
    "C146_sides",
    "C146_groups",
    "C146_only",
    "C146_once"
   ],
   "note": ""
  },
  {
   "property": "C147",
   "status": "partial",
   "theorems": [
    "C147_quad_tri_cover",
    "C147_tri_quad_cover",
    "C147_quad_tri_partial",
    "C147_quad_tri_refuted",
    "C147_tri_quad_refuted"
   ],
   "note": "The cells cover the coarse element and meet in its centre. Side information: proved for quadrilaterals all of whose sides carry a condition. False otherwise: index -1 is used to read the coarse side, and the fourth side of the quadrilaterals cut from a triangle is outside the array."
  },
  {
   "property": "C148",
   "status": "proved",
   "theorems": [
    "C148_responses",
    "C148_prefix",
    "C148_finite_difference",
    "C148_draws",
    "C148_user_samples"
   ],
   "note": "The forward model is an arbitrary function of the parameters; random draws are abstract. Cases outside the hypotheses are in C149."
  },
  {
   "property": "C149",
   "status": "partial",
   "theorems": [
    "C149_partial",
    "C149_more_samples_refuted",
    "C149_file_refuted",
    "C149_dynamic_refuted"
   ],
   "note": "Proved: without a user file every sample has its integer. Refuted: 'max samples' defaults to 'samples' and parameters are drawn one after the other from one engine, so one more sample changes the other parameters of the first; a user file longer than 'max samples' reads outside the integer samples; with a time-dependent parameter only the first time index receives the sample."
  },
  {
   "property": "C150",
   "status": "proved",
   "theorems": [
    "C150_rule",
    "C150_largest_kept",
    "C150_scale",
    "C150_monotone"
   ],
   "note": ""
  },
  {
   "property": "C151",
   "status": "partial",
   "theorems": [
    "C151_partial",
    "C151_caller_refuted",
    "C151_gaussian_refuted"
   ],
   "note": "Proved: inside the function uniform samples are in range and the weights sum to one. Refuted: the views are passed by value and resized, so the caller sees nothing; a Gaussian is drawn with the variance as standard deviation."
  },
  {
   "property": "C152",
   "status": "proved",
   "theorems": [
    "C152_mean",
    "C152_mean_unique",
    "C152_variance",
    "C152_units",
    "C152_probability",
    "C152_order",
    "C152_chebyshev"
   ],
   "note": "Real arithmetic."
  },
  {
   "property": "C153",
   "status": "proved",
   "theorems": [
    "C153_defined",
    "C153_positive",
    "C153_order",
    "C153_units",
    "C153_one_dimension"
   ],
   "note": "Real arithmetic; the constant PI is the decimal of preferences.hpp. That the density integrates to one is not stated."
  },
  {
   "property": "C154",
   "status": "proved",
   "theorems": [
    "C154_units",
    "C154_accepted",
    "C154_variance",
    "C154_some_accepted"
   ],
   "note": "Degenerate cases are in C155."
  },
  {
   "property": "C155",
   "status": "partial",
   "theorems": [
    "C155_partial",
    "C155_no_overlap_refuted",
    "C155_constant_refuted",
    "C155_dimension_refuted"
   ],
   "note": "Proved: the ratio is a number when the predicted (and data) densities are defined. Refuted: without overlap nothing is accepted and the mean is 0/0; with one sample or with a response that does not vary every ratio is not a number and nothing is accepted; Gaussian and uniform observed densities use the first response only while the predicted density uses all, so an unobserved response reorders the ratios."
  },
  {
   "property": "C156",
   "status": "proved",
   "theorems": [
    "C156_equation",
    "C156_conservation",
    "C156_energy"
   ],
   "note": "any dimension, any coefficients"
  },
  {
   "property": "C157",
   "status": "proved",
   "theorems": [
    "C157_equation",
    "C157_symmetric",
    "C157_positive"
   ],
   "note": "any dimension"
  },
  {
   "property": "C158",
   "status": "proved",
   "theorems": [
    "C158_equation",
    "C158_conservation"
   ],
   "note": "dimensions 1 and 2; see C169 for 3"
  },
  {
   "property": "C159",
   "status": "proved",
   "theorems": [
    "C159_equation",
    "C159_mean"
   ],
   "note": "any dimension"
  },
  {
   "property": "C160",
   "status": "partial",
   "theorems": [
    "C160_partial",
    "C160_basis_refuted"
   ],
   "note": "false: the basis of u is used for both rows; proved: what the rows of w then hold, as long as w has at least as many dofs"
  },
  {
   "property": "C161",
   "status": "proved",
   "theorems": [
    "C161_equation",
    "C161_energy"
   ],
   "note": "dimension 1"
  },
  {
   "property": "C162",
   "status": "partial",
   "theorems": [
    "C162_partial",
    "C162_plane_refuted",
    "C162_side_refuted"
   ],
   "note": "false: x derivatives only, and the datum is added on every side whatever its condition; proved where the other derivatives vanish and the datum is zero"
  },
  {
   "property": "C163",
   "status": "proved",
   "theorems": [
    "C163_equation",
    "C163_conservation"
   ],
   "note": "wells of given rate (pressure wells: C115)"
  },
  {
   "property": "C164",
   "status": "partial",
   "theorems": [
    "C164_partial",
    "C164_refuted"
   ],
   "note": "false: the loop runs over all variables and indexes one-entry arrays; it stays inside exactly when S is alone"
  },
  {
   "property": "C165",
   "status": "proved",
   "theorems": [
    "C165_rows",
    "C165_solution",
    "C165_others"
   ],
   "note": "equal bases, not fractional"
  },
  {
   "property": "C166",
   "status": "partial",
   "theorems": [
    "C166_partial",
    "C166_refuted"
   ],
   "note": "false: the mass enters as 2 Re, 2 Im and the stiffness and source as Re + Im, Im - Re; proved: exactly what the rows hold"
  },
  {
   "property": "C167",
   "status": "proved",
   "theorems": [
    "C167_side",
    "C167_consistent"
   ],
   "note": "dimensions 2 and 3, not fractional; see C170"
  },
  {
   "property": "C168",
   "status": "partial",
   "theorems": [
    "C168_partial",
    "C168_refuted",
    "C168_flux_refuted"
   ],
   "note": "false of those named: never used; the prior's flux evaluates a function that is not registered on sides and a field of another variable"
  },
  {
   "property": "C169",
   "status": "partial",
   "theorems": [
    "C169_space_refuted"
   ],
   "note": "false: nothing is assembled in three dimensions"
  },
  {
   "property": "C170",
   "status": "partial",
   "theorems": [
    "C167_side",
    "C170_line_refuted",
    "C170_fractional_refuted"
   ],
   "note": "false: the normal's y component is read without being set on a line, alphaTr and alphaTi are read without being evaluated; C167 has the cases that hold"
  },
  {
   "property": "C171",
   "status": "proved",
   "theorems": [
    "C171_sound",
    "C171_complete",
    "C171_box"
   ],
   "note": "the containment test itself (Intrepid2) is a parameter; reads of the box outside its extent are C172"
  },
  {
   "property": "C172",
   "status": "partial",
   "theorems": [
    "C172_partial",
    "C172_refuted"
   ],
   "note": "true in 3D; in 1D and 2D the buffers of all three directions are computed from a box with fewer"
  },
  {
   "property": "C173",
   "status": "proved",
   "theorems": [
    "C173_owner",
    "C173_none"
   ],
   "note": "the reduction over processes is modelled as the minimum of the processes' flags"
  },
  {
   "property": "C174",
   "status": "proved",
   "theorems": [
    "C174_place",
    "C174_table",
    "C174_partition"
   ],
   "note": "exact numbers, text output; basis evaluation at the sensor is a parameter"
  },
  {
   "property": "C175",
   "status": "partial",
   "theorems": [
    "C175_partial",
    "C175_outside_refuted",
    "C175_quadrature_refuted",
    "C175_numbers_refuted",
    "C175_exodus_refuted"
   ],
   "note": "sensors outside of the mesh get zeros including coordinates; quadrature-point sensors of different processes are added together (or the processes disagree on the number of sums); Exodus sensors are never written"
  },
  {
   "property": "C176",
   "status": "partial",
   "theorems": [
    "C176_partial",
    "C176_refuted"
   ],
   "note": "true when the process has all sensors; otherwise local data are read at the global sensor number"
  },
  {
   "property": "C177",
   "status": "partial",
   "theorems": [
    "C177_partial",
    "C177_refuted",
    "C177_constant_refuted"
   ],
   "note": "integer division: every coefficient is exactly N times the sum of the series"
  },
  {
   "property": "C178",
   "status": "partial",
   "theorems": [
    "C178_one_point_partial",
    "C178_output_refuted",
    "C178_points_refuted",
    "C178_directions_refuted",
    "C178_reduce_refuted"
   ],
   "note": "proved: with one point per boundary group and one direction each sensor is used with its own point. Not so in general: the sensor counter advances per direction and not per point; the first entry of an empty list is read; three of four potentials are replaced by zero"
  },
  {
   "property": "C179",
   "status": "partial",
   "theorems": [
    "C179_partial",
    "C179_name_refuted",
    "C179_lost_refuted"
   ],
   "note": "the points name is right; the data name only if lengths match; a process loses a sensor when an earlier process found the sensor at the same place of its own list"
  },
  {
   "property": "C180",
   "status": "proved",
   "theorems": [
    "C180_grid",
    "C180_refused"
   ],
   "note": "exact numbers (the code accumulates the spacing)"
  },
  {
   "property": "C181",
   "status": "proved",
   "theorems": [
    "C181_points",
    "C181_data",
    "C181_count"
   ],
   "note": "files are lists of lists of numbers; lines shorter than 100 characters"
  },
  {
   "property": "C182",
   "status": "partial",
   "theorems": [
    "C181_count",
    "C182_blank_refuted",
    "C182_short_refuted",
    "C182_missing_refuted"
   ],
   "note": "the number of lines is checked; a blank line repeats the previous point (undefined at first), short data lines are filled with zeros, a missing points file ends in an error after the warning"
  },
  {
   "property": "C183",
   "status": "partial",
   "theorems": [
    "C183_partial",
    "C183_refuted"
   ],
   "note": "true when the bases having such views come first; otherwise a view beyond the list is used (gradients: any basis before an HGRAD one; values: HFACE before others)"
  },
  {
   "property": "C184",
   "status": "proved",
   "theorems": [
    "C184_best",
    "C184_mass"
   ],
   "note": "The linear solver is taken to return a solution; exact arithmetic."
  },
  {
   "property": "C185",
   "status": "partial",
   "theorems": [
    "C185_partial",
    "C185_blocks_refuted",
    "C185_small_refuted"
   ],
   "note": "False: rows whose entries sum below 1e-14 get a unit diagonal, and this repair is run after every block, before later blocks are added. Unknowns that only occur in a later block have 1 added to their mass (value halved in the witness); elements of volume 1e-15 get the load itself as initial value. Proved when every used row has enough mass after the first and every further block."
  },
  {
   "property": "C186",
   "status": "proved",
   "theorems": [
    "C186_constant"
   ],
   "note": "Under the condition that no repair is triggered (row mass at least 1e-14 after each block)."
  },
  {
   "property": "C187",
   "status": "proved",
   "theorems": [
    "C187_best"
   ],
   "note": "Rows repaired once after all blocks."
  },
  {
   "property": "C188",
   "status": "partial",
   "theorems": [
    "C188_partial",
    "C188_refuted"
   ],
   "note": "Row sums agree, but the sum is added in the column of the last unknown instead of the diagonal; with two unknowns the system has no solution. It is used in adjoint solves, because the adjoint flag is passed in the position of the lumping flag."
  },
  {
   "property": "C189",
   "status": "proved",
   "theorems": [
    "C189_nodal"
   ],
   "note": "Nodal values assumed consistent between elements sharing an unknown."
  },
  {
   "property": "C190",
   "status": "partial",
   "theorems": [
    "C190_partial",
    "C190_refuted"
   ],
   "note": "False for the first unknown of an element: the offset table is padded with zeros, and the loop over nodes writes the extra values of a shorter variable (for example piecewise constant) to local unknown 0. Proved for all other unknowns."
  },
  {
   "property": "C191",
   "status": "partial",
   "theorems": [
    "C191_partial",
    "C191_sets_refuted",
    "C191_type_refuted"
   ],
   "note": "The list of values is filled only for scalar sets but indexed by set number; unknown type names silently leave a zero initial state. Proved when all earlier sets are scalar too."
  },
  {
   "property": "C192",
   "status": "proved",
   "theorems": [
    "C192_cell",
    "C192_range",
    "C192_outside",
    "C192_distinct"
   ],
   "note": "Exact arithmetic."
  },
  {
   "property": "C193",
   "status": "proved",
   "theorems": [
    "C193_bilinear",
    "C193_node",
    "C193_between"
   ],
   "note": ""
  },
  {
   "property": "C194",
   "status": "partial",
   "theorems": [
    "C194_partial",
    "C194_refuted"
   ],
   "note": "True for files numbered row by row. The numbering is not checked: a file numbered column by column is accepted and data of other elements are used."
  },
  {
   "property": "C195",
   "status": "proved",
   "theorems": [
    "C195_bounds",
    "C195_none",
    "C195_calm",
    "C195_wind",
    "C195_turned"
   ],
   "note": ""
  },
  {
   "property": "C196",
   "status": "proved",
   "theorems": [
    "C196_speed"
   ],
   "note": ""
  },
  {
   "property": "C197",
   "status": "proved",
   "theorems": [
    "C197_optimum",
    "C197_rate"
   ],
   "note": "Real powers as in the standard library (Rpower)."
  },
  {
   "property": "C198",
   "status": "partial",
   "theorems": [
    "C198_partial",
    "C198_refuted"
   ],
   "note": "The moisture ratio is not limited to one: fuels with extinction moisture below 0.01 get a negative rate. Proved for the others."
  },
  {
   "property": "C199",
   "status": "proved",
   "theorems": [
    "C199_axis",
    "C199_grid"
   ],
   "note": ""
  },
  {
   "property": "C200",
   "status": "partial",
   "theorems": [
    "C200_partial",
    "C200_refuted"
   ],
   "note": "The tolerance is never below 1e-4 in absolute terms: spacings 1e-5 and 9e-5 are accepted as even. Proved for spacings of at least one."
  },
  {
   "property": "C201",
   "status": "proved",
   "theorems": [
    "C201_energy",
    "C201_rest",
    "C201_linear",
    "C201_objective"
   ],
   "note": "Real arithmetic; the derivative is the limit of the difference quotient along every direction."
  },
  {
   "property": "C202",
   "status": "proved",
   "theorems": [
    "C202_equations",
    "C202_balance",
    "C202_virtual_work"
   ],
   "note": ""
  },
  {
   "property": "C203",
   "status": "partial",
   "theorems": [
    "C203_energy_partial",
    "C203_energy_refuted",
    "C203_rotation_refuted",
    "C203_linear_refuted"
   ],
   "note": "Proved for symmetric deformation gradients. False otherwise: the off-diagonal cofactors are swapped (F^{-1} in place of F^{-T}; the correct terms are in the comments), so a rigid rotation is stressed and shear is twice too stiff."
  },
  {
   "property": "C204",
   "status": "proved",
   "theorems": [
    "C204_cauchy",
    "C204_von_mises",
    "C204_uniaxial"
   ],
   "note": ""
  },
  {
   "property": "C205",
   "status": "proved",
   "theorems": [
    "C205_boundary_terms",
    "C205_only_displacements",
    "C205_consistent",
    "C205_flux"
   ],
   "note": ""
  },
  {
   "property": "C206",
   "status": "partial",
   "theorems": [
    "C206_flux_refuted",
    "C206_magnitude_partial",
    "C206_magnitude_refuted"
   ],
   "note": "The flux of a traction side adds a penalty on an unset source (1D, 2D) or is not written (3D); the magnitude leaves out shear."
  },
  {
   "property": "C207",
   "status": "proved",
   "theorems": [
    "C207_momentum",
    "C207_definition",
    "C207_power"
   ],
   "note": ""
  },
  {
   "property": "C208",
   "status": "partial",
   "theorems": [
    "C208_definition_refuted",
    "C208_rows_partial"
   ],
   "note": "The loop of vy adds to the rows of vx: the rows of vy stay empty (singular system) and those of vx get both equations."
  },
  {
   "property": "C209",
   "status": "proved",
   "theorems": [
    "C209_turned",
    "C209_angles",
    "C209_objective",
    "C209_choice"
   ],
   "note": "For arbitrary constants and matrices; the turn formula holds in every dimension (in 2D with the 2x2 block of the matrix)."
  },
  {
   "property": "C210",
   "status": "partial",
   "theorems": [
    "C210_plane_partial",
    "C210_unsheared_partial",
    "C210_symmetric_refuted"
   ],
   "note": "Holds in 1D and 2D for every orientation. In 3D the assignment for entry (0,2,2,0) is written to (0,2,0,0), so an x-z shear gives sigma_zx = 2 sigma_xz for every C55 other than 0; symmetric when there is no x-z shear."
  },
  {
   "property": "C211",
   "status": "partial",
   "theorems": [
    "C211_stretch_partial",
    "C211_shear_refuted",
    "C211_mended_partial",
    "C211_thermal_refuted"
   ],
   "note": "True without shear. The default C44 is 2 mu where the tensor needs mu, so shear stress is twice Hooke's. Giving C44 = mu mends it in the plane but then the thermal stress uses mu/2."
  },
  {
   "property": "C212",
   "status": "partial",
   "theorems": [
    "C212_cubic_partial",
    "C212_constant_refuted",
    "C212_parameter_refuted",
    "C212_moduli_partial"
   ],
   "note": "C11, C12, C44 are used, and youngs_mod with poisson_ratio together. C22, C33, C55, C66, C13, C23, C15, C25, C35, C46 are replaced by cubic symmetry at the first evaluation; mu is never read (its flag goes to lambda's variable), lambda changes only the thermal part."
  },
  {
   "property": "C213",
   "status": "partial",
   "theorems": [
    "C213_serial_partial",
    "C213_single_partial",
    "C213_parallel_refuted"
   ],
   "note": "True one element after another, or with one orientation for all. The 3x3 matrix is one array shared by the parallel loop: two elements at once may read each other's."
  },
  {
   "property": "C214",
   "status": "partial",
   "theorems": [
    "C214_uniform_partial",
    "C214_fields_refuted",
    "C214_equation_refuted"
   ],
   "note": "Holds for fields that do not vary in space (in 2D). The vectors of point values are never cleared between points, so every element uses the values of the first point of the first element of its group."
  },
  {
   "property": "C215",
   "status": "proved",
   "theorems": [
    "C215_energy",
    "C215_pure"
   ],
   "note": "The energy identity is about the reaction of the specification, which C214_uniform_partial identifies with the code's."
  },
  {
   "property": "C216",
   "status": "partial",
   "theorems": [
    "C216_plane_partial",
    "C216_line",
    "C216_space",
    "C216_dimension_refuted"
   ],
   "note": "Two dimensions agree, also with variable mobility. In 1D only the time term is assembled; in 3D the reaction is a quarter of that in 2D and the mobility option is ignored."
  },
  {
   "property": "C217",
   "status": "proved",
   "theorems": [
    "C217_operators",
    "C217_positive"
   ],
   "note": "Scalar bases; the vector-valued branch is not modelled."
  },
  {
   "property": "C218",
   "status": "partial",
   "theorems": [
    "C218_mass_partial",
    "C218_index_refuted",
    "C218_mass_refuted"
   ],
   "note": "Holds with one phase element. The point index leaves out the phase element, so all phase elements read the values of the first."
  },
  {
   "property": "C219",
   "status": "proved",
   "theorems": [
    "C219_own_basis",
    "C219_bases",
    "C219_discontinuous",
    "C219_continuous"
   ],
   "note": ""
  },
  {
   "property": "C220",
   "status": "partial",
   "theorems": [
    "C220_partial",
    "C220_refuted"
   ],
   "note": "Holds when the name has the same type and order in all sets. The set asked for is hidden by a loop variable, so the last set with the name answers."
  },
  {
   "property": "C221",
   "status": "partial",
   "theorems": [
    "C221_partial",
    "C221_refuted",
    "C221_outside_refuted"
   ],
   "note": "Holds on blocks whose list of bases begins with that of the first block. The position in the first block's list is used on all blocks: another basis, or none, elsewhere."
  },
  {
   "property": "C222",
   "status": "proved",
   "theorems": [
    "C222_names",
    "C222_import",
    "C222_unambiguous"
   ],
   "note": "Optional modules (Mirage, Piezo) left out."
  },
  {
   "property": "C223",
   "status": "partial",
   "theorems": [
    "C223_partial",
    "C223_refuted",
    "C223_comma_refuted"
   ],
   "note": "Reported only when the block is left without variables; otherwise an unknown name, or two names joined by a comma without a blank, is passed over in silence."
  },
  {
   "property": "C224",
   "status": "proved",
   "theorems": [
    "C224_general",
    "C224_own"
   ],
   "note": ""
  },
  {
   "property": "C225",
   "status": "partial",
   "theorems": [
    "C225_partial",
    "C225_refuted"
   ],
   "note": "Holds when no list for other blocks has the block's name inside its own; eblock-1 receives what is given for eblock-10."
  },
  {
   "property": "C226",
   "status": "proved",
   "theorems": [
    "C226_formula",
    "C226_number",
    "C226_absent"
   ],
   "note": "Scalar bases; numbers are exact."
  },
  {
   "property": "C227",
   "status": "partial",
   "theorems": [
    "C227_partial",
    "C227_small_refuted",
    "C227_integer_refuted"
   ],
   "note": "A number changes by at most half of the sixth decimal, so 1e-8 becomes zero; a whole number written without a point becomes zero."
  },
  {
   "property": "C228",
   "status": "partial",
   "theorems": [
    "C228_partial",
    "C228_refuted"
   ],
   "note": "Holds for numbers written with a point; a whole number is passed over and the weight is one."
  },
  {
   "property": "C229",
   "status": "proved",
   "theorems": [
    "C229_graph",
    "C229_room",
    "C229_columns"
   ],
   "note": "A graph is the list of inserted pairs."
  },
  {
   "property": "C230",
   "status": "proved",
   "theorems": [
    "C230_numbering",
    "C230_pairs"
   ],
   "note": ""
  },
  {
   "property": "C231",
   "status": "partial",
   "theorems": [
    "C231_partial",
    "C231_refuted"
   ],
   "note": "Holds without phase space (n = 1). With it, rows are numbered in the product but the columns inserted are the spatial numbers."
  },
  {
   "property": "C232",
   "status": "proved",
   "theorems": [
    "C232_export",
    "C232_import",
    "C232_replace",
    "C232_round_trip",
    "C232_transpose"
   ],
   "note": "Tpetra exports and imports as documented."
  },
  {
   "property": "C233",
   "status": "proved",
   "theorems": [
    "C233_current",
    "C233_first",
    "C233_filled"
   ],
   "note": "The matrix requested for scalar sensitivities after an adjoint solve is not filled or used and is left out."
  },
  {
   "property": "C234",
   "status": "proved",
   "theorems": [
    "C234_separate",
    "C234_general",
    "C234_entries",
    "C234_sections"
   ],
   "note": ""
  },
  {
   "property": "C235",
   "status": "partial",
   "theorems": [
    "C235_partial",
    "C235_krylov_refuted",
    "C235_boundary_refuted",
    "C235_own_refuted"
   ],
   "note": "Iterations and residual scaling in the general section are used. The number of Krylov vectors is read and not used; the boundary projection's preconditioner is always off; variant and iterations in a solver's own section are not looked at."
  },
  {
   "property": "C236",
   "status": "proved",
   "theorems": [
    "C236_stage",
    "C236_when"
   ],
   "note": "For every buffer/workset content, list of groups and position. Needs stage < number of stage vectors and at least as many history vectors as BDF weights minus one. Example C236_case."
  },
  {
   "property": "C237",
   "status": "proved",
   "theorems": [
    "C237_values",
    "C237_parameters"
   ],
   "note": "Values only, no derivative seeds; groups storing their own solution are not modelled."
  },
  {
   "property": "C238",
   "status": "proved",
   "theorems": [
    "C238_adjoint"
   ],
   "note": "For every buffer content and position in the sweep."
  },
  {
   "property": "C239",
   "status": "partial",
   "theorems": [
    "C239_determined_partial",
    "C239_determined_refuted"
   ],
   "note": "False as stated: with empty stage and history vectors in a transient run the history buffers are not refreshed; after a time step every group uses the history of the last group of that step (C239_determined_partial). computeDiscreteSensitivities makes such a call."
  },
  {
   "property": "C240",
   "status": "partial",
   "theorems": [
    "C240_rates_partial",
    "C240_rates_refuted"
   ],
   "note": "False as stated: the rate of a set that is not being advanced is left as the workset held it (from the last group of another set's assembly)."
  },
  {
   "property": "C241",
   "status": "proved",
   "theorems": [
    "C241_equations"
   ],
   "note": "Example C241_heating. Parameters p0 and dp0dt are arguments."
  },
  {
   "property": "C242",
   "status": "partial",
   "theorems": [
    "C242_graddiv_partial",
    "C242_graddiv_refuted"
   ],
   "note": "False as stated: in two dimensions the divergence is du_x/dx + du_y/dx, in three dimensions the option adds nothing (C242_graddiv_partial gives all three dimensions)."
  },
  {
   "property": "C243",
   "status": "proved",
   "theorems": [
    "C243_consistent"
   ],
   "note": "Includes grad-div as it is."
  },
  {
   "property": "C244",
   "status": "proved",
   "theorems": [
    "C244_boundary"
   ],
   "note": "All three dimensions."
  },
  {
   "property": "C245",
   "status": "proved",
   "theorems": [
    "C245_tau"
   ],
   "note": "Real arithmetic."
  },
  {
   "property": "C246",
   "status": "partial",
   "theorems": [
    "C246_pressure_partial",
    "C246_pressure_refuted"
   ],
   "note": "False as stated: heat flux and velocity flux are exchanged (registered as IQ+2 and IQ+3, read as IQ+3 and IQ+2). C246_pressure_partial gives the equation solved."
  },
  {
   "property": "C247",
   "status": "partial",
   "theorems": [
    "C247_mass_partial",
    "C247_mass_refuted"
   ],
   "note": "False as stated: the integral of rho RGas is computed with rho = p0/(RGas T) of the same temperature, so the pressure never changes (C247_mass_partial). Holds for the default density; a user-defined rho is not modelled."
  },
  {
   "property": "C248",
   "status": "proved",
   "theorems": [
    "C248_control",
    "C248_leapfrog"
   ],
   "note": "For a permittivity that varies in 3D see C91. Example block C90_block meets the hypotheses."
  },
  {
   "property": "C249",
   "status": "partial",
   "theorems": [
    "C249_absorbing_partial",
    "C249_absorbing_refuted"
   ],
   "note": "False as stated in 2D, where the loop has no body. Proved in 3D."
  },
  {
   "property": "C250",
   "status": "proved",
   "theorems": [
    "C250_faraday"
   ],
   "note": "Example C250_runs: can be assembled with the functions of the module."
  },
  {
   "property": "C251",
   "status": "partial",
   "theorems": [
    "C251_media_partial",
    "C251_missing",
    "C251_media_refuted"
   ],
   "note": "False as stated: functions invepsr_ab and mur_ab are read but epsr_ab and invmur_ab are defined, so assembling E always raises an error (C251_missing). Where the user also defines the names read with equal values, the equation holds if epsr_zy = epsr_yz, xir_yx = xir_yz and zetar_yx = zetar_yz, because those entries are read from the wrong place (C251_media_partial)."
  },
  {
   "property": "C252",
   "status": "proved",
   "theorems": [
    "C252_absorbing"
   ],
   "note": "Example C93_side meets the hypotheses."
  },
  {
   "property": "C253",
   "status": "partial",
   "theorems": [
    "C253_species_partial",
    "C253_species_refuted"
   ],
   "note": "False as stated: the block for E writes the rate of H and source_E into the rows of H; the rows of E stay empty. C and G are right. All three variants of the module assemble the same."
  },
  {
   "property": "C254",
   "status": "partial",
   "theorems": [
    "C254_poisson_partial",
    "C254_poisson_refuted"
   ],
   "note": "False as stated: the quadrature weights are left out; C254_poisson_partial gives the sum with weight one. The module cannot be selected from the input (physicsImporter does not know it)."
  },
  {
   "property": "C255",
   "status": "partial",
   "theorems": [
    "C255_sources_partial",
    "C255_sources_refuted"
   ],
   "note": "False as stated: source_H_H sets the sources of all four potentials rH, source_rH_X that of rG_X."
  },
  {
   "property": "C256",
   "status": "partial",
   "theorems": [
    "C256_potentials_partial",
    "C256_potentials_refuted"
   ],
   "note": "All signs and products are right in every dimension, but no quadrature weights are applied: the sum over the points is unweighted, so the element size and shape do not enter; refuted with one point of weight 1/2. Also: boundaryResidual never imposes anything, its boundary kind being fixed to 0."
  },
  {
   "property": "C257",
   "status": "partial",
   "theorems": [
    "C257_rates_partial",
    "C257_rates_refuted"
   ],
   "note": "The rates of all test functions are summed into the first 2(dim+1) rows of the element (the exact formula is the partial theorem); rows from the eighth on get none. Refuted with the scalar potential declared first."
  },
  {
   "property": "C258",
   "status": "proved",
   "theorems": [
    "C258_inverse",
    "C258_permittivity"
   ],
   "note": "For all settings and positions."
  },
  {
   "property": "C259",
   "status": "proved",
   "theorems": [
    "C259_trace",
    "C259_tags",
    "C259_nodal",
    "C259_unity"
   ],
   "note": "One point per batch, as Intrepid2 sets MaxNumPtsPerBasisEval; the side is otherwise decided from the first point of a batch."
  },
  {
   "property": "C260",
   "status": "partial",
   "theorems": [
    "C260_quad_partial",
    "C260_quad_refuted",
    "C260_tri_partial",
    "C260_tri_refuted"
   ],
   "note": "Holds when both elements run through the side in the same direction. Otherwise the orientation would be needed, and requireOrientation is fixed to false. For triangles no reordering would help: the linear functions on a side are (1-s)/2 and (1+s)/2 for s in [0,1], which a reversed side does not map to each other."
  },
  {
   "property": "C261",
   "status": "proved",
   "theorems": [
    "C261_trace",
    "C261_tags",
    "C261_unity"
   ],
   "note": "One point per batch, as for C259."
  },
  {
   "property": "C262",
   "status": "partial",
   "theorems": [
    "C262_faces_partial",
    "C262_faces_refuted"
   ],
   "note": "Holds in the y and z directions. In the x direction it fails for every order above 0: the loop for x=1 pairs index j with y and i with z, the loop for x=-1 the other way round, so the trace of one element is the transposed trace of its neighbour."
  },
  {
   "property": "C263",
   "status": "partial",
   "theorems": [
    "C263_nodes_partial",
    "C263_nodes_refuted"
   ],
   "note": "True on the face x=1; on the other five faces the function is one at the point with the two indices exchanged."
  },
  {
   "property": "C264",
   "status": "proved",
   "theorems": [
    "C264_trace",
    "C264_tags",
    "C264_unity"
   ],
   "note": "One point per batch, as for C259."
  },
  {
   "property": "C265",
   "status": "partial",
   "theorems": [
    "C265_nodes_partial",
    "C265_nodes_refuted"
   ],
   "note": "They are nodes, but the line basis lives on [-1,1] and is not mapped to the sides, which have the coordinate in [0,1]: the first point of every side is outside of the triangle for every order above 0."
  },
  {
   "property": "C266",
   "status": "proved",
   "theorems": [
    "C266_trace",
    "C266_tags",
    "C266_unity"
   ],
   "note": "Order 0 gives the indicator functions of the faces. See C267 for the use of the first two coordinates on every face."
  },
  {
   "property": "C267",
   "status": "partial",
   "theorems": [
    "C267_nodes_partial",
    "C267_nodes_refuted",
    "C267_flat_refuted"
   ],
   "note": "True on z=0 and x+y+z=1. On y=0 and x=0 the functions are evaluated at (x,y) instead of the face's own coordinates: all of them are constant in one direction of the face, and the third linear function of y=0 is zero on the whole face, which makes the face mass matrix singular."
  },
  {
   "property": "C268",
   "status": "proved",
   "theorems": [
    "C268_winner",
    "C268_block"
   ],
   "note": ""
  },
  {
   "property": "C269",
   "status": "partial",
   "theorems": [
    "C269_claimed_partial",
    "C269_refuted"
   ],
   "note": "False: with no point claimed the scan ends at the last model of the whole list; with three blocks, one model each and default usages (1, 0, 0), the second block gets the third block's model. Proved when some model of the block claims a point."
  },
  {
   "property": "C270",
   "status": "proved",
   "theorems": [
    "C270_initialize"
   ],
   "note": ""
  },
  {
   "property": "C271",
   "status": "partial",
   "theorems": [
    "C271_no_subgrid_partial",
    "C271_dispatch_refuted",
    "C271_active_refuted"
   ],
   "note": "False: the multiscale flag is set for every block as soon as the input has a Subgrid list, so such a block goes through the subgrid map with an index that was never set; that index can also activate a second model for a user of another block. Proved for inputs without a Subgrid list."
  },
  {
   "property": "C272",
   "status": "partial",
   "theorems": [
    "C272_update_partial",
    "C272_initial_refuted",
    "C272_balance_refuted"
   ],
   "note": "False: initialize assigns the cost instead of adding (only the last group counts), and both reductions write the minimum, so the factor printed is always zero. The sum in update is proved (offset by the initial one)."
  },
  {
   "property": "C273",
   "status": "proved",
   "theorems": [
    "C273_update",
    "C273_time"
   ],
   "note": "The linear solve is assumed exact."
  },
  {
   "property": "C274",
   "status": "proved",
   "theorems": [
    "C274_hierarchical",
    "C274_single"
   ],
   "note": "A subgrid solve is a function of the model (its own state is not modelled)."
  },
  {
   "property": "C275",
   "status": "proved",
   "theorems": [
    "C275_training",
    "C275_residual"
   ],
   "note": ""
  },
  {
   "property": "C276",
   "status": "partial",
   "theorems": [
    "C276_full_partial",
    "C276_refuted"
   ],
   "note": "False: input rows are written for the whole workset but read back by number of elements, so groups after a smaller one are judged by other groups' rows. Proved when every group fills the workset."
  },
  {
   "property": "C277",
   "status": "partial",
   "theorems": [
    "C277_trained_partial",
    "C277_pretrained_refuted"
   ],
   "note": "False with \"have ML models: true\": the training flag is never cleared and every evaluation past the first nonlinear iteration uses the last model. Proved when the models are trained in the run."
  },
  {
   "property": "C278",
   "status": "partial",
   "theorems": [
    "C278_construct_partial",
    "C278_block_refuted",
    "C278_type_refuted"
   ],
   "note": "False: an unknown macro block silently means block 0; the type Explicit FEM makes no model but overwrites block and usage of the model before it (out of range if it is the first). Proved for implemented types and existing block names."
  },
  {
   "property": "C279",
   "status": "proved",
   "theorems": [
    "C279_round_trip",
    "C279_missing"
   ],
   "note": ""
  },
  {
   "property": "C280",
   "status": "partial",
   "theorems": [
    "C280_short_partial",
    "C280_refuted"
   ],
   "note": "False: scalars are printed with precision(12), so the double next to 1 is read back as 1. Proved for doubles that twelve decimal digits represent."
  },
  {
   "property": "C281",
   "status": "partial",
   "theorems": [
    "C281_recovered_partial",
    "C281_refuted"
   ],
   "note": "False: the loop bound is the number of history terms of the multistep rule, so the later states are not read whenever the forward run wrote more. The states that are read are the right ones with the right times (proved)."
  },
  {
   "property": "C282",
   "status": "partial",
   "theorems": [
    "C282_final_partial",
    "C282_refuted",
    "C282_name_partial"
   ],
   "note": "False when all times are written: the first column, hence the initial condition, is recovered. Proved when only the final solution is written; the name read is right for extensions of four characters with the dot."
  },
  {
   "property": "C283",
   "status": "proved",
   "theorems": [
    "C283_order",
    "C283_reported"
   ],
   "note": ""
  },
  {
   "property": "C284",
   "status": "partial",
   "theorems": [
    "C284_tested_partial",
    "C284_refuted"
   ],
   "note": "False: restart in any mode only recovers the state, and the scalable DCI and Bayes solvers are empty. Proved for the other types."
  },
  {
   "property": "C285",
   "status": "proved",
   "theorems": [
    "C285_newton"
   ],
   "note": ""
  },
  {
   "property": "C286",
   "status": "partial",
   "theorems": [
    "C286_refuted"
   ],
   "note": "False: on u^3-2u+2 Newton cycles between 0 and 1 and the last iterate is returned without any status or message. C285 is the part that holds."
  },
  {
   "property": "C287",
   "status": "proved",
   "theorems": [
    "C287_exact"
   ],
   "note": ""
  },
  {
   "property": "C288",
   "status": "partial",
   "theorems": [
    "C288_same_operator_partial",
    "C288_stale_refuted",
    "C288_nonlinear_refuted"
   ],
   "note": "False: with 'use direct solver' the sensitivity is solved with the factorisation of the last Newton update, not of the operator at the solution: if the first residual is already zero that is the factorisation of an earlier solve (1/2 instead of 1), and for a nonlinear problem that of the iterate before (3 instead of 1). Proved when every operator is the one factored before."
  },
  {
   "property": "C289",
   "status": "partial",
   "theorems": [
    "C289_refuted"
   ],
   "note": "False: only the derivative of the latest earlier step is saved; those of the others stay zero. Three steps of u = u_{n-1} + lambda: solution 4/3 lambda, derivative 1. One-step histories are C287."
  },
  {
   "property": "C290",
   "status": "proved",
   "theorems": [
    "C290_repeat"
   ],
   "note": ""
  },
  {
   "property": "C291",
   "status": "partial",
   "theorems": [
    "C291_refuted"
   ],
   "note": "False: every visit shifts the history of earlier steps, also when the coarse time has not advanced; a second identical solve gives 4 instead of 2. One-step histories are C290."
  },
  {
   "property": "C292",
   "status": "proved",
   "theorems": [
    "C292_interpolation",
    "C292_times"
   ],
   "note": ""
  },
  {
   "property": "C293",
   "status": "partial",
   "theorems": [
    "C293_refuted"
   ],
   "note": "False: with three or more earlier steps nothing is computed and zeros are seen; after a change of the step the earlier value is placed at the wrong time (t is seen as 5/8 at 1/2). C292 is the part that holds."
  },
  {
   "property": "C294",
   "status": "partial",
   "theorems": [
    "C294_step_partial",
    "C294_steps_partial",
    "C294_refuted"
   ],
   "note": "Proved for single-stage integrators whose stage is at the end (backward Euler, BDF). False for others: after an accepted step of the implicit midpoint rule the subgrid problem is at the middle; at the second of two stages the coarse values of the beginning of the step are taken for those of the first stage."
  },
  {
   "property": "C295",
   "status": "partial",
   "theorems": [
    "C295_synchronous_partial",
    "C295_refuted"
   ],
   "note": "Proved with synchronous time stepping. False without: the end of the stage advances the subgrid problem although the step is then rejected, and the retry integrates it backwards from the end of the rejected step."
  },
  {
   "property": "C296",
   "status": "proved",
   "theorems": [
    "C296_flux"
   ],
   "note": ""
  },
  {
   "property": "C297",
   "status": "partial",
   "theorems": [
    "C297_average_partial",
    "C297_refuted"
   ],
   "note": "False: every local flux is computed with the coarse values and time of the end of the step (1 instead of 3/4). Proved for fluxes that depend on the subgrid solution only."
  },
  {
   "property": "C298",
   "status": "proved",
   "theorems": [
    "C298_written_values_are_the_elements_own"
   ],
   "note": "Solution and parameter fields, with and without the basis at the nodes."
  },
  {
   "property": "C299",
   "status": "proved",
   "theorems": [
    "C299_cell_averages_are_means"
   ],
   "note": ""
  },
  {
   "property": "C300",
   "status": "proved",
   "theorems": [
    "C300_cell_fields_use_the_elements_own_values"
   ],
   "note": ""
  },
  {
   "property": "C301",
   "status": "partial",
   "theorems": [
    "C301_one_group_partial",
    "C301_cell_fields_use_own_values_of_all_sets_refuted"
   ],
   "note": "False with several groups: only set 0 is gathered, and derived quantities do not gather the parameters; the last group's values are used for all. True with one group per block."
  },
  {
   "property": "C302",
   "status": "partial",
   "theorems": [
    "C302_reductions_partial",
    "C302_reductions_refuted"
   ],
   "note": "The scan starts from 0: max is right if some value is nonnegative, min if some value is nonpositive; otherwise 0 is written."
  },
  {
   "property": "C303",
   "status": "partial",
   "theorems": [
    "C303_parameters_written_partial",
    "C303_parameters_written_refuted"
   ],
   "note": "The test for HCURL reads the type at the number of the parameter instead of the number of its basis: an HCURL parameter whose two numbers differ is not written."
  },
  {
   "property": "C304",
   "status": "partial",
   "theorems": [
    "C304_written_fields_are_declared_partial",
    "C304_written_fields_are_declared_refuted"
   ],
   "note": "True without extra nodal fields or outside UQ. Extra nodal fields are written without the suffix of the sample under which they were declared."
  },
  {
   "property": "C305",
   "status": "partial",
   "theorems": [
    "C305_extra_nodal_fields_refuted"
   ],
   "note": "Zeros are written whatever the function; true only of the zero function."
  },
  {
   "property": "C306",
   "status": "partial",
   "theorems": [
    "C306_movie_partial",
    "C306_movie_refuted"
   ],
   "note": "The owned vector is read with the rows of the overlapped one: right when every row is owned, out of bounds at a ghost."
  },
  {
   "property": "C307",
   "status": "proved",
   "theorems": [
    "C307_lattice_seeds",
    "C307_own_draws"
   ],
   "note": ""
  },
  {
   "property": "C308",
   "status": "proved",
   "theorems": [
    "C308_well_spaced_seeds"
   ],
   "note": "Host build."
  },
  {
   "property": "C309",
   "status": "proved",
   "theorems": [
    "C309_rotations_follow_the_seeds"
   ],
   "note": "Elements whose seed was recorded."
  },
  {
   "property": "C310",
   "status": "partial",
   "theorems": [
    "C310_grains_keep_own_rotations_partial",
    "C310_grains_keep_own_rotations_refuted"
   ],
   "note": "True of volume elements with at most 100 seeds. The recorded seed is taken modulo 100, so grains 3 and 103 share a rotation; boundary elements have no recorded seed and their read is out of bounds."
  },
  {
   "property": "C311",
   "status": "proved",
   "theorems": [
    "C311_combined_mesh_is_the_union"
   ],
   "note": ""
  },
  {
   "property": "C312",
   "status": "partial",
   "theorems": [
    "C312_several_patches_partial",
    "C312_several_patches_refuted"
   ],
   "note": "The offset of a patch counts the elements before it instead of the nodes: right when every patch has as many elements as nodes."
  },
  {
   "property": "C313",
   "status": "proved",
   "theorems": [
    "C313_reverse"
   ],
   "note": "Times are real numbers; one set, one stage."
  },
  {
   "property": "C314",
   "status": "partial",
   "theorems": [
    "C314_partial",
    "C314_forward",
    "C314_refuted"
   ],
   "note": "Parameters, times and solutions are right after cuts, proved; the step size is the one the forward run ended with, refuted by a run with one cut."
  },
  {
   "property": "C315",
   "status": "partial",
   "theorems": [
    "C315_partial",
    "C315_refuted"
   ],
   "note": "Right for every write frequency if the recording window contains the run and no step was cut; the window is not looked at by the adjoint, refuted."
  },
  {
   "property": "C316",
   "status": "partial",
   "theorems": [
    "C316_partial",
    "C316_refuted"
   ],
   "note": "The state is right, proved; the sensor data are looked up with the time at the beginning of the step and the write frequency is ignored, refuted."
  },
  {
   "property": "C317",
   "status": "partial",
   "theorems": [
    "C317_refuted"
   ],
   "note": "The time and the step number are exchanged in the call, so the time is always 0 (right for the default initial time); refuted for initial time 1."
  },
  {
   "property": "C318",
   "status": "proved",
   "theorems": [
    "C318_system",
    "C318_none",
    "C318_preconditioner",
    "C318_symbolic"
   ],
   "note": "The libraries that solve are not modelled, only what they are given. The hypothesis of a common pattern holds for the matrices of one context (one graph per set)."
  },
  {
   "property": "C319",
   "status": "proved",
   "theorems": [
    "C319_sensor",
    "C319_owner",
    "C319_integrated"
   ],
   "note": ""
  },
  {
   "property": "C320",
   "status": "partial",
   "theorems": [
    "C320_partial",
    "C320_refuted"
   ],
   "note": "Refuted: the sizes are stored per collected objective but read per objective, so with any control objective an entry out of range is read."
  },
  {
   "property": "C321",
   "status": "partial",
   "theorems": [
    "C321_partial",
    "C321_refuted"
   ],
   "note": "Refuted: the 2-norm of the products w u u is taken, which grows with the square of the solution."
  },
  {
   "property": "C322",
   "status": "partial",
   "theorems": [
    "C322_partial",
    "C322_refuted"
   ],
   "note": "Holds if the last evaluation was at the returned point; refuted for a run that ends with a rejected trial: the optimum is never passed back to the parameter manager."
  },
  {
   "property": "C323",
   "status": "proved",
   "theorems": [
    "C323_points",
    "C323_exact",
    "C323_users"
   ],
   "note": ""
  },
  {
   "property": "C324",
   "status": "proved",
   "theorems": [
    "C324_simple"
   ],
   "note": ""
  },
  {
   "property": "C325",
   "status": "partial",
   "theorems": [
    "C325_partial",
    "C325_refuted"
   ],
   "note": "Holds with both databases on a general mesh or a two-dimensional simple mesh; refuted for use ip database without use basis database and for a three-dimensional simple mesh, where no index is built."
  },
  {
   "property": "C326",
   "status": "partial",
   "theorems": [
    "C326_partial",
    "C326_refuted"
   ],
   "note": "Values are those of the representative; refuted for gradients: they are allocated but never filled, so every normal derivative on the boundary is zero."
  },
  {
   "property": "C327",
   "status": "proved",
   "theorems": [
    "C327_own",
    "C327_no_clash",
    "C327_fluxes"
   ],
   "note": "C327_no_clash: the modules' own names never clash for distinct modules."
  },
  {
   "property": "C328",
   "status": "partial",
   "theorems": [
    "C328_named_partial",
    "C328_named_refuted"
   ],
   "note": "False as stated: the integrand is registered under the quantity's name and the first registration counts, so a name also used by a module reports the module's integral."
  },
  {
   "property": "C329",
   "status": "partial",
   "theorems": [
    "C329_carried_partial",
    "C329_carried_refuted"
   ],
   "note": "False as stated: each step begins by copying the parameters from the table of input values, so the pressure computed is dropped (and the parameters used with derivatives never receive it). C329_carried_partial gives the pressure every step works with."
  },
  {
   "property": "C330",
   "status": "partial",
   "theorems": [
    "C330_domain_partial",
    "C330_domain_refuted"
   ],
   "note": "False as stated: each block overwrites the shared parameter with the ratio of its own integrals, so the last block's remains."
  },
  {
   "property": "C331",
   "status": "proved",
   "theorems": [
    "C331_quads",
    "C331_hexes"
   ],
   "note": "reference coordinates over R; the tolerance condition is a hypothesis"
  },
  {
   "property": "C332",
   "status": "proved",
   "theorems": [
    "C332_unknowns",
    "C332_elements",
    "C332_coarse"
   ],
   "note": ""
  },
  {
   "property": "C333",
   "status": "partial",
   "theorems": [
    "C333_larger_partial",
    "C333_larger_refuted"
   ],
   "note": "False: a larger later set reads past the end of the first set's unknowns; elements inside the first set's size are right."
  },
  {
   "property": "C334",
   "status": "proved",
   "theorems": [
    "C334_first"
   ],
   "note": "assumes the map to the reference element inverts the bilinear map on the reference square"
  },
  {
   "property": "C335",
   "status": "partial",
   "theorems": [
    "C335_later_partial",
    "C335_later_refuted"
   ],
   "note": "False: later sets share the table of the first set, made with the orientations of the first set's elements; right where the orientations agree and the set is no larger."
  },
  {
   "property": "C336",
   "status": "partial",
   "theorems": [
    "C336_mixed_partial",
    "C336_mixed_refuted"
   ],
   "note": "False: the groups are assumed to have the same cells of every coarse element; divides by zero when the first element is not on the boundary, takes a wrong orientation when a middle one is not. Right when all have the same conditions."
  },
  {
   "property": "C337",
   "status": "proved",
   "theorems": [
    "C337_field_values",
    "C337_groups"
   ],
   "note": "Unknowns of different parameters are assumed distinct and a process's overlapped unknowns to be those of its elements."
  },
  {
   "property": "C338",
   "status": "partial",
   "theorems": [
    "C338_stochastic_partial",
    "C338_stochastic_refuted",
    "C338_custom_refuted"
   ],
   "note": "True for one field parameter on one process. With two, the unknowns of the second are sampled as the first; shared unknowns are counted on each process; a custom guess starts from zero, outside of the bounds if these are positive."
  },
  {
   "property": "C339",
   "status": "proved",
   "theorems": [
    "C339_active_bounds"
   ],
   "note": "Lines over 99 characters are not modelled."
  },
  {
   "property": "C340",
   "status": "partial",
   "theorems": [
    "C340_nofile_partial",
    "C340_nofile_refuted"
   ],
   "note": "The number of bounds always matches the number of active values, so other parameters are not disturbed. The parameter itself gets the bounds zero and zero, and is moved to zero."
  },
  {
   "property": "C341",
   "status": "partial",
   "theorems": [
    "C341_lines_partial",
    "C341_lines_refuted",
    "C341_one_number_refuted"
   ],
   "note": "A file with too few lines bounds the first components. A line with one number takes the upper bound of the line before; a line without numbers repeats the bounds of the line before for its component and shifts the rest; a line past the last component is written outside of the vectors."
  },
  {
   "property": "C342",
   "status": "partial",
   "theorems": [
    "C342_bounded_partial",
    "C342_bounded_refuted"
   ],
   "note": "True with field parameters and no dynamic parameter. Without field parameters the bounds vector is built from a null pointer; with a dynamic parameter the second step reads past the single bounds vector. The projection of the optimization library is modelled as max then min through the code's applyBinary."
  },
  {
   "property": "C343",
   "status": "proved",
   "theorems": [
    "C343_weight",
    "C343_definite",
    "C343_dual"
   ],
   "note": "An element has each unknown of a parameter once. One process; contributions of processes are added."
  },
  {
   "property": "C344",
   "status": "partial",
   "theorems": [
    "C344_l2_partial",
    "C344_l2_refuted"
   ],
   "note": "True with lumped mass against constants when local masses have no negative entries. The default uses the diagonal of the mass matrix: two constants on one element give half of the integral. With lumping, negative entries count with their absolute value only when the solver can read the assembly's memory."
  },
  {
   "property": "C345",
   "status": "proved",
   "theorems": [
    "C345_entries",
    "C345_nonnegative"
   ],
   "note": "Offsets of variables are distinct. Variables of face bases store no mass. One-dimensional rules are an argument."
  },
  {
   "property": "C346",
   "status": "proved",
   "theorems": [
    "C346_box"
   ],
   "note": "The exact matrix is computed with Simpson's rule, exact for products of two linear functions. That the library's rule of degree one has the two end points is a hypothesis."
  },
  {
   "property": "C347",
   "status": "partial",
   "theorems": [
    "C347_sparse_partial",
    "C347_sparse_refuted"
   ],
   "note": "True on hexahedra with constant Jacobian. In two dimensions the rule is a null pointer that is used at once; on tetrahedra the rule of the cube is used, which gives 48 times the volume."
  },
  {
   "property": "C348",
   "status": "proved",
   "theorems": [
    "C348_sums",
    "C348_fresh"
   ],
   "note": "Fluxes and weights are functions of the local solution. Which solution is in use and which sides occur are C349 and C350."
  },
  {
   "property": "C349",
   "status": "partial",
   "theorems": [
    "C349_current_partial",
    "C349_current_refuted"
   ],
   "note": "True when every boundary group keeps its own copy of the recorded solution. The function never gathers: groups that share the buffer of their block, the default, all use the data of the group gathered last."
  },
  {
   "property": "C350",
   "status": "partial",
   "theorems": [
    "C350_sides_partial",
    "C350_sides_refuted"
   ],
   "note": "A side counts exactly when its name is a piece of the text. The default text \"all\" is searched for the side name, so usual names give zero; \"rightwall\" also counts the side \"right\"."
  },
  {
   "property": "C351",
   "status": "proved",
   "theorems": [
    "C351_real",
    "C351_symmetric",
    "C351_even_part"
   ],
   "note": "Exact arithmetic; the transform of the FFT library is its definition."
  },
  {
   "property": "C352",
   "status": "partial",
   "theorems": [
    "C352_history_partial",
    "C352_history_refuted"
   ],
   "note": "True for histories equal to their reversal in time. Only the real part is kept: a history and its reversal give the same output, and a sine wave of any frequency gives zero at all frequencies."
  },
  {
   "property": "C353",
   "status": "proved",
   "theorems": [
    "C353_sums",
    "C353_mean"
   ],
   "note": "Vectors of all processes have equal sizes. Exact arithmetic. The distribution of samples is that of C38."
  },
  {
   "property": "C354",
   "status": "partial",
   "theorems": [
    "C354_dynamic_partial",
    "C354_dynamic_refuted"
   ],
   "note": "The first time step is summed; all others keep what the output held before the call."
  },
  {
   "property": "C355",
   "status": "proved",
   "theorems": [
    "C355_setup",
    "C355_orientation"
   ],
   "note": "No phase space."
  },
  {
   "property": "C356",
   "status": "partial",
   "theorems": [
    "C356_purge_partial",
    "C356_purge_refuted"
   ],
   "note": "Proved exactly when it holds: for an optimization movie without output of the solution and fully explicit without matrices; otherwise the setup of the matrices or the output reads lists already freed, or a null mesh"
  },
  {
   "property": "C357",
   "status": "proved",
   "theorems": [
    "C357_unshared",
    "C357_one_process"
   ],
   "note": "The residual is given as the contributions in the copies; one physics set and one column."
  },
  {
   "property": "C358",
   "status": "partial",
   "theorems": [
    "C358_copies_partial",
    "C358_refuted"
   ],
   "note": "Proved: each unknown is weighted with its adjoint value times the number of its copies. Refuted: two processes sharing two of three unknowns give 9 for 5."
  },
  {
   "property": "C359",
   "status": "proved",
   "theorems": [
    "C359_fields",
    "C359_handed",
    "C359_own_text",
    "C359_cell_text",
    "C359_independent"
   ],
   "note": "Functions registered before setup are left out; true solutions are a parameter."
  },
  {
   "property": "C360",
   "status": "partial",
   "theorems": [
    "C360_point_partial",
    "C360_shared_partial",
    "C360_ignored_refuted",
    "C360_clash_refuted"
   ],
   "note": "Proved: extra fields at points, and that the shared weights hold on every block. Refuted for responses, weights and targets of a block's section, and for extra fields at integration points."
  },
  {
   "property": "C361",
   "status": "proved",
   "theorems": [
    "C361_all",
    "C361_number"
   ],
   "note": "One process; the fields of the file are given."
  },
  {
   "property": "C362",
   "status": "partial",
   "theorems": [
    "C362_first_elements_partial",
    "C362_groups_refuted",
    "C362_block_refuted",
    "C362_same_data_refuted"
   ],
   "note": "Proved: the sensors imported are those of as many elements as there are groups. Refuted for groups of two elements, for the second block, and for the data of two sensors of one element."
  },
  {
   "property": "C363",
   "status": "proved",
   "theorems": [
    "C363_no_reuse",
    "C363_reuse"
   ],
   "note": "A matrix is its value; the number of previous steps does not change in a run."
  },
  {
   "property": "C364",
   "status": "partial",
   "theorems": [
    "C364_one_set_partial",
    "C364_zero_refuted",
    "C364_past_end_refuted"
   ],
   "note": "Proved for one set. Refuted for two sets: zeros with two previous steps and reuse, a read past the end with one."
  }
 ]
}