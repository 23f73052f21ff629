# Formal model of MrHyDE in Rocq (Coq 8.16.1)

Everything below is about a hand-written Gallina model of the C++ in `/repo`.
Nothing was compiled or run from `/repo`; the link between code and model is the
citation (file and lines) in the comment above each definition.

## 1. Layout

`rocq/theories/` (logical name `Verif`).  Per subsystem `X`:

* `X_Model.v` – executable definitions, one per C++ function, with citations and
  a note wherever the code is simplified;
* `X_Spec.v`  – (where needed) the independent specification;
* `X_Proofs.v` – lemmas;
* `X_Props.v` – the property theorems `Cnn_…`, with `Print Assumptions` beneath
  and `Example`s showing that the hypotheses can be met.

Names: `Cnn_name` is a property (or a part of it) proved as stated;
`Cnn_name_partial` holds under the extra hypotheses it displays;
`Cnn_name_refuted` is a proof, with a witness, that the property as stated in
`properties.jsonl` is false of the code as modelled.  A property is `proved` in
`MANIFEST.json` only if all its parts are; it is `partial` otherwise, and its
note says what is missing.

Undefined behaviour (out-of-bounds access, empty `back()`, division by zero in
index arithmetic) and C++ exceptions are distinct outcomes of the model
(`Outcome.v`, or `option`), not totalised away, in the files where they matter
to a property.

## 2. What is modelled

| files | source (under `/repo/src`) | properties |
|-------|----------------------------|------------|
| Interp, Flat, Number | tools/interpreter.cpp, functions/functionManager_create.hpp (decomposition of definitions, numerals) | C01–C06, C59 |
| FuncReg, FuncMan, FuncEval | functions/functionManager*.hpp: registration, type analysis, evaluation | C07–C10 |
| Storage | tools/solutionStorage.hpp | C11, C12 |
| Sparse, Mass, MassL2 | tools/sparse3DView.hpp, managers/assembly/assemblyManager_mass.hpp | C13–C15, C82 |
| Groups, Database | assemblyManager_groups.hpp, assemblyManager_database.hpp | C16–C18 |
| Assembly | assemblyManager_scatter.hpp, _residual/_jacobian, fixed rows | C19–C21 |
| AdType | choice of the derivative type and its worksets | C22, C50 |
| Tableau, Transient, Stab | managers/solver (time integration tables, stage formulas, time loop, explicit steps), tools/workset.cpp (stage values) | C23–C27, C29–C31, C53, C81 |
| Newton, PCG | solverManager_solvers.hpp (nonlinearSolver, PCG, matrixFreePCG) | C28, C32, C54, C55 |
| Mesh, MeshPar, Brick | tools/simplemeshmanager.hpp, meshInterface_construct.hpp, simple DOF managers | C33–C36, C51, C52 |
| Ranks | tools/split_mpi_communicators.cpp, optimization/MrHyDE_Sample_Set_Reader.hpp | C37, C38, C49 |
| OptVec, Params, Objective, Adjoint, Rerun | optimization/*.hpp, managers/parameter, solverManager_models.hpp, adjoint branch of the time loop | C39–C43, C56, C58 |
| Nearest | tools/data.cpp, microstructure seeds | C44, C45, C57 |
| Settings | interfaces/user/userInterface.hpp, parameter lists | C46–C48 |
| BCond, BProj, FluxBC | discretizationInterface_dof.hpp (setBCData), assemblyManager_constraints.hpp, physicsInterface_boundary_conditions.hpp | C60–C66 |
| Phys (Model, Spec, Proofs, Tac) | the data of a workset as a physics module sees it; the meaning of a weak form | all physics properties |
| Therm | physics/thermal.cpp, porous.cpp, cdr.cpp | C67–C70 |
| Flow, NS | physics/stokes.cpp, navierstokes.cpp | C71–C73, C80 |
| Elast | physics/linearelasticity.cpp | C74–C79 |
| Trans | physics/burgers.cpp, shallowwater.cpp, ode.cpp, levelSet.cpp | C83–C89 |
| Maxwell | physics/maxwell.cpp | C90–C93 |
| Fields | tools/workset.cpp, tools/fields.hpp (solution fields) | C94–C97 |
| PostObj, PostErr | managers/postprocess (objectives, their gradients, errors, integrated quantities) | C98–C107 |
| Darcy, KL | physics/porousMixed.cpp, porousMixedHybridized.cpp, porousWeakGalerkin.cpp, wells.hpp, tools/klexpansion.hpp | C108–C115 |
| HDG, Euler | physics/shallowwaterHybridized.cpp, euler.cpp | C116–C126 |
| Geom, Piola | interfaces/discretization (integration data, mapped bases, orientations), tools/Intrepid2_HDIV_AC_QUAD_I1 | C127–C138 |
| Subgrid | subgrid/subgridTools.cpp (inline meshes, side information, groups of sides) | C139–C147 |
| UQ | uq/uqManager.cpp (samples, statistics, density estimate, rejection); analysisManager_solve.hpp (UQSolve, DCISolve) | C148–C155 |
| Small | physics/cdr2.cpp, ellipticPrior.cpp, shallowice.cpp, kuramotoSivashinsky.cpp, hartmann.cpp, incompressibleSaturation.cpp, helmholtz.cpp | C156–C170 |
| Sensor | managers/postprocess/postprocessManager_sensors.hpp, sensor output of postprocessManager_util.hpp, tools/data.cpp (points and data files) | C171–C183 |
| Init | managers/assembly/assemblyManager_initial.hpp, getMass, getMassFace; solverManager_util.hpp (setInitial) | C184–C191 |
| Fire | physics/rothermal.cpp, tools/ExoReader.cpp (grid), levelSet.cpp with the fire model | C192–C200 |
| NeoH | physics/neohookean.cpp, elastodynamics.cpp | C201–C208 |
| Crystal | physics/CrystalElasticity.cpp (constants, lattice and rotated stiffness, stress; orientation data as given) | C209–C213 |
| Phase | physics/msphasefield.cpp, physics_test.cpp (scalar bases), phase_elliptic.cpp | C214–C218 |
| Setup | interfaces/physics (importPhysics, breakupList, getUniqueIndex, defineFunctions), physics/physicsImporter.cpp, bases of a block and of discretized parameters | C219–C228 |
| LinAlg | interfaces/linear_algebra (maps, graphs, exchange of vectors, reuse of matrices, options) | C229–C235 |
| Gather | managers/assembly/assemblyManager_gather.hpp, assemblyManager_jacres.hpp (group loops), tools/workset.cpp (evaluation of the gathered state) | C236–C240 |
| VDNS | physics/variableDensityNS.cpp | C241–C247 |
| Maxwell2 | physics/maxwell_control.cpp, maxwell_bianisotropic.cpp | C248–C252 |
| Kinetic | physics/vlasov_fokker_planck*.cpp, rosenbluth_potential.cpp | C253–C255 |
| MaxFP | src/physics/maxwells_fp.cpp (volumeResidual, coefficients) | C256–C258 |
| HFace | HFace_Model, HFace_Props: face bases on quadrilaterals, triangles, hexahedra, tetrahedra (tools/Intrepid2_HFACE_*) | C259–C267 |
| Multiscale manager | MSMan_Model.v, MSMan_Props.v | C268–C278 |
| Files and analysis dispatch | Files_Model.v, Files_Props.v | C279–C284 |
| Subgrid solver | SGSolve_Model.v, SGSolve_Props.v | C285–C297 |
| Vis | postprocessManager_exodus.hpp, postprocessManager_derived_quantities.hpp, meshInterface_construct.hpp (finalize), assemblyManager_util.hpp (averages) | C298–C306 |
| Micro | meshInterface_util.hpp (generateNewMicrostructure), assemblyManager_util.hpp (importNewMicrostructure), analysisManager_util.hpp (updateRotationData) | C307–C310 |
| CombMesh | subgridDtN.cpp (setupCombinedExodus), subgridMeshFactory.cpp | C311–C312 |
| AdjSched | solverManager_solvers.hpp (transientSolver), solverManager_models.hpp (adjointModel), postprocessManager_util.hpp (record), postprocessManager_objective_gradient.hpp (time arguments) | C313–C317 |
| LinSolve | linearAlgebraInterface_solvers.hpp (linearSolver), linearSolverContext.hpp (reset) | C318 |
| Responses, weighted norm, output of optimization | Respond_Model, Respond_Props | C319–C322 |
| Databases of integration points and side basis functions | IPDB_Model, IPDB_Props | C323–C326 |
| IQBook | IQBook_Model, IQBook_Props | C327–C330 |
| Sub2 | Sub2_Model, Sub2_Props | C331–C333 |
| MBasis | MBasis_Model, MBasis_Props | C334–C336 |
| Field parameters and bounds | DParam_Model, DParam_Props | C337–C342 |
| Parameter mass weights | PMass_Model, PMass_Props | C343–C344 |
| Stored local masses | SMass_Model.v, SMass_Props.v | C345–C347 |
| Flux responses | FluxResp_Model.v, FluxResp_Props.v | C348–C350 |
| Frequency output | FFT_Model.v, FFT_Props.v | C351–C352 |
| Batch sums | Batch_Model.v, Batch_Props.v | C353–C354 |
| Memory purge | Purge_* | C355–C356 |
| Dual-weighted residual | DWR_* | C357–C358 |
| Postprocess sections | PPBlock_* | C359–C360 |
| Sensors in the mesh file | MeshSens_* | C361–C362 |
| Previous-step matrices of the adjoint | PrevJac_* | C363–C364 |


## 3. What is not modelled

* Trilinos (Tpetra, Belos, Amesos2, MueLu, Intrepid2, Panzer, Sacado, ROL, Teuchos):
  where a property needs one of them the model states what the library is
  documented to do (Teuchos parameter lists in `Settings_Model.v`; Intrepid2 and
  Shards reference cells, tangents and basis transformations in `Geom_Model.v`;
  linear solves as a function returning the solution of the system; Sacado
  derivatives as derivatives).
* Floating-point rounding (except printing and reading of numbers in `Files_Model.v`): numbers are
  exact reals, rationals or integers.
  Machine integers are unbounded unless a file says otherwise.
* MPI and Kokkos: processes are list entries or arguments, exports and reductions
  are sums; parallel loops are sequential folds whose result is shown not to
  depend on the order where a property is about that.
* Input parsing by Yaml/XML readers; the file formats of Exodus and HDF5 (which fields are
  written, their names and values, are modelled in `Vis_Model.v`); timers and logging.
* STK meshes and mesh files other than the built-in simple meshes: a mesh is a
  list of elements, nodes and sides as the STK queries return them.
* The ROL drivers (the vectors, bounds, inner products and objectives given to ROL are modelled),
  Compadre's neighbour search, reduced-order models, `ExoReader`, and the use of
  data read back from Exodus files other than sensors (`MeshSens_Model.v`).
* Code that is commented out or never called (`src/physics/cns.cpp`,
  `computeRelativeDifference`, the second halves of the microstructure import), and the
  remaining files of `src/physics` not named in section 2.

Simplifications inside modelled functions (one element at a time, one
quadrature rule, allocation, timers and verbosity left out) are stated at the
definitions.

## 4. Trusted base

* The Coq 8.16.1 kernel (`coqc`; no native compilation, no plugins of our own).
* The reading of the C++ source: each definition cites the lines it renders.
* The axioms of Coq's standard library listed below, which enter through the
  real numbers `Reals` and Coquelicot.  No axioms of our own, no `Admitted`, no
  section-less `Variable` or `Hypothesis`, no switched-off checks, no functors.

What `Print Assumptions` lists, by theorem (generated from the build):

* closed under the global context (no axioms) (282 theorems):
  C01_expression_value, C01_expression_accepted, C01_name_reference, C02_blanks_partial, C02_blank_before_parenthesis_refuted, C02_blank_before_exponent_refuted, C03_accepted_is_nested_partial, C03_unbalanced_accepted_refuted, C04_numeral_value, C04_recognised, C04_scientific_in_product_refuted, C04_not_a_numeral_refuted, C05_unknown_name_rejected_partial, C05_unknown_function_refuted, C06_two_arguments_partial, C06_nested_call_refuted, C07_first_wins, C07_index_stable, C07_locations_independent, C08_circular, C08_storage_class, C08_names, flat_decompose_correct, flat_decompose_wf, C09_reductions_refuted, C10_storage_partial, C10_relabel_partial, C10_pointwise, C10_parameter_alias_refuted, C10_emean_storage_refuted, C11_index, C11_time_partial, C11_previous_partial, C11_last, C11_previous_of_zero_refuted, C11_extracted_alias_refuted, C11_gap_refuted, C12_time_partial, C12_negative_time_always, C12_negative_time_refuted, C16_sequential, C16_subgrid_partial, C16_subgrid_interior, C16_multiblock_refuted, C16_zero_refuted, C16_other_modes_refuted, C17_boundary_groups, C17_zero_refuted, C22_capacity, C22_smallest, C22_too_large_rejected, C33_edges, C34_round_trip, C34_ownership, C34_nondivisible_refuted, C35_edges, C36_rectangle, C36_brick, C37_consistent_partial, C37_valid_iff, C37_reset_refuted, C37_default, C37_main_ranks, C39_unary, C41_step, C41_history, C41_read, C41_round_trip, C41_round_trip_string, C41_seeds, C41_all_seeded, C41_bounds, C41_setup, C41_unknown_usage_refuted, C41_dynamic_refuted, C41_short_refuted, C41_named, C44_import, C44_microstructure, C44_blank_refuted, C46_block_settings, C46_unnamed, C46_refuted, C46_lists_replaced, C47_default_set, C47_named_set_partial, C47_compatible, C47_named_order_refuted, C48_effective, C48_main_kept, C48_accepts, C48_missing, C48_main_kept_refuted, C48_present_rejected, C48_aux_rejected, C50_worksets_partial, C50_explicit_partial, C50_fully_explicit_refuted, C52_owned_partial, C52_no_phase_refuted, C59_weak_comparison_partial, C59_weak_comparison_in_sum_refuted, C60_kind_partial, C60_none, C60_recorded, C60_two_kinds_refuted, C61_fixed, C61_once, C61_flag, C61_imposed, C62_text, C62_number_partial, C62_number_refuted, C62_flux_number_refuted, C62_integer_refuted, C62_all_boundaries_refuted, C62_component_refuted, C64_exchange, C64_exchange_once, C64_nodes_partial, C64_imposed_partial, C64_two_elements_refuted, C64_names_refuted, C64_unimposed_refuted, C66_scalar_partial, C66_scalar_refuted, C107_compared_partial, C107_compared_refuted, C116_order, C135_short_refuted, C136_interior_partial, C136_boundary_partial, C136_recomputed_partial, C136_boundary_refuted, C145_nodes, C145_disjoint, C146_sides, C146_groups, C146_only, C146_once, C147_quad_tri_refuted, C168_flux_refuted, C174_place, C175_numbers_refuted, C178_output_refuted, C179_partial, C179_name_refuted, C182_missing_refuted, C183_partial, C183_refuted, C191_partial, C191_sets_refuted, C191_type_refuted, C219_own_basis, C219_bases, C219_discontinuous, C219_continuous, C220_partial, C220_refuted, C221_partial, C221_refuted, C221_outside_refuted, C222_names, C222_import, C222_unambiguous, C223_partial, C223_refuted, C223_comma_refuted, C224_general, C224_own, C225_partial, C225_refuted, C226_formula, C226_number, C226_absent, C227_partial, C227_small_refuted, C227_integer_refuted, C228_partial, C228_refuted, C229_graph, C229_room, C229_columns, C230_numbering, C230_pairs, C231_partial, C231_refuted, C233_current, C233_first, C233_filled, C234_separate, C234_general, C234_entries, C234_sections, C235_partial, C235_krylov_refuted, C235_boundary_refuted, C235_own_refuted, C236_when, C255_sources_partial, C255_sources_refuted, C259_tags, C261_tags, C264_tags, C266_tags, C271_no_subgrid_partial, C273_update, C273_time, C274_single, C275_residual, C276_full_partial, C276_refuted, C277_trained_partial, C277_pretrained_refuted, C278_block_refuted, C281_refuted, C282_name_partial, C283_order, C283_reported, C284_tested_partial, C284_refuted, C303_parameters_written_partial, C303_parameters_written_refuted, C304_written_fields_are_declared_partial, C304_written_fields_are_declared_refuted, C306_movie_partial, C306_movie_refuted, C311_combined_mesh_is_the_union, C312_several_patches_partial, C312_several_patches_refuted, C318_system, C318_none, C318_preconditioner, C318_symbolic, C322_partial, C322_refuted, C327_no_clash, C327_fluxes, C329_carried_partial, C332_unknowns, C332_elements, C332_coarse, C333_larger_partial, C333_larger_refuted, C337_field_values, C337_groups, C338_stochastic_partial, C338_stochastic_refuted, C338_custom_refuted, C339_active_bounds, C340_nofile_partial, C340_nofile_refuted, C341_lines_partial, C341_lines_refuted, C341_one_number_refuted, C342_bounded_partial, C342_bounded_refuted, C350_sides_partial, C355_setup, C355_orientation, C356_purge_partial, C356_purge_refuted, C359_fields, C359_handed, C359_own_text, C359_cell_text, C359_independent, C360_point_partial, C360_shared_partial, C360_ignored_refuted, C360_clash_refuted, C361_all, C361_number, C362_first_elements_partial, C362_groups_refuted, C362_block_refuted, C362_same_data_refuted, C363_no_reuse, C363_reuse, C364_one_set_partial, C364_zero_refuted, C364_past_end_refuted

* `ClassicalDedekindReals.sig_forall_dec` (41 theorems):
  C39_binary, C39_extensional, C39_values, C44_nearest, C44_mesh_data, C44_rows, C56_multistep_refuted, C65_none, C65_ignored_refuted, C94_absent, C97_curl_found_partial, C107_curl_refuted, C170_fractional_refuted, C175_exodus_refuted, C176_partial, C181_points, C181_data, C181_count, C181_count, C182_blank_refuted, C182_short_refuted, C190_refuted, C213_serial_partial, C213_single_partial, C213_parallel_refuted, C232_replace, C270_initialize, C271_dispatch_refuted, C271_active_refuted, C278_construct_partial, C278_type_refuted, C295_synchronous_partial, C305_extra_nodal_fields_refuted, C320_refuted, C324_simple, C326_partial, C327_own, C328_named_partial, C336_mixed_partial, C348_fresh, C349_current_partial

* `ClassicalDedekindReals.sig_forall_dec`, `FunctionalExtensionality.functional_extensionality_dep` (497 theorems):
  C13_kept, C13_product_error, C13_exact, C13_size, C13_local_columns, C13_separate_memory_refuted, C14_matrix_free, C14_order, C14_database, C14_sparse_error, C14_sparse_exact, C14_sparse_matrix_refuted, C15_row_sums, C15_sparse_partial, C15_nonnegative_partial, C15_host_upper, C15_storage_refuted, C18_boundary, C19_residual_free, C19_residual_fixed, C19_jacobian_free, C19_jacobian_forward, C19_jacobian_fixed, C19_fixed_unchanged, C19_order, C19_partition, C19_unshared_refuted, C19_point_refuted, C19_other_set_refuted, C19_zero_rows_refuted, C20_adjoint, C21_transpose, C21_transpose_direct, C21_adjoint_solution, C21_fixed_columns_refuted, C23_step, C23_stages, C23_all_methods, C24_quadrature, C24_dirk33_root, C24_dirk33_partial, C24_dirk33_refuted, C24_leapfrog_refuted, C24_rk44, C24_ssprk33, C24_dirk22, C24_dirk12, C24_cn, C24_bwe, C24_fwe, C25_exact, C25_constant, C25_order_refuted, C26_terminates, C26_exit, C26_exact_partial, C26_overshoot_refuted, C26_negative_end_refuted, C26_cuts_refuted, C27_solution_kept, C27_retry_partial, C27_history_refuted, C28_terminates, C28_early_exit_partial, C28_never_fails, C28_backtracking, C28_backtrack_pass, C28_backtrack_run, C28_failure_reported_refuted, C28_ranks_refuted, C29_value, C29_constant_partial, C29_affine_partial, C30_constant_partial, C30_default_refuted, C31_step, C32_residual, C33_geometry, C33_nodes, C33_conforming, C34_matches_serial, C34_rank_check_refuted, C35_geometry, C35_nodes, C35_conforming, C38_samples_once, C38_default_weights, C39_laws, C39_dot, C39_dot_symmetric, C39_dot_bilinear, C39_dot_positive, C39_full_mass_refuted, C40_dual, C40_clone, C40_dual_refuted, C40_dual_norm_refuted, C40_clone_refuted, C44_microstructure_refuted, C49_complete_files_partial, C49_short_file_refuted, C51_rectangle, C51_rectangle_parallel, C51_brick_partial, C51_brick_refuted, C51_phase_refuted, C53_seeds, C54_linear_problem, C54_one_pass, C55_adjoint, C56_dirichlet, C56_gradient, C56_fixed_initial, C56_assembled, C56_initial_refuted, C56_unmasked_refuted, C58_history, C58_static_refuted, C58_cut_refuted, C58_bdf_refuted, C58_restart_refuted, C63_best_partial, C63_exact_partial, C63_hdiv_refuted, C63_unshared_refuted, C65_flux_partial, C67_heat_equation, C67_heat_balance, C67_dissipation, C68_boundary_terms, C68_consistent, C68_symmetric, C68_interface_balance, C68_adjoint_partial, C68_adjoint_refuted, C68_adjoint_interface_refuted, C69_mass_equation, C69_mass_balance, C69_boundary_terms, C69_interface_balance_partial, C69_interface_balance_refuted, C70_transport_equation, C70_balance, C71_stokes_equations, C71_energy, C72_traction, C74_stress, C74_equations, C74_balance, C74_rigid_motion, C74_energy, C74_reciprocity, C75_boundary_terms, C75_consistent, C75_reciprocity, C75_flux_balance, C74_stress, C77_biot_refuted, C77_thermal_refuted, C75_boundary_terms, C75_flux_balance, C78_mixed_refuted, C78_flux_refuted, C80_hydrostatic_partial, C80_hydrostatic_refuted, C81_solvable, C81_bwe_damps, C81_dirk33_damps, C81_dirk33_partial, C81_dirk33_refuted, C82_inner_product, C82_symmetric, C82_nonnegative, C82_definite, C83_viscosity, C84_outflow_partial, C84_outflow_refuted, C84_first_variable_refuted, C85_equations, C85_volume, C85_surface_slope, C85_lake, C86_sources_partial, C86_options_refuted, C87_equation, C87_solution, C90_faraday, C90_ampere, C90_only, C90_leapfrog, C90_energy, C90_selected, C91_permittivity_partial, C91_permittivity_refuted, C92_pointwise, C92_flux, C93_absorbing_partial, C93_absorbing_refuted, C94_volume, C95_names_partial, C95_names_refuted, C96_side, C97_divergence_partial, C97_divergence_refuted, C97_curl_refuted, C104_volume, C104_all, C105_sides_partial, C105_sides_refuted, C107_fields_partial, C108_velocity, C108_pressure, C108_only, C108_conserves, C108_symmetric, C108_energy, C108_flux, C109_side_partial, C109_side_refuted, C110_volume, C110_side, C110_face, C110_continuous, C110_energy, C110_consistent, C111_volume, C111_face, C111_side, C111_conserves, C111_constant, C111_continuous, C116_volume, C121_volume, C121_volume, C127_quad, C127_tri, C127_line, C133_circulation, C133_gradient, C134_boundary_partial, C134_faces_oriented_partial, C134_faces_refuted, C135_affine_partial, C137_span, C137_constants, C138_divergence_partial, C138_divergence_refuted, C138_dual_refuted, C138_conforming_refuted, C139_levels, C142_marks_partial, C142_refuted, C147_quad_tri_cover, C147_tri_quad_cover, C147_quad_tri_partial, C147_tri_quad_refuted, C150_rule, C150_largest_kept, C150_scale, C150_monotone, C152_mean, C152_mean_unique, C152_variance, C152_units, C152_probability, C152_order, C152_chebyshev, C153_defined, C154_accepted, C154_variance, C156_equation, C156_conservation, C156_energy, C157_equation, C157_symmetric, C157_positive, C158_equation, C158_conservation, C159_equation, C159_mean, C160_partial, C160_basis_refuted, C161_equation, C161_energy, C162_partial, C162_plane_refuted, C162_side_refuted, C167_side, C167_consistent, C168_partial, C168_refuted, C169_space_refuted, C167_side, C170_line_refuted, C171_sound, C171_complete, C171_box, C172_partial, C172_refuted, C173_owner, C173_none, C174_table, C174_partition, C175_partial, C175_outside_refuted, C175_quadrature_refuted, C176_refuted, C178_one_point_partial, C178_points_refuted, C178_directions_refuted, C178_reduce_refuted, C179_lost_refuted, C180_grid, C180_refused, C184_best, C184_mass, C185_partial, C185_blocks_refuted, C185_small_refuted, C186_constant, C187_best, C188_partial, C188_refuted, C189_nodal, C190_partial, C192_cell, C192_range, C192_outside, C192_distinct, C193_bilinear, C193_node, C193_between, C194_partial, C194_refuted, C199_axis, C199_grid, C200_partial, C200_refuted, C207_momentum, C207_definition, C207_power, C208_definition_refuted, C208_rows_partial, C209_turned, C209_objective, C210_plane_partial, C210_unsheared_partial, C210_symmetric_refuted, C211_stretch_partial, C211_shear_refuted, C211_mended_partial, C211_thermal_refuted, C212_cubic_partial, C212_constant_refuted, C212_parameter_refuted, C212_moduli_partial, C214_uniform_partial, C214_fields_refuted, C214_equation_refuted, C215_energy, C215_pure, C216_plane_partial, C216_line, C216_space, C216_dimension_refuted, C217_operators, C217_positive, C218_mass_partial, C218_index_refuted, C218_mass_refuted, C232_export, C232_import, C232_round_trip, C232_transpose, C236_stage, C237_values, C237_parameters, C238_adjoint, C239_determined_partial, C239_determined_refuted, C240_rates_partial, C240_rates_refuted, C244_boundary, C246_pressure_partial, C246_pressure_refuted, C247_mass_partial, C247_mass_refuted, C248_control, C248_leapfrog, C249_absorbing_partial, C249_absorbing_refuted, C252_absorbing, C253_species_partial, C253_species_refuted, C254_poisson_partial, C254_poisson_refuted, C256_potentials_partial, C256_potentials_refuted, C257_rates_partial, C257_rates_refuted, C258_inverse, C258_permittivity, C259_trace, C259_nodal, C259_unity, C260_quad_partial, C260_quad_refuted, C260_tri_partial, C260_tri_refuted, C261_trace, C261_unity, C262_faces_partial, C262_faces_refuted, C263_nodes_partial, C263_nodes_refuted, C264_trace, C264_unity, C265_nodes_partial, C265_nodes_refuted, C266_trace, C266_unity, C267_nodes_partial, C267_nodes_refuted, C267_flat_refuted, C268_winner, C268_block, C269_claimed_partial, C269_refuted, C272_update_partial, C272_initial_refuted, C272_balance_refuted, C281_recovered_partial, C285_newton, C286_refuted, C287_exact, C288_same_operator_partial, C288_stale_refuted, C288_nonlinear_refuted, C289_refuted, C290_repeat, C291_refuted, C292_interpolation, C292_times, C293_refuted, C294_step_partial, C294_steps_partial, C294_refuted, C295_refuted, C296_flux, C297_average_partial, C297_refuted, C298_written_values_are_the_elements_own, C299_cell_averages_are_means, C300_cell_fields_use_the_elements_own_values, C301_one_group_partial, C301_cell_fields_use_own_values_of_all_sets_refuted, C302_reductions_partial, C302_reductions_refuted, C307_lattice_seeds, C307_own_draws, C313_reverse, C314_partial, C314_forward, C314_refuted, C315_partial, C315_refuted, C316_partial, C316_refuted, C317_refuted, C326_refuted, C328_named_refuted, C329_carried_refuted, C330_domain_partial, C330_domain_refuted, C335_later_refuted, C336_mixed_refuted, C343_weight, C343_definite, C343_dual, C344_l2_partial, C344_l2_refuted, C345_entries, C345_nonnegative, C346_box, C347_sparse_partial, C347_sparse_refuted, C348_sums, C349_current_refuted, C350_sides_refuted, C353_sums, C353_mean, C354_dynamic_partial, C354_dynamic_refuted, C357_unshared, C357_one_process, C358_copies_partial, C358_refuted

* `ClassicalDedekindReals.sig_forall_dec`, `Classical_Prop.classic` (3 theorems):
  C319_sensor, C319_integrated, C320_partial

* `ClassicalDedekindReals.sig_forall_dec`, `ClassicalDedekindReals.sig_not_dec`, `FunctionalExtensionality.functional_extensionality_dep` (164 theorems):
  C18_volume_partial, C18_small_groups_exact, C18_small_groups_refuted, C23_custom, C24_names, C24_dirk23, C29_sums, C29_multistage_refuted, C42_in_order, C42_cache_kept, C42_second_sample_refuted, C42_unevaluated_refuted, C42_close_samples_refuted, C43_history, C43_after_value, C43_close_entries, C43_first_gradient_refuted, C44_distance_refuted, C45_grid1, C45_grid2, C45_grid3, C45_far_refuted, C57_rotation, C72_equations_partial, C72_third_component, C72_equations_refuted, C73_consistent_partial, C73_consistent_refuted, C73_hydrostatic, C73_tau, C76_von_mises, C76_hydrostatic, C79_magnitude_partial, C79_magnitude_refuted, C79_plane_stress_partial, C79_plane_strain_refuted, C81_implicit_stable, C83_equation, C83_conservation, C83_consistent, C83_energy, C88_equation, C88_total, C88_exact, C88_regularized, C88_tau, C89_defined_partial, C89_defined_refuted, C98_control, C98_discrete, C98_response, C98_sensors, C99_state, C100_regularization_partial, C100_output_partial, C100_regularization_refuted, C100_output_refuted, C101_regularization_partial, C101_regularization_refuted, C102_sensors_partial, C102_control_partial, C102_groups_refuted, C102_times_refuted, C103_scalar_partial, C103_scalar_refuted, C106_norm, C106_exact, C106_face, C112_data_partial, C112_data_refuted, C113_field_partial, C113_factor_partial, C113_field_refuted, C116_boundary, C116_consistent, C116_conservation, C120_slip, C121_boundary, C121_consistent, C121_conservation, C121_sound_speed, C121_consistent, C122_z_momentum_refuted, C126_slip, C128_length, C128_normal, C129_quad, C129_tri, C129_hex, C130_line, C131_faces_partial, C131_faces_1d_refuted, C133_flux, C135_general_refuted, C137_flux, C139_quads, C139_hexes, C139_area, C140_quads, C140_hexes, C140_quad_sides, C140_hex_sides, C141_partial, C141_refuted, C143_partial, C143_refuted, C144_quads, C144_hexes, C145_range, C148_responses, C148_prefix, C148_finite_difference, C148_draws, C148_user_samples, C149_partial, C149_more_samples_refuted, C149_file_refuted, C149_dynamic_refuted, C151_partial, C151_caller_refuted, C151_gaussian_refuted, C165_rows, C165_solution, C165_others, C166_partial, C166_refuted, C177_partial, C177_refuted, C177_constant_refuted, C195_none, C195_calm, C195_turned, C196_speed, C241_equations, C242_graddiv_partial, C242_graddiv_refuted, C243_consistent, C245_tau, C250_faraday, C251_media_partial, C251_missing, C251_media_refuted, C274_hierarchical, C275_training, C308_well_spaced_seeds, C309_rotations_follow_the_seeds, C310_grains_keep_own_rotations_partial, C310_grains_keep_own_rotations_refuted, C321_partial, C321_refuted, C323_points, C323_exact, C323_users, C325_partial, C325_refuted, C331_quads, C331_hexes, C334_first, C335_later_partial, C351_real, C351_symmetric, C351_even_part, C352_history_partial, C352_history_refuted

* `ClassicalDedekindReals.sig_forall_dec`, `Classical_Prop.classic`, `FunctionalExtensionality.functional_extensionality_dep` (5 theorems):
  C32_orthogonal, C32_energy, C32_optimal, C32_finite, C319_owner

* `ClassicalDedekindReals.sig_forall_dec`, `ClassicalDedekindReals.sig_not_dec`, `Classical_Prop.classic`, `FunctionalExtensionality.functional_extensionality_dep` (79 theorems):
  C01_real_value, C09_emax_partial, C09_emin_partial, C09_two_points, C09_emean_partial, C32_result, C114_eigen, C114_unit, C114_orthogonal, C114_slope, C115_wells_partial, C115_wells_refuted, C115_plane_refuted, C117_stabilized, C118_farfield, C119_right_end_partial, C119_left_end_refuted, C123_max_speed, C124_ordered_partial, C124_order_refuted, C124_1d_refuted, C125_ordered_partial, C125_order_refuted, C125_1d_refuted, C127_jacobian, C128_size, C132_gradient, C132_divergence, C137_divergence, C137_mapped_divergence, C153_positive, C153_order, C153_units, C153_one_dimension, C154_units, C154_some_accepted, C155_partial, C155_no_overlap_refuted, C155_constant_refuted, C155_dimension_refuted, C163_equation, C163_conservation, C164_partial, C164_refuted, C195_bounds, C195_wind, C197_optimum, C197_rate, C198_partial, C198_refuted, C201_energy, C201_rest, C201_linear, C201_objective, C202_equations, C202_balance, C202_virtual_work, C203_energy_partial, C203_energy_refuted, C203_rotation_refuted, C203_linear_refuted, C204_cauchy, C204_von_mises, C204_uniaxial, C205_boundary_terms, C205_only_displacements, C205_consistent, C205_flux, C206_flux_refuted, C206_magnitude_partial, C206_magnitude_refuted, C209_angles, C209_choice, C279_round_trip, C279_missing, C280_short_partial, C280_refuted, C282_final_partial, C282_refuted

## 5. Properties

| id | title | status | theorems |
|----|-------|--------|----------|
| C01 | Expression text evaluates with the usual algebra | proved | expression_value, expression_accepted, real_value, name_reference |
| C02 | Blanks in an expression do not change its meaning | partial | blanks_partial, blank_before_parenthesis_refuted, blank_before_exponent_refuted |
| C03 | Unbalanced parentheses are always rejected | partial | accepted_is_nested_partial, unbalanced_accepted_refuted |
| C04 | Number recognition and scientific notation | partial | numeral_value, recognised, scientific_in_product_refuted, not_a_numeral_refuted |
| C05 | Unknown function names are rejected | partial | unknown_name_rejected_partial, unknown_function_refuted |
| C06 | Two-argument functions accept arbitrary arguments | partial | two_arguments_partial, nested_call_refuted |
| C07 | Registering a function: first definition wins, locations are independent | proved | first_wins, index_stable, locations_independent |
| C08 | Circular definitions are always rejected, acyclic ones never | proved | circular, storage_class, names, decompose_correct, decompose_wf |
| C09 | Elementwise reductions emax, emin, emean | partial | emax_partial, emin_partial, two_points, emean_partial, reductions_refuted |
| C10 | Deriving a value does not depend on the storage class of operands | partial | storage_partial, relabel_partial, pointwise, parameter_alias_refuted, emean_storage_refuted |
| C11 | Stored states are read back as written | partial | index, time_partial, previous_partial, last, previous_of_zero_refuted, extracted_alias_refuted, gap_refuted |
| C12 | Extraction by time works for every time | partial | time_partial, negative_time_always, negative_time_refuted |
| C13 | Sparse compression of local matrices loses only negligible entries | partial | kept, product_error, exact, size, local_columns, separate_memory_refuted |
| C14 | Matrix-free mass application equals the assembled mass matrix | partial | matrix_free, order, database, sparse_error, sparse_exact, sparse_matrix_refuted |
| C15 | Lumped mass does not depend on the storage format | partial | row_sums, sparse_partial, nonnegative_partial, host_upper, storage_refuted |
| C16 | Element groups partition the elements of a block | partial | sequential, subgrid_partial, subgrid_interior, multiblock_refuted, zero_refuted, other_modes_refuted |
| C17 | Boundary groups cover each boundary side once | proved | boundary_groups, zero_refuted |
| C18 | Database compression is accurate and complete | partial | boundary, volume_partial, small_groups_exact, small_groups_refuted |
| C19 | Assembly is a schedule-independent sum and respects fixed rows | partial | residual_free, residual_fixed, jacobian_free, jacobian_forward, jacobian_fixed, fixed_unchanged, order, partition, unshared_refuted, point_refuted, other_set_refuted, zero_rows_refuted |
| C20 | Gather and scatter are adjoint | proved | adjoint |
| C21 | The adjoint Jacobian is the transpose of the forward Jacobian | proved | transpose, transpose_direct, adjoint_solution, fixed_columns_refuted |
| C22 | The automatic-differentiation type is always large enough | proved | capacity, smallest, too_large_rejected |
| C23 | Stage formulation is the Runge-Kutta method of the tableau | proved | step, stages, all_methods, custom |
| C24 | Built-in tableaux have their advertised order | partial | names, quadrature, dirk33_root, dirk33_partial, dirk33_refuted, leapfrog_refuted, rk44, ssprk33, dirk23, dirk22, dirk12, cn, bwe, fwe |
| C25 | BDF weights are exact on polynomials | partial | exact, constant, order_refuted |
| C26 | The time loop ends at the requested final time | partial | terminates, exit, exact_partial, overshoot_refuted, negative_end_refuted, cuts_refuted |
| C27 | A rejected time step leaves no trace | partial | solution_kept, retry_partial, history_refuted |
| C28 | Nonlinear solver outcome is faithful | partial | terminates, early_exit_partial, never_fails, backtracking, backtrack_pass, backtrack_run, failure_reported_refuted, ranks_refuted |
| C29 | Strong boundary values hold after a multi-stage step | partial | value, constant_partial, affine_partial, sums, multistage_refuted |
| C30 | A constant solution stays constant under BDF | partial | constant_partial, default_refuted |
| C31 | Explicit stepping with lumped mass is the explicit Runge-Kutta update | proved | step |
| C32 | Preconditioned conjugate gradients solves the system | proved | residual, orthogonal, energy, optimal, finite, result |
| C33 | Rectangle mesh connectivity is consistent | proved | geometry, nodes, conforming, edges |
| C34 | Distributed rectangle mesh: global numbering and ownership | partial | round_trip, ownership, matches_serial, nondivisible_refuted, rank_check_refuted |
| C35 | Brick mesh connectivity is consistent | proved | geometry, nodes, conforming, edges |
| C36 | Side sets are exactly the boundary | proved | rectangle, brick |
| C37 | Communicator splitting yields a consistent grid of ranks | partial | consistent_partial, valid_iff, reset_refuted, default, main_ranks |
| C38 | Samples are distributed exactly once | proved | samples_once, default_weights |
| C39 | Optimization vectors form an inner-product space | proved | binary, unary, extensional, laws, dot, dot_symmetric, dot_bilinear, dot_positive, full_mass_refuted, values |
| C40 | dual() and apply represent the same functional, clones keep the inner product | partial | dual, clone, dual_refuted, dual_norm_refuted, clone_refuted |
| C41 | Scalar parameters: what is set is what is read, and only that | partial | step, history, read, round_trip, round_trip_string, seeds, all_seeded, bounds, setup, unknown_usage_refuted, dynamic_refuted, short_refuted, named |
| C42 | Stochastic objective: the gradient uses the state of its own parameters | partial | in_order, cache_kept, second_sample_refuted, unevaluated_refuted, close_samples_refuted |
| C43 | Deterministic objective: the gradient uses the state of its own parameters | partial | history, after_value, close_entries, first_gradient_refuted |
| C44 | Nearest data point search returns a nearest point | partial | nearest, mesh_data, rows, import, microstructure, distance_refuted, microstructure_refuted, blank_refuted |
| C45 | Nearest grid point search agrees with the exhaustive search | partial | grid1, grid2, grid3, far_refuted |
| C46 | Block settings apply only to their block | partial | block_settings, unnamed, refuted, lists_replaced |
| C47 | Solver options fall back to the general solver settings | partial | default_set, named_set_partial, compatible, named_order_refuted |
| C48 | Input-file composition | partial | effective, main_kept, accepts, missing, main_kept_refuted, present_rejected, aux_rejected |
| C49 | Sample files are read as written | partial | complete_files_partial, short_file_refuted |
| C50 | The workset used on a block is the one made for that block | partial | worksets_partial, explicit_partial, fully_explicit_refuted |
| C51 | The built-in mesh covers the requested box | partial | rectangle, rectangle_parallel, brick_partial, brick_refuted, phase_refuted |
| C52 | Owned unknowns of a built-in mesh | partial | owned_partial, no_phase_refuted |
| C53 | Derivative seeds are exact | proved | seeds |
| C54 | A linear problem is solved by one linear solve | proved | linear_problem, one_pass |
| C55 | The adjoint solve does not depend on its starting vector | proved | adjoint |
| C56 | Transient adjoint gradient is the derivative of the objective | partial | dirichlet, gradient, fixed_initial, assembled, initial_refuted, multistep_refuted, unmasked_refuted |
| C57 | Microstructure seeds carry proper rotations | proved | rotation |
| C58 | An evaluation does not depend on earlier evaluations | partial | history, static_refuted, cut_refuted, bdf_refuted, restart_refuted |
| C59 | Weak comparisons count equality | partial | weak_comparison_partial, weak_comparison_in_sum_refuted |
| C60 | The kind of boundary condition on a side | partial | kind_partial, none, recorded, two_kinds_refuted |
| C61 | Fixed unknowns | proved | fixed, once, flag, imposed |
| C62 | Prescribed expressions | partial | text, number_partial, number_refuted, flux_number_refuted, integer_refuted, all_boundaries_refuted, component_refuted |
| C63 | Values imposed on Dirichlet sides | partial | best_partial, exact_partial, hdiv_refuted, unshared_refuted |
| C64 | Point conditions | partial | exchange, exchange_once, nodes_partial, imposed_partial, two_elements_refuted, names_refuted, unimposed_refuted |
| C65 | Flux conditions | partial | flux_partial, none, ignored_refuted |
| C66 | Constant Dirichlet data | partial | scalar_partial, scalar_refuted |
| C67 | The thermal module assembles the heat equation | proved | heat_equation, heat_balance, dissipation |
| C68 | Thermal boundary terms: sign, consistency, symmetry and conservation | partial | boundary_terms, consistent, symmetric, interface_balance, adjoint_partial, adjoint_refuted, adjoint_interface_refuted |
| C69 | The porous module assembles the single-phase pressure equation and a conservative interface flux | partial | mass_equation, mass_balance, boundary_terms, interface_balance_partial, interface_balance_refuted |
| C70 | The cdr module assembles the convection-diffusion-reaction equation | proved | transport_equation, balance |
| C71 | Stokes module assembles the Stokes equations | proved | stokes_equations, energy |
| C72 | Navier-Stokes module assembles momentum, continuity and traction | partial | equations_partial, third_component, equations_refuted, traction |
| C73 | Navier-Stokes stabilization is consistent | partial | consistent_partial, consistent_refuted, hydrostatic, tau |
| C74 | Linear elasticity assembles the equations of equilibrium | proved | stress, equations, balance, rigid_motion, energy, reciprocity |
| C75 | Linear elasticity boundary terms | proved | boundary_terms, consistent, reciprocity, flux_balance |
| C76 | Reported von Mises stress in three dimensions | proved | von_mises, hydrostatic |
| C77 | Thermal and pore pressure stress | partial | stress, biot_refuted, thermal_refuted |
| C78 | Sides with different conditions per component; flux on loaded sides | partial | boundary_terms, flux_balance, mixed_refuted, flux_refuted |
| C79 | Reported stresses in two dimensions and stress magnitude | partial | magnitude_partial, magnitude_refuted, plane_stress_partial, plane_strain_refuted |
| C80 | Stokes: fluid at rest | partial | hydrostatic_partial, hydrostatic_refuted |
| C81 | Implicit time integration is unconditionally stable | partial | implicit_stable, solvable, bwe_damps, dirk33_damps, dirk33_partial, dirk33_refuted |
| C82 | The mass operator is the weighted L2 inner product | proved | inner_product, symmetric, nonnegative, definite |
| C83 | Burgers equation | proved | equation, conservation, consistent, viscosity, energy |
| C84 | Outflow of the Burgers equation through Neumann sides | partial | outflow_partial, outflow_refuted, first_variable_refuted |
| C85 | Shallow water equations | proved | equations, volume, surface_slope, lake |
| C86 | Options of the shallow water module take effect | partial | sources_partial, options_refuted |
| C87 | Ordinary differential equations | proved | equation, solution |
| C88 | Level set equation | proved | equation, total, exact, regularized, tau |
| C89 | The level set residual is a number | partial | defined_partial, defined_refuted |
| C90 | Maxwell equations | proved | faraday, ampere, only, leapfrog, energy, selected |
| C91 | Maxwell equations with varying permittivity | partial | permittivity_partial, permittivity_refuted |
| C92 | Magnetic flux stays free of sources | proved | pointwise, flux |
| C93 | Absorbing sides of the Maxwell module | partial | absorbing_partial, absorbing_refuted |
| C94 | Solution fields follow the element loaded last | proved | volume, absent |
| C95 | Any variable name may be used | partial | names_partial, names_refuted |
| C96 | Solution fields on sides | proved | side |
| C97 | Divergence and curl on sides | partial | curl_found_partial, divergence_partial, divergence_refuted, curl_refuted |
| C98 | The reported objective is the stated functional, however the mesh is split | proved | control, discrete, response, sensors |
| C99 | The state gradient is the derivative of the reported objective | proved | state |
| C100 | Regularization and response output leave the functional as stated | partial | regularization_partial, output_partial, regularization_refuted, output_refuted |
| C101 | The penalty is weighted alike in value and gradient | partial | regularization_partial, regularization_refuted |
| C102 | The gradient with respect to a discretized parameter is the derivative of the reported objective | partial | sensors_partial, control_partial, groups_refuted, times_refuted |
| C103 | The gradient with respect to a scalar parameter is the derivative of the reported objective on every process | partial | scalar_partial, scalar_refuted |
| C104 | An integrated quantity is the integral, whoever holds the elements | proved | volume, all |
| C105 | A boundary quantity covers exactly the sides named | partial | sides_partial, sides_refuted |
| C106 | A reported error is the norm of the difference | proved | norm, exact, face |
| C107 | Every true solution given is compared with a field that exists, or refused | partial | fields_partial, compared_partial, curl_refuted, compared_refuted |
| C108 | Mixed Darcy equations | proved | velocity, pressure, only, conserves, symmetric, energy, flux |
| C109 | Pressure prescribed on a side of a mixed problem | partial | side_partial, side_refuted |
| C110 | Hybridized Darcy equations | proved | volume, side, face, continuous, energy, consistent |
| C111 | Weak Galerkin Darcy equations | proved | volume, face, side, conserves, constant, continuous |
| C112 | Permeability data mean the same in each form | partial | data_partial, data_refuted |
| C113 | Random permeability | partial | field_partial, factor_partial, field_refuted |
| C114 | Modes of the expansion | proved | eigen, unit, orthogonal, slope |
| C115 | Wells add to the source | partial | wells_partial, wells_refuted, plane_refuted |
| C116 | Hybridized shallow water: element equations | proved | order, volume, boundary, consistent, conservation |
| C117 | Hybridized shallow water: stabilization | proved | stabilized |
| C118 | Hybridized shallow water: far-field sides in two dimensions | proved | farfield |
| C119 | Hybridized shallow water: far-field ends in one dimension | partial | right_end_partial, left_end_refuted |
| C120 | Hybridized shallow water: slip sides | proved | slip |
| C121 | Hybridized Euler: element equations | proved | volume, boundary, consistent, conservation, sound_speed |
| C122 | Hybridized Euler in three dimensions: every momentum has its flux | partial | volume, consistent, z_momentum_refuted |
| C123 | Hybridized Euler: stabilization by the largest wave speed | proved | max_speed |
| C124 | Hybridized Euler: Roe stabilization | partial | ordered_partial, order_refuted, 1d_refuted |
| C125 | Hybridized Euler: far-field sides | partial | ordered_partial, order_refuted, 1d_refuted |
| C126 | Hybridized Euler: slip sides | proved | slip |
| C127 | Element measures | proved | jacobian, quad, tri, line |
| C128 | Side weights, normals and sizes in two dimensions | proved | length, size, normal |
| C129 | Discrete divergence theorem | proved | quad, tri, hex |
| C130 | Discrete divergence theorem in one dimension | proved | line |
| C131 | Interior faces carry the data of boundary sides | partial | faces_partial, faces_1d_refuted |
| C132 | Mapped bases: true derivatives | proved | gradient, divergence |
| C133 | Mapped bases: fluxes, circulations and directional derivatives | proved | flux, circulation, gradient |
| C134 | Gradients on boundary sides and interior faces | partial | boundary_partial, faces_oriented_partial, faces_refuted |
| C135 | Vector bases at the nodes | partial | affine_partial, general_refuted, short_refuted |
| C136 | Nodes and orientation of an element go together | partial | interior_partial, boundary_partial, recomputed_partial, boundary_refuted |
| C137 | Arbogast-Correa basis: the space | proved | divergence, mapped_divergence, span, flux, constants |
| C138 | Arbogast-Correa basis: purpose | partial | divergence_partial, divergence_refuted, dual_refuted, conforming_refuted |
| C139 | Refining a quadrilateral or hexahedral coarse element gives the uniform grid | proved | quads, hexes, levels, area |
| C140 | Sides of subgrid cells are attached to the coarse side they lie on | proved | quads, hexes, quad_sides, hex_sides |
| C141 | Refining a triangular coarse element gives correctly oriented and marked triangles | partial | partial, refuted |
| C142 | Refining a one-dimensional coarse element gives a mesh of the interval | partial | marks_partial, refuted |
| C143 | Refining a tetrahedral coarse element gives a mesh of the tetrahedron | partial | partial, refuted |
| C144 | Conditions of coarse sides reach the subgrid cells | proved | quads, hexes |
| C145 | Subgrid meshes of different coarse elements are disjoint and consistently numbered | proved | nodes, disjoint, range |
| C146 | Boundary groups of the subgrid contain every side with a condition once | proved | sides, groups, only, once |
| C147 | Subgrid cells of another shape than the coarse element get their side information | partial | quad_tri_cover, tri_quad_cover, quad_tri_partial, quad_tri_refuted, tri_quad_refuted |
| C148 | A sampling run evaluates the model at each requested sample, independently of the others | proved | responses, prefix, finite_difference, draws, user_samples |
| C149 | Sampling runs stay reproducible and well defined in every configuration | partial | partial, more_samples_refuted, file_refuted, dynamic_refuted |
| C150 | Rejection sampling keeps samples in proportion to their ratio | proved | rule, largest_kept, scale, monotone |
| C151 | The weighted sampling overload delivers samples and weights | partial | partial, caller_refuted, gaussian_refuted |
| C152 | Reported statistics are those of the sample | proved | mean, mean_unique, variance, units, probability, order, chebyshev |
| C153 | Kernel density estimates are densities of the data | proved | defined, positive, order, units, one_dimension |
| C154 | Data-consistent inversion does not depend on units and reports existing statistics | proved | units, accepted, variance, some_accepted |
| C155 | Data-consistent inversion reports a usable result for every run | partial | partial, no_overlap_refuted, constant_refuted, dimension_refuted |
| C156 | cdr2: convection, diffusion and reaction of c2 | proved | equation, conservation, energy |
| C157 | The elliptic prior is a symmetric positive operator | proved | equation, symmetric, positive |
| C158 | Shallow ice on lines and planes | proved | equation, conservation |
| C159 | Kuramoto-Sivashinsky with one basis | proved | equation, mean |
| C160 | Kuramoto-Sivashinsky with two bases | partial | partial, basis_refuted |
| C161 | Hartmann flow on a line | proved | equation, energy |
| C162 | Hartmann flow in the plane and its side conditions | partial | partial, plane_refuted, side_refuted |
| C163 | Saturation alone in its block | proved | equation, conservation |
| C164 | Saturation next to other variables | partial | partial, refuted |
| C165 | Helmholtz: the rows are the complex weak form | proved | rows, solution, others |
| C166 | Fractional Helmholtz | partial | partial, refuted |
| C167 | Helmholtz: Robin sides | proved | side, consistent |
| C168 | Functions these modules ask for have an effect | partial | partial, refuted, flux_refuted |
| C169 | Shallow ice in space | partial | space_refuted |
| C170 | Helmholtz: sides of lines, and fractional sides | partial | side, line_refuted, fractional_refuted |
| C171 | Sensors are located in an element that contains them | proved | sound, complete, box |
| C172 | Locating sensors works in one and two dimensions | partial | partial, refuted |
| C173 | One process owns each sensor | proved | owner, none |
| C174 | Sensor files hold the solution at the sensors | proved | place, table, partition |
| C175 | Every line of a sensor file describes a sensor | partial | partial, outside_refuted, quadrature_refuted, numbers_refuted, exodus_refuted |
| C176 | HDF5 sensor output equals the text output | partial | partial, refuted |
| C177 | The dft output is the discrete Fourier transform | partial | partial, refuted, constant_refuted |
| C178 | Transforms and far fields are written | partial | one_point_partial, output_refuted, points_refuted, directions_refuted, reduce_refuted |
| C179 | Sensor files per process | partial | partial, name_refuted, lost_refuted |
| C180 | Sensor grids | proved | grid, refused |
| C181 | Sensor files are read as written | proved | points, data, count |
| C182 | Incomplete sensor files are reported | partial | count, blank_refuted, short_refuted, missing_refuted |
| C183 | Bases at sensors for mixed discretizations | partial | partial, refuted |
| C184 | Projected initial data are the closest finite element function | proved | best, mass |
| C185 | Projection on any mesh | partial | partial, blocks_refuted, small_refuted |
| C186 | Lumped projection keeps constants | proved | constant |
| C187 | Projection on faces | proved | best |
| C188 | Lumped projection on faces | partial | partial, refuted |
| C189 | Interpolated initial data | proved | nodal |
| C190 | Interpolation with lower-order variables | partial | partial, refuted |
| C191 | Scalar initial data and initial types | partial | partial, sets_refuted, type_refuted |
| C192 | Cell of a point in the fire model | proved | cell, range, outside, distinct |
| C193 | Interpolation of nodal spread rates | proved | bilinear, node, between |
| C194 | Cell data of the fire model | partial | partial, refuted |
| C195 | Rate of spread | proved | bounds, none, calm, wind, turned |
| C196 | The front moves at the rate of spread | proved | speed |
| C197 | Reaction velocity | proved | optimum, rate |
| C198 | Moisture and the base rate | partial | partial, refuted |
| C199 | Grid of a mesh file | proved | axis, grid |
| C200 | Uneven grids are refused | partial | partial, refuted |
| C201 | Neo-Hookean stress is the derivative of the stored energy (1D, 3D) | proved | energy, rest, linear, objective |
| C202 | Neo-Hookean volume terms | proved | equations, balance, virtual_work |
| C203 | Neo-Hookean stress in two dimensions | partial | energy_partial, energy_refuted, rotation_refuted, linear_refuted |
| C204 | Reported Cauchy and von Mises stress (3D, 1D) | proved | cauchy, von_mises, uniaxial |
| C205 | Neo-Hookean boundary terms and flux | proved | boundary_terms, only_displacements, consistent, flux |
| C206 | Neo-Hookean flux on traction sides and stress magnitude | partial | flux_refuted, magnitude_partial, magnitude_refuted |
| C207 | Elastodynamics: momentum balance and power (1D, 2D) | proved | momentum, definition, power |
| C208 | Elastodynamics in three dimensions | partial | definition_refuted, rows_partial |
| C209 | Crystal stiffness turns with the crystal | proved | turned, angles, objective, choice |
| C210 | Crystal stress is symmetric and energetic | partial | plane_partial, unsheared_partial, symmetric_refuted |
| C211 | Crystal elasticity with E and nu only is isotropic | partial | stretch_partial, shear_refuted, mended_partial, thermal_refuted |
| C212 | The stiffness constants and parameters given are used | partial | cubic_partial, constant_refuted, parameter_refuted, moduli_partial |
| C213 | Each element is given its own orientation | partial | serial_partial, single_partial, parallel_refuted |
| C214 | The phase-field residual is the Allen-Cahn equation of each element | partial | uniform_partial, fields_refuted, equation_refuted |
| C215 | The phase-field reaction comes from an energy | proved | energy, pure |
| C216 | The phase field solves the same equation in every dimension | partial | plane_partial, line, space, dimension_refuted |
| C217 | The test module assembles the operator named | proved | operators, positive |
| C218 | The phase-space test module integrates over all phase elements | partial | mass_partial, index_refuted, mass_refuted |
| C219 | Every variable uses the basis of its own type and order | proved | own_basis, bases, discontinuous, continuous |
| C220 | Physics sets may use the same variable name | partial | partial, refuted |
| C221 | A discretized parameter uses its own basis on every block | partial | partial, refuted, outside_refuted |
| C222 | Lists of physics modules are read name by name, in order | proved | names, import, unambiguous |
| C223 | Unknown physics modules are reported | partial | partial, refuted, comma_refuted |
| C224 | Functions of a block: general ones, replaced by the block's | proved | general, own |
| C225 | Functions given for one block do not reach another | partial | partial, refuted |
| C226 | Initial values are those given | proved | formula, number, absent |
| C227 | Any number may be an initial value | partial | partial, small_refuted, integer_refuted |
| C228 | Mass and norm weights are those given | partial | partial, refuted |
| C229 | The matrix graph has every coupling and enough room | proved | graph, room, columns |
| C230 | Unknowns in phase space are numbered once each | proved | numbering, pairs |
| C231 | The graph couples the unknowns of phase space | partial | partial, refuted |
| C232 | Exchange between processes is consistent | proved | export, import, replace, round_trip, transpose |
| C233 | Which matrix a linear system is solved with | proved | current, first, filled |
| C234 | Each linear solver has its own options | proved | separate, general, entries, sections |
| C235 | Every solver option given has an effect | partial | partial, krylov_refuted, boundary_refuted, own_refuted |
| C236 | A time step's residual uses the group's own stage, history and earlier stage values | proved | stage, when |
| C237 | Other physics sets, steady sweeps and discretized parameters are evaluated from the vectors passed | proved | values, parameters |
| C238 | Adjoint data of a group are its own entries of the adjoint vectors | proved | adjoint |
| C239 | An assembly is determined by the vectors it is given | partial | determined_partial, determined_refuted |
| C240 | Every time derivative visible to the residual belongs to the current step | partial | rates_partial, rates_refuted |
| C241 | Variable-density flow assembles its weak momentum, energy and continuity equations | proved | equations |
| C242 | Grad-div stabilization of variable-density flow penalises the continuity residual | partial | graddiv_partial, graddiv_refuted |
| C243 | Streamline and pressure stabilization of variable-density flow are consistent | proved | consistent |
| C244 | Neumann data of variable-density flow enter as tractions and heat fluxes | proved | boundary |
| C245 | The stabilization time of variable-density flow is bounded by each of its time scales | proved | tau |
| C246 | The background pressure follows its balance with in- and outflow | partial | pressure_partial, pressure_refuted |
| C247 | A closed variable-density system keeps its mass | partial | mass_partial, mass_refuted |
| C248 | A control current enters Maxwell's equations as a magnetization | proved | control, leapfrog |
| C249 | Absorbing sides of the controlled Maxwell problem dissipate | partial | absorbing_partial, absorbing_refuted |
| C250 | Faraday's law in bianisotropic media | proved | faraday |
| C251 | Bianisotropic media use the tensors the user gives | partial | media_partial, missing, media_refuted |
| C252 | Absorbing sides of bianisotropic media | proved | absorbing |
| C253 | Every plasma species evolves under its own source | partial | species_partial, species_refuted |
| C254 | The collision potentials solve Poisson equations | partial | poisson_partial, poisson_refuted |
| C255 | Sources of the collision potentials are set by their own names | partial | sources_partial, sources_refuted |
| C256 | Potentials at a fixed frequency solve the complex weak form | partial | potentials_partial, potentials_refuted |
| C257 | The rates of the potentials enter their own rows | partial | rates_partial, rates_refuted |
| C258 | One medium in both equations | proved | inverse, permittivity |
| C259 | Face basis on quadrilaterals | proved | trace, tags, nodal, unity |
| C260 | Two elements see the same trace on a shared side | partial | quad_partial, quad_refuted, tri_partial, tri_refuted |
| C261 | Face basis on hexahedra | proved | trace, tags, unity |
| C262 | Two hexahedra see the same trace on a shared face | partial | faces_partial, faces_refuted |
| C263 | Reported points of the hexahedron's face functions | partial | nodes_partial, nodes_refuted |
| C264 | Face basis on triangles | proved | trace, tags, unity |
| C265 | Points of the triangle's face functions are in the triangle | partial | nodes_partial, nodes_refuted |
| C266 | Face basis on tetrahedra | proved | trace, tags, unity |
| C267 | Face functions of tetrahedra are a basis on every face | partial | nodes_partial, nodes_refuted, flat_refuted |
| C268 | Subgrid model voting picks the model most used in the group | proved | winner, block |
| C269 | A group is given a subgrid model of its own block | partial | claimed_partial, refuted |
| C270 | Initialisation makes every group active in exactly its model | proved | initialize |
| C271 | Blocks without a subgrid model keep their own physics | partial | no_subgrid_partial, dispatch_refuted, active_refuted |
| C272 | Reported multiscale cost and load balance | partial | update_partial, initial_refuted, balance_refuted |
| C273 | Changing subgrid models projects the previous solution | proved | update, time |
| C274 | Hierarchical selection stops at the first converged model | proved | hierarchical, single |
| C275 | Training data pair each input with the label of its element | proved | training, residual |
| C276 | Predicted model of a group comes from its own elements | partial | full_partial, refuted |
| C277 | Machine-learned selection is used once models exist | partial | trained_partial, pretrained_refuted |
| C278 | Each subgrid section makes the model it describes | partial | construct_partial, block_refuted, type_refuted |
| C279 | Optimised parameters survive a trip through files | proved | round_trip, missing |
| C280 | Parameter files are an exact checkpoint | partial | short_partial, refuted |
| C281 | An adjoint run recovers every forward state from its files | partial | recovered_partial, refuted |
| C282 | A restart from text files continues from the final solution | partial | final_partial, refuted, name_partial |
| C283 | Order of file input, solves and file output in an analysis | proved | order, reported |
| C284 | A requested analysis computes something | partial | tested_partial, refuted |
| C285 | A subgrid solve is Newton's method with a relative tolerance | proved | newton |
| C286 | A subgrid solve that returns has converged | partial | refuted |
| C287 | The derivative handed to the coarse problem is the derivative of the subgrid solution | proved | exact |
| C288 | The propagated derivative does not depend on the kind of linear solver | partial | same_operator_partial, stale_refuted, nonlinear_refuted |
| C289 | The propagated derivative is exact with multistep local integrators | partial | refuted |
| C290 | Repeating a subgrid solve repeats its result | proved | repeat |
| C291 | Repeating a subgrid solve repeats its result with multistep integrators | partial | refuted |
| C292 | The subgrid problem sees the coarse solution at the right times | proved | interpolation, times |
| C293 | The subgrid problem sees the coarse solution with any coarse integrator | partial | refuted |
| C294 | Every accepted coarse step advances the subgrid problems over that step | partial | step_partial, steps_partial, refuted |
| C295 | A rejected coarse step leaves no trace in the subgrid problems | partial | synchronous_partial, refuted |
| C296 | The flux handed to the coarse problem conserves the subgrid flux | proved | flux |
| C297 | The time-averaged flux is the average of the fluxes of the local steps | partial | average_partial, refuted |
| C298 | Every element in the output file carries its own values | proved | written_values_are_the_elements_own |
| C299 | Cell values of vector fields are weighted means | proved | cell_averages_are_means |
| C300 | Cell fields of the first set are computed from the element's own values | proved | cell_fields_use_the_elements_own_values |
| C301 | Cell fields of all sets and parameters are computed from the element's own values | partial | one_group_partial, cell_fields_use_own_values_of_all_sets_refuted |
| C302 | Max and min reductions | partial | reductions_partial, reductions_refuted |
| C303 | Discretized parameters of every type are written | partial | parameters_written_partial, parameters_written_refuted |
| C304 | Every written field was declared | partial | written_fields_are_declared_partial, written_fields_are_declared_refuted |
| C305 | Extra nodal fields hold their function | partial | extra_nodal_fields_refuted |
| C306 | The optimization movie shows the parameters of the element | partial | movie_partial, movie_refuted |
| C307 | Lattice microstructure seeds | proved | lattice_seeds, own_draws |
| C308 | Well spaced microstructure seeds | proved | well_spaced_seeds |
| C309 | New rotations follow the seeds of the elements | proved | rotations_follow_the_seeds |
| C310 | Grains keep their own rotations | partial | grains_keep_own_rotations_partial, grains_keep_own_rotations_refuted |
| C311 | The combined subgrid mesh is the union of the subgrid meshes | proved | combined_mesh_is_the_union |
| C312 | The subgrid mesh factory accepts several patches | partial | several_patches_partial, several_patches_refuted |
| C313 | The adjoint sweep undoes the steps of the forward run | proved | reverse |
| C314 | The adjoint uses the step sizes of the forward run also after rejected steps | partial | partial, forward, refuted |
| C315 | The objective is differentiated at the steps at which it was evaluated | partial | partial, refuted |
| C316 | Explicit parameter dependence is differentiated where the objective was evaluated | partial | partial, refuted |
| C317 | Steady sensitivities belong to the time of the value | partial | refuted |
| C318 | Every linear system is solved with its own matrix, whatever was solved before | proved | system, none, preconditioner, symbolic |
| C319 | The responses of a realization are complete and in a fixed order | proved | sensor, owner, integrated |
| C320 | Responses can be collected beside any other objective | partial | partial, refuted |
| C321 | The weighted norm is a norm | partial | partial, refuted |
| C322 | Output after an optimization belongs to the optimum | partial | partial, refuted |
| C323 | Integration points from the database are within its tolerance | proved | points, exact, users |
| C324 | The integration points of a two-dimensional simple mesh are exact | proved | simple |
| C325 | The database of integration points can be switched on by itself | partial | partial, refuted |
| C326 | The basis database changes no boundary term | partial | partial, refuted |
| C327 | A physics module reads its own integrals | proved | own, no_clash, fluxes |
| C328 | A user's integrated quantity is the integral of the user's integrand | partial | named_partial, named_refuted |
| C329 | The background pressure is carried from step to step | partial | carried_partial, carried_refuted |
| C330 | The background pressure is that of the whole domain | partial | domain_partial, domain_refuted |
| C331 | Each boundary group of a refined subgrid mesh covers one coarse side | proved | quads, hexes |
| C332 | Later sets of coarse elements reuse the right unknowns | proved | unknowns, elements, coarse |
| C333 | Sets of coarse elements may come in any size | partial | larger_partial, larger_refuted |
| C334 | Boundary cells of the first subgrid set see their own coarse functions | proved | first |
| C335 | Boundary cells of later subgrid sets see their own coarse functions | partial | later_partial, later_refuted |
| C336 | Coarse elements with different side conditions may share a set | partial | mixed_partial, mixed_refuted |
| C337 | Initial value and bounds of a field parameter reach each of its unknowns | proved | field_values, groups |
| C338 | Each stochastic field parameter is sampled with its own distribution | partial | stochastic_partial, stochastic_refuted, custom_refuted |
| C339 | Bounds files bound each active component in order | proved | active_bounds |
| C340 | An active parameter without a bounds file is not bounded | partial | nofile_partial, nofile_refuted |
| C341 | A bounds file may have blank lines or a wrong number of lines | partial | lines_partial, lines_refuted, one_number_refuted |
| C342 | Bounded optimization keeps all parameters within their bounds | partial | bounded_partial, bounded_refuted |
| C343 | The inner product of field parameters weighs each unknown by its basis function | proved | weight, definite, dual |
| C344 | The inner product of field parameters is the L2 product | partial | l2_partial, l2_refuted |
| C345 | Stored local masses are quadratures of products of basis functions | proved | entries, nonnegative |
| C346 | Sparsified edge masses of a box are the lumped exact masses | proved | box |
| C347 | The sparsifying mass quadrature works for edge elements on every mesh | partial | sparse_partial, sparse_refuted |
| C348 | Flux responses add up sides, times and processes, and start at zero for each run | proved | sums, fresh |
| C349 | A flux response is the flux of the recorded solution | partial | current_partial, current_refuted |
| C350 | A flux response counts exactly the sides it lists | partial | sides_partial, sides_refuted |
| C351 | Frequency output of a sensor is the cosine transform of its time history | proved | real, symmetric, even_part |
| C352 | Frequency output determines the time history | partial | history_partial, history_refuted |
| C353 | Sums over batches of samples give every process the full sum | proved | sums, mean |
| C354 | Sums over batches include every time step | partial | dynamic_partial, dynamic_refuted |
| C355 | Setup and output find all their data | proved | setup, orientation |
| C356 | The memory purge changes nothing but the memory used | partial | purge_partial, purge_refuted |
| C357 | Dual-weighted residual without shared unknowns | proved | unshared, one_process |
| C358 | Dual-weighted residual independent of the partition | partial | copies_partial, refuted |
| C359 | Which block shows which postprocessing field | proved | fields, handed, own_text, cell_text, independent |
| C360 | A block's section of Postprocess is honoured | partial | point_partial, shared_partial, ignored_refuted, clash_refuted |
| C361 | Sensors from the mesh file | proved | all, number |
| C362 | Sensors from the mesh file for any groups and blocks | partial | first_elements_partial, groups_refuted, block_refuted, same_data_refuted |
| C363 | Matrices for previous steps in a transient adjoint | proved | no_reuse, reuse |
| C364 | No matrix is used that was not assembled | partial | one_set_partial, zero_refuted, past_end_refuted |

What is missing from each partial property is in its note in `MANIFEST.json`.

## 6. Deviations of the code found while modelling

These are statements about the code as read.  Those with a `_refuted` theorem
have a machine-checked witness in the model; the others were seen while reading
and are recorded in the comments of the model files.

**Expressions.** `1e-5*x` is split at the minus sign of the exponent; unknown
function names and missing arguments pass silently; comparisons have the
precedence of `*`; `a^b^c` associates to the left; `max(x,sin(y))` is split at the
wrong place; `isScalar` accepts `e`, `.`, `1e5.2`.  `emax`/`emin` return the
last value exceeding the first, `emean` counts the first point twice.

**Storage, sparse storage, mass.** Negative times match every entry; time zero is
never found as previous or next; handles alias; the lumped mass uses |m| on the host
and m on the device; the sparse diagonal is overwritten rather than summed.

**Time integration.** The last step may pass the end time; cuts accumulate;
the BDF history is shifted twice when a step is retried; strong boundary values are
wrong after multi-stage steps unless the stage times add up to one; the default
BDF start-up reads a zero history; DIRK-3,3 is given with ten digits and is
therefore not A-stable; the leap-frog table is wrong.

**Nonlinear solver.** Failure to converge is not reported when an iteration limit
is given; the residual after the last update is not checked.

**Adjoints and optimization.** Steady adjoint exchanges time and index;
`previous_adjoints[step][step]` out of range; the first gradient may be
computed without a forward solve; `dot` is empty for a full mass matrix; `dual`
does not apply the mass; clones drop the scaling; discretized-parameter gradients
sum over the group and then add to every element; sensor data are looked up at
the start of the step.

**Meshes.** Height and depth of the brick are exchanged; the distributed rectangle
drops cells when processes do not divide it.

**Boundary conditions.** Two kinds on one side: assembly takes the last,
constraints the first; numeric values go through `std::to_string` (six decimals);
integers define no function; "all boundaries" overrides a named side; node sets and
blocks are matched by substring; flux conditions are ignored for the small
derivative types; HDIV boundary mass is wrong on slanted sides.

**Discretization.** Interior-face gradients of scalar bases that need no
orientation stay zero; vector bases at nodes use the Jacobians of integration points;
with several blocks, boundary groups whose basis is recomputed or in the database take the nodes of another element; interior faces in one
dimension have no weights; all functions of the AC element go through the Piola
map, and they are not dual to its unknowns.

**Physics modules.** Navier-Stokes: the z momentum uses the y offsets; energy
PSPG not divided by density; Stokes: sign of the PSPG source.  Elasticity: Biot
terms outside the dimension test, thermal coefficient under plane stress, traction taken
as displacement on mixed sides, von Mises stress of plane strain by the plane
stress formula.  Thermal and porous: the adjoint matrix is not the transpose unless
the form parameter is one; porous interface flux only has the x part.  Burgers:
outflow only in 2D and decided by variable 0; shallow water: Coriolis, viscosity,
friction and side data unused; level set: division by zero where nothing moves.
Maxwell: the curl is divided by a varying permittivity, absorbing sides do nothing in
2D, active variables matched by letters.  Mixed Darcy: wrong basis on sides, random
permeability in 3D uses x twice; wells: source dropped when there are none, plane
wells depend on Kzz.  Hybridized shallow water in 1D ignores the direction of the
normal; hybridized Euler exchanges momentum and energy in 2D/3D, wrong left
eigenvectors in 1D, no z momentum flux in 3D.

**Post-processing.** Errors by substring of block names; the face norm counts
boundary faces by half; several objectives look up data at the wrong time or miss
a reduction over processes (C98–C107).

**Settings.** Block names match as substrings; a block's list replaces the general
one as a whole; the general BDF order is ignored for named sets.

**Subgrid meshes.** The one-dimensional refinement uses the node index after
`push_back`; refined triangles are partly clockwise and marked with the wrong coarse
side; three of the eight refined tetrahedra are the same; a coarse side without
condition gives index -1; quadrilaterals cut from a triangle need a fourth side
that the array does not have.

**Sampling.** The default "max samples" ties the first samples to the number of
samples; with time-dependent parameters a sample reaches only the first time; a user
file longer than "max samples" reads outside the integer samples; the unused sampling
overload returns nothing and takes a variance for a standard deviation; the inversion
has no answer (0/0) without overlap or for responses that do not vary, and compares
densities of different responses when there are several.


Small physics modules (C160, C162, C164, C166, C168–C170): Kuramoto-Sivashinsky tests the
equation of w with u's basis; Hartmann differentiates in x only and adds its Neumann datum
on every side; the saturation module indexes one-entry arrays over all the variables of the
block; fractional Helmholtz combines mass and stiffness differently, and its sides read
functions never evaluated; on lines its sides read a normal component never set; shallow ice
assembles nothing in three dimensions; several declared functions are never used.

Sensors (C172, C175–C179, C182, C183): locateSensorPoints computes buffers of all three
directions from a bounding box with `dimension` of them. A sensor outside of the mesh has a line
of zeros, coordinates included; sensors at quadrature points have a list of their own on every
process but lines of the same number are added together; sensors from Exodus files never set
the flags the output loops over. HDF5 output reads the local data at the global number of the
sensor. The transform uses `k*j/N` with integers and adds the current value for every j, so
each coefficient is N times the sum of the series, and its output reads the first entry of a
list that is only filled in the other modes. The far-field integral advances the sensor counter
per direction, and reduces one of the four potentials. With the rank added to file names the
data file is cut to the length of the points file, and the owner test compares different
points. Blank and short lines are accepted in points and data files. Gradient views exist for
HGRAD bases only but are indexed by the number of the basis.

Initial conditions (C185, C188, C190, C191). The repair of rows below 1e-14 runs after every
block, so unknowns of later blocks get 1 added to their mass, and elements with mass below the
threshold are not projected. The lumped face matrix puts the row sum in the column of the last
unknown, and is chosen by the adjoint flag. Interpolation writes the padded entries of shorter
variables to local unknown 0. Scalar values are stored for scalar sets only but read by set
number. Unknown initial types leave zero.

Fire spread (C194, C198, C200). Cell data are looked up by row-wise number without checking the
numbering of the file. The moisture ratio is not limited to one, so wet fuel gets a negative
rate. The evenness test of the grid uses an absolute tolerance of 1e-4.

Finite strain and dynamics (C203, C206, C208). The two-dimensional neo-Hookean stress swaps the
off-diagonal cofactors (the right terms are in the comments), so it is not the derivative of
the energy, a rigid rotation is stressed and shear is twice too stiff. "form_param" has no
effect. In three dimensions elastodynamics adds the equation of vy to the rows of vx and leaves
those of vy empty.

Crystal elasticity (C210–C213). Entry (0,2,2,0) of the stiffness is never set (a typo writes
(0,2,0,0)), so the 3D stress is unsymmetric. The default C44 is twice the shear modulus, so a
solid given by E and nu is twice too stiff in shear. All constants but C11, C12, C44 are
overwritten, the parameter "mu" is never read. One rotation matrix is shared by the parallel loop.

Phase fields (C214, C216, C218). Values pushed at each point are never cleared, so all elements of
a group use the first point of the first element; 1D has no reaction or diffusion, 3D a quarter
of the 2D reaction. The phase-space test module ignores the phase element in its point index.

Setup (C220, C221, C223, C225, C227, C228). getUniqueIndex hides its set argument, so a name used
in two sets has the basis of the last; the basis of a discretized parameter is looked up on the
first block only; unknown module names are skipped; block names match as substrings; whole numbers
are dropped as initial values and weights, and initial values are cut at six decimals.

Linear algebra (C231, C235). With phase space the graph's columns are spatial numbers. "krylov
vectors" is read and not used; the boundary projection never has a preconditioner; the variant of
the preconditioner is taken from the general section only.

Gather (C239, C240). When only the solution is passed in a transient run (sensitivities with
respect to discretized parameters), the history buffers keep the values of the last group of the
last step. The rates of the sets that are not being advanced are never updated.

Variable-density flow (C242, C246, C247). Grad-div uses du_y/dx in place of du_y/dy in 2D and is
absent in 3D. The update of the background pressure with in- and outflow exchanges the heat flux
and the velocity flux. Without flow the pressure is never changed, because the mass is integrated
with the density of the new temperature.

Maxwell with a control and in bianisotropic media (C249, C251). Absorbing sides of the control
problem do nothing in 2D. The bianisotropic module defines epsr_ab and invmur_ab but evaluates
invepsr_ab and mur_ab, so its equation for E cannot be assembled; three off-diagonal entries are
read from the wrong place.

Kinetic modules (C253-C255). The electron block of the Vlasov-Fokker-Planck modules writes into the
rows of H. The Rosenbluth potentials are assembled without quadrature weights and read their
sources from settings of other names.

- C256: `maxwells_fp` applies no quadrature weights, so its residual does not depend on the size of the elements. C257: it adds the rates to rows 0..7 of the element rather than to the rows of the unknowns. Its boundary terms are unreachable (`boundary_type` is fixed to 0).

- **Face bases (C260, C262, C263, C265, C267).** Orientation of shared sides is ignored (`requireOrientation` fixed to false). On hexahedra the loop for the face x=1 exchanges its two indices relative to all others, so neighbours in x see transposed traces for every order above 0, and the reported points of five faces are transposed relative to their functions. On triangles the line basis on [-1,1] is used unmapped on sides with coordinate in [0,1]; the reported points leave the triangle. On tetrahedra the triangle functions are evaluated at (x,y) on every face, so the functions of the faces x=0 and y=0 are linearly dependent for every order above 0.

**Multiscale manager (C268–C278).** A tie at zero votes assigns the last model of the list even to a group of another block (C269_refuted). With a Subgrid list, every block takes the multiscale branch with an index that is never set for blocks without model (C271). `initialize` overwrites the cost, and both reductions write `gmin`, so the load balancing factor is always zero (C272). Prediction rows are written per workset and read per element (C276). With pre-trained models the training flag is never cleared (C277). Unknown macro block names mean block 0 and the type "Explicit FEM" corrupts the previous model (C278).

**Files and restarts (C280–C282, C284).** Scalar parameters are printed with twelve digits, so a trip through the files is not exact (C280). Recovering forward states for an adjoint run reads as many files as the multistep rule has history terms, not as many as there are time steps (C281). A restart from a text file takes the first column, which is the initial condition unless only the final solution was written (C282). A restart then does nothing in any of its modes, and neither do the scalable inversions (C284).

Subgrid solver (C286, C288, C289, C291, C293–C295, C297): a subgrid Newton solve that does not converge returns its last iterate silently; with the direct solver the derivative handed to the coarse problem is solved with an old factorisation; with multistep local integrators the derivatives of all earlier steps but the latest are zero, and every coarse Newton iteration shifts the local history; with three or more coarse history terms the subgrid sees zeros; without synchronous stepping a rejected coarse step advances the subgrid problem, and integrators whose stages are not at the end of the step leave it at the wrong time; the time-averaged flux uses the end values at every local step. Not a theorem: an adjoint or parameter-sensitivity solve passes a null current adjoint (subgridDtN.cpp:1085) that the solver dereferences.

**Visualization output (C301–C306).** Extra cell fields and derived quantities gather only physics set 0 ("why is this hard-coded?" in the source), and derived quantities never gather the discretized parameters, so with several groups the last group's values are used everywhere. The max and min reductions start from 0. The HCURL test for a discretized parameter reads `discParamTypes[n]` instead of `[bnum]`. Extra nodal fields are written as zeros and, in UQ, under a name that was not declared. The optimization movie reads the owned parameter vector with overlapped rows, and does not write HDIV or HCURL parameters.

**Microstructures (C310).** The seed recorded for an element is its grain modulo 100, so redrawn rotations are shared by grains that differ by 100; boundary elements keep no seed (the code is commented out), and `updateRotationData` reads past their empty lists.

**Subgrid mesh factory (C312).** `modifyMesh` shifts the connectivity of a patch by the number of elements of the earlier patches, not of their nodes; only one patch is ever added by the code itself. The body of `SubGridDtN::writeSolution` is commented out, so the combined mesh is set up but not written by that model.

**Adjoint schedule (C314–C317).** The adjoint uses the step size the forward run ended with for all steps, so gradients are wrong after a rejected step. It ignores the recording window (`record start time`, `record stop time`) that the objective value respects. The explicit parameter derivative looks sensor data up with the time at the beginning of the step and ignores the write frequency. In the steady adjoint the arguments current_time and tindex of computeSensitivities are exchanged.

**Linear solver (C318).** `linearSolverL2Param` and `linearSolverBoundaryL2Param` have empty bodies and leave the solution vector as it was (not called). The Schwarz preconditioner always gets the entry `schwarz: subdomain solver` = `garbage`.

**C320–C322 (responses, norms, optimization output).** `collectResponses` reads the response sizes, stored per collected objective, by the number of the objective: out of range with any control objective. `computeWeightedNorm` takes the 2-norm of w·u·u. After an optimization the solution and the saved parameters are those of the last evaluation, not of the point the optimizer returned.

**C325–C326 (databases).** With `use ip database` alone, or on a three-dimensional simple mesh, no index of integration points is built. `buildBoundaryDatabase` never fills the gradients of the side basis functions: with `use basis database` every gradient of a solution field on a boundary side is zero.

- **Integrated quantities (C328–C330).** A user quantity named like a module's reports the module's integral; the background pressure updated after a step is overwritten by the input value before the next step and never reaches the parameters used with derivatives; with several blocks the last block's pressure is kept.

C333: createNewGroups copies the unknowns out of the first set, so a later, larger set (a later block with more elements per group) reads beyond the end of that view.

C335: the sets of coarse elements after the first reuse the coarse basis values of the first set, made with the orientations of its elements. C336: the table of coarse basis values assumes every coarse element of a set has the same cells in the boundary group; with different conditions on the coarse sides it divides by zero or uses the orientation of another element.

- **Field parameters and bounds** (C338, C340–C342): stochastic field parameters after the first are sampled as the first, once per process having the unknown; a custom initial guess is never supplied and leaves zeros; active scalars without a bounds file are bounded by zero and zero; blank lines in a bounds file repeat the previous pair; bounded optimization without field parameters dereferences a null vector, and with dynamic parameters reads past the bounds.

- **Inner product of field parameters** (C344): the default weights are the diagonal of the parameter mass matrix, so the product of two constant fields is not their integral; lumped weights use absolute values only in one of the two memory layouts.

**C347 (sparsifying mass quadrature).** `evaluateBasisNewQuadrature` builds its rule only for three dimensions and never looks at the shape of the element: in two dimensions it uses a null pointer, and on tetrahedra it integrates over the cube (48 times the volume).

**C349, C350 (flux responses).** `computeFluxResponse` never gathers the solution it is given: boundary groups that share the buffer of their block all use the data of the group gathered last. Side names are searched inside the text of side sets, so the default "all" matches no usual side and "rightwall" also matches "right".

**C352 (frequency output).** The interface to the FFT library keeps only the real part: a sine wave of any frequency gives zero, and a history and its reversal in time cannot be told apart.

**C354 (batch sums).** The batch manager sums only the first field part and the first scalar part of a vector: for time dependent parameters the gradient of all later time steps is not summed over processes.

C356: with `enable memory purge` (set to true in scripts/input-files/input-defaults.yaml) the element lists, unknown lists and (without output) the mesh are freed before the linear algebra is set up, which reads them; output reads the freed element lists too.

**C358 (dual-weighted residual).** `computeDualWeightedResidual` brings the overlapped adjoint solution to the owners with `exportVectorFromOverlapped`, which adds the copies. On several processes an unknown on a process boundary is therefore weighted with its adjoint value times the number of processes holding it; `exportVectorFromOverlappedReplace` would be right. On one process the export is a plain copy. The method has no caller in the repository.

**C360 (block sections of Postprocess).** `setup` reads `Responses`, `Weights` and `Targets` from `Postprocess` itself for every block (construct.hpp 211–237), before it selects the section of the block (239–245). Such lists in a block section are ignored without a message, and since the first registration of a name counts, an extra field that has the name of a shared weight shows the weight at integration points.

**C362 (sensors from the mesh file).** `importSensorsFromExodus` loops over the groups of a block and reads the element fields at the number of the group; with more than one element in a group only the first elements of the file are looked at, and sensors are given to the first element of the wrong group. `efield_vals[block][i]` takes the number of the block as the number of the field that counts the sensors, and all sensors of an element get the value of the one response field.

**C364 (previous-step matrices).** `nonlinearSolver` calls `getPrevJacobianReuse(set)`, whose argument is a step. `getNewPreviousMatrix` makes a context for every pair of sets, so with two sets the cache never counts as filled; the matrices are then set to zero, and assembled only if the state Jacobian is rebuilt in the same iteration. `adjointModel` warns that several sets are not supported, but returns early on process 0 only, so the other processes run into this code.

## 7. Methods of proof

* text and expressions: induction over a separate grammar with a printer; scanner
  lemmas; simulation between storage classes of the evaluator;
* loops over elements, groups, processes: invariants by induction over the list,
  permutation lemmas, partitions;
* time loops and solvers: invariants over iterations with the linear solve and
  the physics as unknown functions; conjugate gradients by the usual
  orthogonality induction;
* physics modules: every row of the residual is computed symbolically from the
  loops (`Phys_Tac.v`) and compared with a weak form written independently
  (`Phys_Spec.v`); balance laws, consistency, energy and symmetry follow from that;
* geometry: polynomial identities in the node coordinates, integration rules
  characterised by exactness; derivatives by Coquelicot.

Seeded edits: `seeded/LOG.jsonl` records each deliberate wrong edit of a model
definition, the theorems that then fail, and the theorems tightened where an
edit went unnoticed.
