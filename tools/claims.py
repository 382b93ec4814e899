claims["C01"]=("proved",["C01_random_build_pattern","C01_random_build_throws","C01_nonzeroes_overreports_refuted"],
 "nonzeroes() is exact iff nothing was over-preallocated; the over-reporting case is refuted for every such program")
claims["C02"]=("proved",["C02_misuse_throws_and_keeps_matrix","C02_exception_keeps_matrix","C02_rejected_setSize_destroys_matrix_refuted"],
 "setSize, a failing row-wise walk and an exhausted compress() are the only calls that may throw after having changed the object; the setSize case is refuted explicitly")
claims["C03"]=("proved",["C03_rowwise_build_pattern","C03_contains","C03_contains_next_row","C03_zero_rows_refuted"],"the 0-row matrix is the only exception")
claims["C04"]=("proved",["C04_implicit_build","C04_no_overflow_no_exception","C04_zero_average_refuted","C04_empty_matrix_nonzeroes_refuted"],
 "average row size >= 1; the average-0 and 0-row cases are refuted")
claims["C05"]=("proved",["C05_lookup_agrees_with_iteration"],"")
claims["C06"]=("proved",["C06_copy_constructor","C06_copy_assignment","C06_copy_corrupts_source_refuted"],
 "without the proviso on random mode the property is false: C06_copy_corrupts_source_refuted")
claims["C07"]=("proved",["C07_scaling","C07_scaling_after_nonzeroes_refuted"],"exception is refuted for every such matrix")
claims["C08"]=("proved",["C08_setSize_then_random","C08_setSize_then_rowwise","C08_compress_setSize_then_implicit","C08_overflow_survives_setSize_refuted"],"")
claims["C45"]=("proved",["C45_query_unnoticed","C45_setSize_forgets","C45_finished","C45_query_twice","C45_nonzeroes_keeps_view","C45_nonzeroes_breaks_random_build_refuted","C45_stale_count_refuted","C07_scaling_after_nonzeroes_refuted"],
 "The unconditional property is false of the code; the statement names the three exceptions.")

claims["C09"]=("proved",["C09_products","C09_transposed_products","C09_conjugate_transposed_products"],"")
claims["C10"]=("proved",["C10_matrix_arithmetic","C10_missing_entry_throws"],"")
claims["C11"]=("proved",["C11_collects_positions","C11_import","C11_export"],"index truncation to 32 bit not modelled")
claims["C12"]=("proved",["C12_contents","C12_strong_guarantee"],"")

claims["C13"]=("proved",["C13_triangular_solves","C13_relaxed_triangular_solves","C13_nested_triangular_solves","C13_singular_diagonal"],"recursion levels 1 and 2")
claims["C14"]=("proved",["C14_sweeps","C14_fixed_point","C14_singular_diagonal","C14_nested_step_moves_solution_refuted"],"")

claims["C15"]=("proved",["C15_ilu0","C15_missing_diagonal_throws"],"")
claims["C17"]=("proved",["C17_backsolve","C17_crs_agrees","C17_convert_zero_rows_refuted","C17_convert_reused_refuted"],"the zero-row and reuse cases are refuted")

claims["C16"]=("proved",["C16_ilun","C16_low_levels","C16_complete","C16_level2_excess_refuted","C16_level2_missing_refuted"],"for n>=2 the classical level rule is refuted in both directions")
claims["C18"]=("proved",["C18_dilu","C18_backsolve"],"")

claims["C19"]=("proved",["C19_ildl","C19_ildl_symmetric","C19_backsolve","C19_missing_diagonal_throws"],"")

claims["C20"]=("proved",["C20_matMultMat","C20_transposeMatMultMat","C20_matMultTransposeMat","C20_zero_rows_refuted"],"Products with a result without rows dereference the end row iterator (C20_zero_rows_refuted); the positive theorems assume at least one result row.")

claims["C21"]=("proved",["C21_btd_solve","C21_btd_solve_regular","C21_empty_refuted"],"Exact arithmetic in an arbitrary noncommutative ring of blocks; int/unsigned loop counters as naturals.")
claims["C22"]=("proved",["C22_bd_solve","C22_bd_invert","C22_new_pattern","C22_setSize_pattern","C22_setSize_throws_refuted","C22_default_and_copies_cannot_resize"],"setSize works only when the object is in random build mode; default-constructed objects, copies and assignment targets are not (refuted part).")
claims["C23"]=("proved",["C23_copyToBCCSMatrix","C23_copySubset"],"Row subsets: increasing index set of a square matrix. n, m are the block dimensions (m > 0).")

claims["C24"]=("proved",["C24_read","C24_describes_unique","C24_read_filled","C24_matrix_roundtrip","C24_vector_roundtrip","C24_vector_reject","C24_real_words","C24_banner","C24_banner_roundtrip","C24_no_rows_refuted","C24_symmetric_diagonal_refuted","C24_partial_blocks_refuted","C24_tall_blocks_assert_refuted","C24_complex_words_refuted","C24_banner_default_refuted"],"Entry-level model of reader and writer (printing/parsing of a single real number taken as exact; one SIMD lane); row-wise creation as established in C03. Deviations proved as _refuted theorems.")

claims["C25"]=("proved",["C25_countNonZeros","C25_rowdim","C25_coldim","C25_rowdim_at","C25_coldim_at","C25_check_diagonal","C25_check_level0","C25_empty_row_refuted","C25_empty_column_refuted","C25_check_unchecked_refuted"],"Arbitrarily nested BCRSMatrix/FieldMatrix/number trees; coldim in 64-bit words. coldim(A,c) over the storage order = row order (contiguous arrays). MultiTypeBlockMatrix, DiagonalMatrix, DynamicMatrix, Matrix specialisations not modelled.")

claims["C26"]=("proved",["C26_loop","C26_gradient","C26_cg","C26_bicgstab","C26_minres","step_aborts","C26_apply4","C26_apply4_restore_refuted"],"Defect type arbitrary (no order or arithmetic laws assumed, so it covers floating point). GMRES variants: see C28. Time measurement, output and conv_rate not modelled; one SIMD lane.")
claims["C27"]=("proved",["C27_loop","C27_gradient","C27_cg","C27_bicgstab","C27_minres","C27_minres_refuted"],"Any module over any ring, any linear operator, arbitrary stateful preconditioner, scalar product, norm and division.")
claims["C44"]=("proved",["C44_two_args","C44_three_args","C44_config"],"")

claims["C26"]=(claims["C26"][0],claims["C26"][1]+["C26_gmres"],"Defect type arbitrary (no order or arithmetic laws assumed, so it covers floating point). Time measurement, output and conv_rate not modelled; one SIMD lane. GeneralizedPCG/FCG variants not modelled.")
claims["C28"]=("proved",["C28_fgmres_residual","C28_gmres_residual","C26_gmres","C28_terminates","C28_restart0_refuted","C28_stale_restart_refuted","C28_reduction_argument_refuted","C28_breakdown_refuted"],"field_type = real_type (real case of applyPlaneRotation). Arrays of a cycle as growing lists. The positive theorems over the reals use the standard library's axioms of the reals.")
claims["C29"]=("proved",["C29_unit","C29_isometry","C29_annihilates","C29_cutoff","C29_unit_complex","C29_isometry_complex","C29_annihilates_complex"],"Exact real arithmetic (standard library Reals and its axioms); one SIMD lane.")

claims["C43"]=("proved",["C43_sweeps_linear","C43_jac","C43_sor","C43_ssor","C43_richardson","C43_ilu","C43_dilu","C43_ildl"],"block level 1; the factorizations and sweeps themselves are C13-C19")

claims["C30"]=("proved",["C30_global_sum","C30_dot","C30_complex_dot_refuted","C30_stale_mask_refuted"],"norm: the sum under the square root; the sum over processes (communicator.sum) is an exact sum in any ring.")
claims["C31"]=("proved",["C31_safe","C31_copyOwnerToAll","C31_in_place"],"RemoteIndices, Interface and BufferedCommunicator of dune-common are modelled from their documented behaviour: per pair of processes one message of gathered values in matching global-index order, arriving in any order.")
claims["C32"]=("proved",["C32_addOwnerCopyToOwnerCopy","C32_addToAll"],"as C31")
claims["C33"]=("proved",["C33_overlapping_apply","C33_apply_and_sync"],"")
claims["C46"]=("proved",["C46_apply","C46_double_count_refuted","lowest_rank_one_sided"],"applyscaleadd then adds the saved y (y += y1), C11.")
claims["C34"]=("proved",["C34_prolongate","C34_restrict","C34_galerkin","C34_pattern","C34_galerkin_product","C47_coarsen"],"sequential case; the parallel variants (project, copyOwnerToAll) are not modelled.")
claims["C35"]=("proved",["C35_renumber","C35_bijective","C35_disconnected_refuted"],"renumberAggregates is not called elsewhere in the repository.")
claims["C47"]=("proved",["C47_build","C47_coarsen","C47_min_gt_max_refuted","C47_max_size_refuted","C47_merge_isolated_refuted","C47_one_count_refuted"],"the strength of connections is an arbitrary input (buildDependency and the criteria are not modelled); connectivity values may be any type with any comparisons.")
claims["C36"]=("proved",["C36_amg","C36_two_level","C36_symmetric","C36_sticky_flag_refuted","C36_one_level_refuted"],"sequential case (no redistribution, project and copyOwnerToAll do nothing), multiplicative cycle; additive cycle, pre/post and KAMG are not modelled. Coarse solver and smoothers are arbitrary functions.")
claims["C48"]=("proved",["C48_presmooth","C48_postsmooth","C48_presmooth_defect","C48_fastamg","C48_gamma_iterative_refuted","C48_wcycle_refuted","C48_block_symmetric_refuted"],"sequential case without redistribution; coarse solver an arbitrary function that reports convergence.")

claims["C38"]=("proved",["C38_history","C38_alloc_failure_refuted","C38_products","C38_transposed_products","C38_transpose","C38_product","C38_arithmetic","C38_iteration","C38_no_columns_refuted","C38_exists","C38_exists_refuted","C38_transpose_blocks_refuted"],"storage as a heap history; arithmetic over any ring. Norms are not part of this claim.")
claims["C39"]=("proved",["C39_history","C39_zero_blocks_refuted","C39_resize_keeps_sizes_refuted"],"heap history with owned buffers; allocation failures not modelled")
claims["C40"]=("proved",["C40_products","C40_algebra","C40_solve","C40_frobenius","C40_row_sums","C40_determinant","C40_to_dense"],"over any ring / ordered setting as stated; division abstract")

claims["C42"]=("proved",["C42_vector","C42_matrix","C42_dimensions_unique","C42_no_columns_refuted","C42_no_rows_refuted"],"any nesting of containers as trees; entries are references")

claims["C41"]=("proved",["C41_products","C41_transposed_products","C41_vector_arithmetic","C41_vector_sums","C41_frobenius","C41_matrix_arithmetic"],"blocks are BCRS matrices and block vectors over any ring; infinity norms are in C49")

claims["C37"]=("proved",["C37_lookup","C37_passed_preconditioner","C37_calls_independent","C37_passed_preconditioner_stays_refuted","C37_registry_get","C37_duplicate_names_refuted"],"ParameterizedObjectFactory of dune-common assumed to be a map; compile-time counters not modelled")
claims["C49"]=("proved",["C49_infinity_norm","C49_exact_norms","C49_sum_norms_nan","C49_frobenius_nan","C49_matrix_infinity_norm","C49_spurious_nan_refuted","C49_two_large_entries_refuted","C49_multitype_drops_nan_refuted"],
 "dune-common's FieldVector/FieldMatrix norms are taken to run the same loops; two deviations proved")
claims["C50"]=("proved",["C50_cg_galerkin","C50_cg_optimal","C50_cg_terminates","C50_gradient"],"real scalars (bilinear symmetric product), exact arithmetic")
claims["C51"]=("proved",["C51_minres","C51_minres_optimal","C51_minres_exact","C51_minres_total","C51_rotation","C51_minres_real","C51_mixed_norms_refuted"],"real scalars; C51_minres_real uses the stdlib Reals axioms; the rotation is the code's except that its cut-off 1e-15 is replaced by 0 (C51_rotation: equal off the cut-off)")
claims["C52"]=("proved",["C52_bicgstab","C52_terminates","C52_local_minimum"],"real scalars (bilinear symmetric product), exact arithmetic; runs that abort with a breakdown are covered by C26")
claims["C53"]=("proved",["C53_fcg_reports","C53_fcg_terminates","C53_gpcg_terminates","C53_fcg_conjugate","C53_fcg_optimal","C53_fcg_exact_hit","C53_fcg_galerkin","C53_fcg_is_cg","C53_gpcg_is_fcg","C53_fcg_mmax0_refuted","C53_gpcg_restart1_refuted","C53_fcg_abort_refuted"],"Fcg.v, FcgExact.v. Division is partial: a zero divisor is the SolverAbort that the non-finite defect of the same iteration raises. Deviations: mmax = 0 / restart = 1 loop forever, abort after an exact hit inside a window.")
claims["C54"]=("proved",["C54_gmres_minimal","C54_fgmres_minimal","C54_fgmres_any_preconditioner","C54_defects_fall"],"Exact real arithmetic (standard library Reals and its axioms). Same model and provisos as C28; hypotheses met by C28_meets_hypotheses.")
claims["C55"]=("proved",["C55_additive","C55_multiplicative","C55_multiplicative_dynamic","C55_total","C55_on_the_fly","C55_solution_stays","C55_exact","C55_symmetric","C55_local_matrix","C55_ilu0","C55_ilu0_hermitian","C55_dynamic","C55_rows_to_domains","C55_dynamic_relax_refuted"],"SeqSchwarz.v. DynamicMatrix::solve of dune-common is a parameter; SuperLU/UMFPack and ILUNSubdomainSolver (which does not compile when instantiated) are not modelled.")
claims["C56"]=("proved",["C56_symmetric","C56_ilu","C56_dilu","C56_ildl","C56_ilu2_refuted"],"Adjoint.v, SymPrecond.v.")
claims["C57"]=("proved",["C57_power","C57_power_converges","C57_eigenvalue_near","C57_operator","C57_inverse","C57_inverse_inexact","C57_inverse_converges","C57_rqi","C57_tlime","C57_tlime_no_assert","C57_shift_matrix","C57_power_example","C57_inverse_example","C57_zero_start_refuted","C57_power_dominant_refuted","C57_flag_dropped_refuted","C57_stale_matrix_refuted","C57_extrnl_refuted","C57_leaves_J_refuted","C57_shift_matrix_refuted"],
 "Exact real arithmetic over any Euclidean space; NaN is an explicit outcome. Uses the axioms of Coq's Reals. Refuted parts are the deviations named in the statement.")
claims["C58"]=("proved",["C58_split_filename","C58_names_distinct","C58_index_roundtrip","C58_store_load","C58_store_load_seq","C58_store_load_int","C58_local_file","C58_errors","C58_wrong_word","C58_truncated_refuted","C58_truncated_neighbours_refuted","C58_final_newline_refuted","C58_same_name_refuted","C58_stale_file_refuted"],
 "MarketParallel.v: characters and stream state bits. The text of the matrix itself is C24; the final RemoteIndices::rebuild and the int range are not modelled.")
claims["C59"]=("proved",["C59_build","C59_geometric","C59_strict","C59_symmetric","C59_amg","C59_recalculate","C59_unique","C59_recalculate_again","C59_symmetric_amg","C59_coarsest_on_finest","C59_coarsest_same","C59_coarsest_ends","C59_coarsest_isolated_refuted","C59_coarsest_single_refuted","C59_destroy","C59_destroy_unbuilt_refuted"],"Sequential setup (one process): no accumulation of levels onto fewer processes. The strength of connections is an arbitrary relation per level; the coarsening rate is compared exactly instead of in double. That random numbers are drawn again and again is a hypothesis of C59_coarsest_ends.")
claims["C60"]=("proved",["C60_refines","C60_copy","C60_assign_refuted"],"Elements are modelled with weak coarser_ and shared finer_ pointers; an element is alive iff a hierarchy or iterator reaches it through shared pointers. Misuse (null iterator dereferenced, reading a missing redistributed version) is undefined in both machines. addFiner is not modelled: it does not compile when instantiated (it names a member that does not exist).")
claims["C61"]=("proved",["C61_symmetric","C61_unsymmetric","C61_symmetric_matrix","C61_zero_diagonal","C61_symmetric_connected","C61_unsymmetric_connected","C61_scaling","C61_row_scaling","C61_closure","C61_hierarchy","C61_parameters","C61_unsymmetric_norms_refuted","C61_isolated_strong_refuted","C61_symmetric_matrix_refuted"],"Specification sym_strong / uns_strong / smd_strong in Strength.v speaks about den and instored only. Numbers are rationals instead of double; the division by the diagonal norms needs them nonzero (C61_symmetric, C61_symmetric_matrix); maxValue_ = -numeric_limits::max() is a value below all numbers. MatrixGraph only (no SubGraph).")
claims["C62"]=("proved",["C62_iteration","C62_descriptors","C62_noEdges","C62_find","C62_properties","C62_matrix_properties","C62_subgraph","C62_subgraph_of_matrix","C62_find_refuted","C62_find_self_refuted","C62_empty_refuted"],"Graphs.v. Descriptors of MatrixGraph are unsigned numbers with wrap-around to max(); of SubGraph pointers, modelled as offsets into edges_. The pointer edges_-1 formed for an excluded vertex is modelled as an empty range. VertexPropertiesGraph (same vector of vertex properties) is not modelled separately.")
claims["C63"]=("proved",["C63_matrix","C63_solve","C63_ready","C63_nothing","C63_rejects","C63_no_leak","C63_leak_refuted","C63_stale_none_refuted","C63_stale_ignore_refuted"],"CHOLMOD itself is any function that solves the system described by the arrays (hypothesis `solves`, for the one matrix it is given); cholmod_allocate_sparse returning zero column starts is CHOLMOD's documented behaviour. Scalars of any ring instead of double, unbounded indices instead of int/long. Only the upper triangle of the matrix is read: C63_matrix says so, C63_solve therefore assumes symmetry.")
claims["C64"]=("proved",["C64_kcycle","C64_loop_fits","C64_gamma_cycle","C64_single_level","C64_growth_refuted","C64_single_level_refuted","C64_divergence_refuted"],"KAmg.v, on the level operations of Amg.v. The Krylov method is a resumption (kprog); its vectors having the size of the level is the only assumption (kfits), shown for LoopSolver. No redistribution (one process). The specification kcycle uses no stored vectors, contexts or solver objects.")
claims["C65"]=("proved",["C65_matrix","C65_vector","C65_no_columns_refuted","C65_empty_column_refuted","C65_empty_row_refuted"],"Lines as (row, column, value) triples; int and size_t arithmetic of the offsets modelled; decimal formatting and complex numbers not modelled.  The three refuted cases are provisos of the statement.")
claims["C66"]=("proved",["C66_vector","C66_matrix","C66_sparse","C66_columns_zero_refuted","C66_sparse_width_refuted","C66_empty_column_refuted"],"Stream modelled by flags, precision, width and tokens with the format in force; 32 bit overflow of the entry counter is not modelled (vectors below 2^31 entries).  The refuted cases are provisos of the statement.")
claims["C67"]=("proved",["C67_index_set","C67_interface","C67_partition","C67_neighbours","C67_neighbours_symmetric","C67_no_owner_refuted","C67_shared_refuted"],"Repartition.v, spec `goes`, `edge`, `legal`. MPI is a set of messages that arrive in any order; packing/unpacking is modelled as handing over the three lists; the partition vectors are given (ParMETIS is not modelled) and agree on shared indices (setPartition is communicated, C31). The refuted cases are the deviations named in the statement.")
claims["C68"]=("proved",["C68_matrix","C68_repartitioned","C68_vector","C68_vector_back","C68_overlap_refuted","C68_empty_row_refuted","C68_unbuilt_refuted"],"Redistribute.v; spec stored_as / visible / complete. The interface lists are those of the owner-owner interface (C67_interface). The value max() of a global index, used as `ignore` mark, is modelled as an extra value. The nonoverlapping category (additional communication of copy rows) is not modelled. The refuted cases are the deviations named in the statement.")
claims["C69"]=("proved",["C69_holes","C69_numbering","C69_bijection","C69_graph","C69_graph_edges","C69_domains","C69_graphRepartition","C69_balance","C69_partition_respected","C69_partition_refuted","C69_my_domain_refuted"],"RepartPrep.v. ParMETIS is any function to domains below nparts; communication as in C31 (any order of messages). The refuted theorems are the deviations named in the statement.")
claims["C70"]=("proved",["C70_graph","C70_assert","C70_legal","C70_isValidGraph","C70_bound_refuted"],"CommGraph.v. METIS is any function to ranks; MPI_Allgatherv is modelled as concatenation in rank order. The refuted theorem is the deviation named in the statement.")
claims["C71"]=("proved",["C71_sweeps","C71_amg","C71_default_damping_refuted","C71_jacobi_refuted","C71_even_damping_refuted"],"AmgSpd.v; spec spd, spd_map, energy, reduces. Scalar entries, exact arithmetic, sequential. The refuted theorems are the deviations named in the statement.")
claims["C72"]=("proved",["C72_cg","C72_loop","C72_pre","C72_sor","C72_amg"],"SpdSolve.v; spec solved, improved, good_norm, decoupled. Exact arithmetic, scalar entries, sequential; the norm is any function whose values are finite, zero (isZero) only for the zero vector, and below 1e-30 for it.")
claims["C73"]=("proved",["C73_index_set","C73_runs","C73_coarse_level","C73_attribute","C73_publish_safe","C73_publish","C73_publish_copy","C73_periodic","C73_lowest_global_refuted","C73_gmax_refuted","C73_periodic_isolated_refuted","C73_periodic_twice_refuted"],"ParCoarsen.v. The synchronisation of index sets (IndicesSyncer, dune-common) is modelled by its effect: indices a neighbour announces are added with the next local number, messages in any order. Fine indices are public in (2) and (3); (3) is without the same process appearing as its own neighbour, which is (4). The refuted theorems are the deviations named in the statement.")
claims["C74"]=("proved",["C74_pattern","C74_calculate","C74_restrict","C74_prolongate","C74_apply","C74_step","C74_hierarchy","C74_owned_number_refuted","C74_gap_refuted","C74_overlap_row_refuted"],"ParGalerkin.v; spec level_ok, global_aggregates, gproduct. Entries in any ring; without redistribution to fewer processes between levels (C66-C69) and without a process being its own neighbour. Connectedness of the owned parts of the aggregates is C35/C70. The refuted theorems are the deviations named in the statement; C74_overlap_row_refuted is also the concrete case that meets the hypotheses of C74_step.")
claims["C75"]=("proved",["C75_apply","C75_throws","C75_single_level_refuted","C75_block","C75_block_deterministic","C75_consensus","C75_overlap_defect_refuted"],"ParAmg.v; spec gcycle, consist, isdefect, block_correction. Smoothers and coarse solver are parameters with the contracts smoother_ok and solver_ok; without redistribution to fewer processes; levels as in C74. Programs of all processes are sets of outcomes, one per order of messages. The refuted theorem is the deviation named in the statement.")
claims["C76"]=("proved",["C76_additive","C76_spd","C76_cg","C76_parallel","C76_parallel_throws","C76_single_level_refuted","C76_stationary_refuted","C76_stale_guess_refuted"],"Additive.v, ParAdditive.v; spec addcycle, gadd, spd_map, solved. Sequential smoothers and the coarse solver are parameters in C76_additive; SSOR and Jacobi are those of C43. In parallel without redistribution to fewer processes, smoothers and coarse solver with the contracts of C75; that a process whose own solver converged returns although another one threw is visible in the code but not modelled.")
claims["C77"]=("proved",["C77_matrix","C77_history","C77_history_file","C77_construct","C77_no_file","C77_failure_refuted","C77_loaded_refuted","C77_free_refuted","C77_hollow_leak_refuted","C77_construct_leak_refuted","C77_not_square_refuted"],"Umfpack.v; spec entry, ulegal, solution, sound, factorises, track, applies. UMFPACK itself is a parameter ([library]); solutions are stated under its contract [sound]. Not modelled: printing, options, apply on plain arrays, copies of the object, lack of memory, index overflow. The refuted theorems are the deviations named in the statement.")
claims["C78"]=("proved",["C78_matrix","C78_history","C78_throws","C78_construct","C78_failure_refuted","C78_ordering_refuted","C78_sizes_refuted","C78_empty_refuted","C78_hollow_leak_refuted"],"Ldl.v; spec entry, blocks, subblocks, ulegal, solution, factorisation, sound, orders, factorises, track, applies. AMD and LDL are parameters ([library]); solutions are stated under the contract [sound] (P A P^T = L D L^T and the meaning of the five solve routines). Not modelled: printing, the getters, copies of the object, lack of memory in new[], index overflow. The refuted theorems are the deviations named in the statement.")
claims["C79"]=("proved",["C79_history","C79_failure_refuted","C79_memory_refuted","C79_not_square_refuted","C79_empty_row_refuted","C79_free_refuted","C79_arrays_refuted","C79_hollow_leak_refuted","C78_matrix"],"Superlu.v; spec entry, blocks, subblocks, ulegal, solution, sound, roomy, factorises, track, applies. SuperLU is a parameter ([library]); solutions are stated under the contract [sound]. Not modelled: printing and statistics, copies of the object, lack of memory in new[], index overflow. The refuted theorems are the deviations named in the statement.")
claims["C80"]=("proved",["C80_apply","C80_history","C80_amg","C80_determined","C80_memory","C80_recalculated","C80_protocol_refuted","C80_direct_refuted","C80_stale_coarse_solver_refuted","C80_mixed_refuted"],"AmgLife.v; spec coarse_rhs, solves, hierarchy_for, applied, legal, expect. Sequential, multiplicative cycle. Smoothers and coarse solver are functions of the matrix they were constructed for and of the one they read (so ILU is as stale as a direct solver). Not modelled: what apply leaves in the vectors when it throws, the additive cycle, the parallel object. The refuted theorems are the deviations named in the statement.")
claims["C81"]=("proved",["C81_history","C81_matrix","C81_submatrix","C81_construct","C81_freed_refuted","C81_unset_refuted","C81_sizes_refuted","C81_memory_refuted","C81_complex_refuted","C81_subset_refuted"],"Spqr.v; spec blocks, subblocks, legal, least_squares, factorisation, track, applies. SPQR is a parameter ([library]); solutions are stated under its contract for the matrix at hand ([promised]). Not modelled: printing and statistics, copies of the object, lack of memory in new[] and cholmod_l_allocate, index overflow. The refuted theorems are the deviations named in the statement; the leaks are part of C81_history.")
claims["C82"]=("proved",["C82_assemble","C82_constructors","C82_superlu","C82_local_solver","C82_schwarz","C82_schwarz_steps","C82_schwarz_exact","C82_short_refuted","C82_duplicate_refuted","C82_empty_domain_refuted"],"DirectSchwarz.v; spec consistent, is_ccs, subblocks, system, local_solve, applies. SuperLU is a parameter ([library]) with the contract [sound] of C79. The preconditioner itself is that of C55 with these subdomain solvers, for 1 x 1 blocks; the assembly and the solver objects are for any block size. UMFPack as subdomain solver: same assembly (the theorems on assembled arrays cover it), its objects are in C77. Assertions are not executed. The refuted theorems are the deviations named in the statement; C82_nonvacuous, C82_assembled, C82_applied and C82_empty_nonvacuous meet the hypotheses.")
claims["C83"]=("proved",["C83_fastamg","C83_solvers","C83_pre","C83_default_damping_refuted"],"FastAmgSpd.v; spec spd, spd_map, reduces, exact (AmgSpd.v), solved, improved (SpdSolve.v), direct (FastAmg.v), solvable. The model of FastAMG::apply is that of C48, of the hierarchy that of C49/C71. Exact arithmetic, scalar entries, one process. Examples: C83_runs, C83_pre_runs, hypotheses on the matrix C71_nonvacuous, on the numbers C72_numbers.")
claims["C84"]=("proved",["C84_layout","C84_document","C84_once","C84_disjoint","C84_header","C84_sizes_refuted","C84_empty_refuted"],"IoSvg.v; spec view, picture, place, width, extent, numbers, contents, consistent, apart. The stream is a list of items; the text of rectangles, titles and the scaling in the header (floating point) are not modelled. The calls of writeSVGBlock that only determine sizes write to a stream that discards everything and are left out (2^depth calls for a number at a given depth). Examples: C84_nonvacuous, C84_runs.")
