{"claims": [
 {"property": "C01", "status": "proved", "theorems": ["C01_calc_lr_up_to_date", "C01_norm_at_every_cut", "C01_partial_recalculation"], "note": "exact arithmetic"},
 {"property": "C02", "status": "proved", "theorems": ["C02_environments_hermitian_positive"], "note": "exact arithmetic"},
 {"property": "C03", "status": "proved", "theorems": ["C03_expect_1s_exact", "C03_expect_1s_real"], "note": "exact arithmetic"},
 {"property": "C04", "status": "proved", "theorems": ["C04_expect_2s_exact", "C04_expect_2s_real"], "note": "exact arithmetic"},
 {"property": "C05", "status": "proved", "theorems": ["C05_expect_3s_exact"], "note": "exact arithmetic"},
 {"property": "C06", "status": "proved", "theorems": ["C06_expect_1s_1s_exact", "C06_intermediates"], "note": "exact arithmetic; d>0 for the plain return value (docs require n1<n2)"},
 {"property": "C07", "status": "proved", "theorems": ["C07_inner_conj_sym", "C07_inner_exact", "C07_inner_self_norm"], "note": "exact arithmetic"},
 {"property": "C08", "status": "proved", "theorems": ["C08_density_1s_exact", "C08_density_1s_hermitian_trace", "C08_trace_with_op_refuted"], "note": "settled: returned array is conj/transpose of the density operator; REFUTED as universal claim when read as an operator (C08_trace_with_op_refuted)"},
 {"property": "C09", "status": "proved", "theorems": ["C09_density_2s_exact", "C09_unequal_dims_refuted"], "note": "settled: exact on equal dimensions; REFUTED as universal claim for unequal dimensions (IndexError / uninitialised entries)"},
 {"property": "C10", "status": "proved", "theorems": ["C10_apply_op_1s_commute", "C10_apply_op_1s_compose", "C10_apply_op_1s_exact", "C10_apply_op_1s_identity"], "note": "exact arithmetic"},
 {"property": "C11", "status": "proved", "theorems": ["C11_apply_op_MPO_exact", "C11_expect_MPO_exact", "C11_inner_apply_is_expect"], "note": "exact arithmetic"},
 {"property": "C12", "status": "proved", "theorems": ["C12_documented_lengths_refuted", "C12_expect_string_exact", "C12_zero_length_raises_refuted"], "note": "settled: exact value of every entry; REFUTED as universal claim (documented string lengths, d=0)"},
 {"property": "C13", "status": "proved", "theorems": ["C13_correlation_exact", "C13_exvals_exact", "C13_second_exvals_refuted", "C13_zero_distance_raises_refuted"], "note": "settled: correlator exact; REFUTED as universal claim for return_exvals (second list, d=0)"},
 {"property": "C14", "status": "proved", "theorems": ["C14_correct_bond_dim_exact", "C14_correct_bond_dim_idempotent"], "note": "integer code, exact"},
 {"property": "C15", "status": "proved", "theorems": ["C15_constructor_raises_refuted", "C15_full_rank", "C15_no_error_iff", "C15_norm_one", "C15_norm_one_refuted"], "note": "settled: exact no-error and norm-one domains; REFUTED as universal claim (norm 1/2 for D=[1,2,1], q=4; IndexError through the constructor for D=[1,1,4,2,1], q=2)"},
 {"property": "C16", "status": "proved", "theorems": ["C16_decreasing_q_raises_refuted", "C16_no_error", "C16_product_state_exact", "C16_q0_zero_refuted"], "note": "settled: exact for all inputs with q[n] used for site n+1; REFUTED as universal claim (q[0]=0, decreasing q)"},
 {"property": "C17", "status": "proved", "theorems": ["C17_amplitudes_keep", "C17_amplitudes_normalize", "C17_bond_dims", "C17_bond_dims_bound", "C17_isometries", "C17_l_up_to_date", "C17_r_identity", "C17_r_up_to_date"], "note": "exact arithmetic; QR path (the default); LAPACK qr as an oracle with contract"},
 {"property": "C18", "status": "proved", "theorems": ["C18_amplitudes", "C18_amplitudes_exact", "C18_l_diagonal", "C18_l_trace", "C18_schmidt", "C18_schmidt_sq_general", "C18_up_to_date"], "note": "exact arithmetic; qr, eigh, eigvals as oracles with contract; for an eigh whose 1x1 eigenvector is 1 the amplitudes are exact, otherwise exact up to that phase"},
 {"property": "C19", "status": "proved", "theorems": ["C19_amplitudes", "C19_amplitudes_qr", "C19_bond_dims", "C19_l_identity", "C19_r_diagonal", "C19_r_up_to_date", "C19_recorded_l_shape", "C19_recorded_l_shape_refuted"], "note": "exact arithmetic; settled: amplitudes and canonical form hold always; REFUTED as universal claim for the recorded l (wrong shape exactly when the sweep lowers a bond dimension)"},
 {"property": "C20", "status": "proved", "theorems": ["C20_simple_renorm", "C20_structured_l_raises_refuted", "C20_without_update_r"], "note": "exact arithmetic; settled: exact for dense l[N]; REFUTED as universal claim for structured l[N] (TypeError)"},
 {"property": "C21", "status": "proved", "theorems": ["C21_auto_truncate_discards", "C21_auto_truncate_lossless", "C21_auto_truncate_total", "C21_error_bound", "C21_no_change_raises_refuted", "C21_restore_and_truncate", "C21_single_bond_error", "C21_truncate_defined", "C21_zero_dimension_raises_refuted", "C21_zero_weight_lossless", "C21_zero_weight_lossless_left"], "note": "exact arithmetic; settled: lossless for zero weights, error bound otherwise; REFUTED as universal claim (unchanged dimensions raise, zero dimension raises)"},
 {"property": "C22", "status": "proved", "theorems": ["C22_H", "C22_adot", "C22_diag_broadcast_refuted", "C22_diag_dot_shapes", "C22_dot", "C22_inv_sqrt", "C22_mmul", "C22_mmul3", "C22_scale_elementwise", "C22_sqrtmh_invmh", "C22_trace"], "note": "exact arithmetic; settled; REFUTED as universal claim for mismatched sizes (size-1 diagonal matrices broadcast)"},
 {"property": "C23", "status": "proved", "theorems": ["C23_chunks_partition", "C23_complete_schedule_exists", "C23_eps_l_threads", "C23_eps_r_threads", "C23_race_free", "C23_zero_dim_raises_refuted"], "note": "exact arithmetic; every interleaving of single-element stores; settled for d>0; REFUTED as universal claim for d=0 (ZeroDivisionError)"},
 {"property": "C24", "status": "proved", "theorems": ["C24_dense_transfer_matrix", "C24_eps_adjoint", "C24_eps_linear", "C24_eps_op_adjoint"], "note": "exact arithmetic"},
 {"property": "C25", "status": "proved", "theorems": ["C25_calc_C_variants", "C25_left_map_variants", "C25_noop_multi_exact", "C25_right_map_variants", "C25_tensor_product_variants"], "note": "exact arithmetic"},
 {"property": "C26", "status": "proved", "theorems": ["C26_fac_cholesky", "C26_fac_division_by_zero", "C26_fac_evd", "C26_fac_keeps_small_refuted", "C26_fac_rank0_refuted", "C26_herm_sqrt_inv", "C26_positive_definite", "C26_positive_semidefinite", "C26_support_projector"], "note": "exact arithmetic; eigh, cholesky as oracles with contract; settled: exact for every Hermitian input with an eigenvalue above zero_tol; REFUTED as universal claim for herm_fac_with_inv with none (slice [-0:])"},
 {"property": "C27", "status": "proved", "theorems": ["C27_nullspace_complete", "C27_nullspace_qr", "C27_nullspace_rank_deficient_refuted"], "note": "exact arithmetic; full QR as an oracle with contract; settled; complete null space exactly for full row rank; REFUTED as universal claim for rank-deficient input"},
 {"property": "C28", "status": "proved", "theorems": ["C28_left_complete", "C28_left_gauge", "C28_left_norm", "C28_right_complete", "C28_right_gauge", "C28_right_norm", "C28_sites_orthogonal"], "note": "exact arithmetic; eigh and full QR as oracles with contract; gauge condition and orthogonality for all l, r (also singular); isometry and completeness when every eigenvalue of l, r exceeds zero_tol"},
 {"property": "C29", "status": "proved", "theorems": ["C29_K_2s", "C29_K_3s", "C29_K_left_2s", "C29_K_left_3s", "C29_K_partial_energy", "C29_left_2s_none_refuted", "C29_left_3s_h_expect_refuted", "C29_left_3s_h_expect_unset_refuted", "C29_left_3s_none_refuted", "C29_left_one_site_refuted"], "note": "exact arithmetic; settled: right gauge for all (also absent) terms, left gauge when all terms are present and N >= 2; REFUTED as universal claim for the left gauge (absent term or N = 1 raises; three-site h_expect shifted by one entry)"},
 {"property": "C30", "status": "proved", "theorems": ["C30_components_l2", "C30_components_l3", "C30_components_r2", "C30_components_r3", "C30_l2_none_refuted", "C30_l3_dimension_refuted", "C30_l3_missing_term_refuted", "C30_projection_l2", "C30_projection_l3", "C30_projection_r2", "C30_projection_r3", "C30_r3_none_refuted"], "note": "exact arithmetic; eigh and full QR as oracles with contract; settled for two- and three-site terms in both gauges; REFUTED as universal claim for absent terms (three-site right gauge, two-site left gauge raise) and for the three-site left gauge with site-dependent q (IndexError or a silently missing term)"},
 {"property": "C31", "status": "proved", "theorems": ["C31_caller_array_refuted", "C31_none_pattern_l", "C31_none_pattern_r", "C31_rk4", "C31_rk4_given_B", "C31_uniform_formula", "C31_uniform_one_site", "C31_uniform_refuted"], "note": "exact arithmetic; programs on an explicit memory of arrays, vector field arbitrary; settled: classical formula for finite and sandwich classes, with and without B_i; exact result of the uniform class, classical for one site per cell; REFUTED as universal claim for the uniform class with several sites, and the arrays passed as B_i are overwritten"},
 {"property": "C32", "status": "proved", "theorems": ["C32_plain_2s", "C32_plain_3s", "C32_save_memory_2s", "C32_save_memory_3s"], "note": "exact arithmetic; two- and three-site terms, right gauge (the only one with a memory-saving branch); eta bookkeeping not modelled"},
 {"property": "C33", "status": "proved", "theorems": ["C33_block", "C33_bond_dimension", "C33_components", "C33_missing_term_refuted", "C33_orthogonal", "C33_product", "C33_projection", "C33_state", "C33_truncated_correction"], "note": "exact arithmetic; eigh, full QR, svd as oracles with contract; settled for two-site terms: block form, exact polynomial in dtau of every amplitude, bond dimensions, Y as projection of H|psi>; REFUTED as universal claim for absent terms (calc_BB_Y_2s raises)"},
 {"property": "C34", "status": "proved", "theorems": ["C34_absorbed", "C34_all_below", "C34_bond", "C34_defaults_refuted", "C34_exact", "C34_isometry", "C34_no_truncation", "C34_truncation_error", "C34_vanishing_refuted"], "note": "exact arithmetic; svd as an oracle with contract; settled: exact truncation error, isometries, kept dimension; REFUTED as universal claim for the default arguments (TypeError) and min_schmidt above all singular values (bond dimension 0)"},
 {"property": "C35", "status": "proved", "theorems": ["C35_bond_2s", "C35_bond_3s", "C35_hermitian_2s", "C35_hermitian_3s", "C35_norm", "C35_one_site_2s", "C35_one_site_3s", "C35_two_site_2s", "C35_two_site_3s_refuted"], "note": "exact arithmetic; one-site, bond and two-site operators with two-site terms, one-site and bond operators with three-site terms: matrix elements of H, norm-preserving parametrisation, Hermitian; MPO parts in C66; REFUTED for the two-site operator with a three-site Hamiltonian (applies the complex conjugate of a term)"},
 {"property": "C36", "status": "proved", "theorems": ["C36_environments_current", "C36_one_site", "C36_one_site_DMRG", "C36_switch_double_evolution", "C36_time_step", "C36_time_step_refuted", "C36_two_site", "C36_two_site_finite_refuted"], "note": "control flow and array traffic of evolve_split exact, numerical routines arbitrary; settled: environments and gauges current at every local solve for every mix of moves, exact schedules; REFUTED as universal claim: two-site mode raises IndexError on finite chains, switch_to_1site can evolve the last site twice, the real part of a complex step is dropped"},
 {"property": "C37", "status": "proved", "theorems": ["C37_DMRG", "C37_evolution_refuted", "C37_single_site_refuted"], "note": "settled: every non-DMRG call raises (REFUTED as universal claim), the DMRG variant visits every site once per direction for N >= 2, N = 1 raises"},
 {"property": "C38", "status": "proved", "theorems": ["C38_expansion_flag", "C38_float_step_count_refuted", "C38_negative", "C38_reached_time", "C38_replay", "C38_rk4_backwards_refuted", "C38_rk4_remainder", "C38_total_time", "C38_trace", "C38_unknown_integrator_refuted"], "note": "exact arithmetic; system object arbitrary; settled: exact trace, the final state as replay of the logged steps, total and reached time; REFUTED as universal claim: an unknown integrator name makes no step silently, the RK4 branch with expansion steps backwards for dt > 1, int(t/dt) in binary64 loses a step (0.3/0.1)"},
 {"property": "C39", "status": "proved", "theorems": ["C39_energy_rise", "C39_first_call", "C39_interval", "C39_whole_run"], "note": "exact arithmetic; all histories of energies and gradients"},
 {"property": "C40", "status": "proved", "theorems": ["C40_error_estimate", "C40_last_step_refuted", "C40_no_limit", "C40_no_limit_flag_refuted", "C40_one_vector_refuted", "C40_rejected_steps_shrink", "C40_short_vector_refuted", "C40_whole_interval"], "note": "exact arithmetic; estimates, rounding and powers as oracles with contract; settled: sub-steps positive, sum to the whole interval on success, error bound; REFUTED as universal claim: vectors of length 1 are refused, m = 1 divides by zero, mxstep = 0 and finishing on the last allowed step are reported as not converged; termination not claimed"},
 {"property": "C41", "status": "proved", "theorems": ["C41_breakdown_exact", "C41_breakdown_size", "C41_orthonormal", "C41_relation_breakdown", "C41_relation_no_breakdown", "C41_taylor"], "note": "exact arithmetic; modified Gram-Schmidt Arnoldi loop; all polynomials after an exact breakdown, Taylor orders up to m of the corrected scheme otherwise; la.expm itself not modelled"},
 {"property": "C42", "status": "proved", "theorems": ["C42_adjoint", "C42_brute_LOP", "C42_dense", "C42_matvec", "C42_pseudo_inverse", "C42_pseudo_inverse_left"], "note": "exact arithmetic; the iterative solver is outside the model, its solution is a hypothesis"},
 {"property": "C43", "status": "proved", "theorems": ["C43_brute", "C43_brute_sign_refuted", "C43_consistent", "C43_failure", "C43_fixed_point_everywhere", "C43_iterative_rescale", "C43_norm_everywhere", "C43_norm_value", "C43_normalised", "C43_trace"], "note": "exact arithmetic; eigensolvers as oracles (eigenvector equations); settled: brute-force path with negative overlap fails (REFUTED as universal claim)"},
 {"property": "C44", "status": "proved", "theorems": ["C44_correlation", "C44_density_transposed", "C44_expect_1s", "C44_expect_1s_1s", "C44_expect_2s", "C44_expect_2s_refuted", "C44_expect_2s_stale_refuted", "C44_expect_2s_tp", "C44_expect_3s", "C44_exvals_refuted", "C44_string"], "note": "exact arithmetic; settled: one-, two-point and three-site values for every cell length; REFUTED as universal claim: expect_2s uses the wrong right environment and a stale AA, correlation exvals repeat the first operator, density_1s is transposed"},
 {"property": "C45", "status": "proved", "theorems": ["C45_amplitudes", "C45_bijection", "C45_digits", "C45_energy", "C45_environments", "C45_ham", "C45_tensor", "C45_transfer"], "note": "exact arithmetic; Hamiltonian given as an array of 2 or 3 site terms (a callable Hamiltonian is not supported by the code)"},
 {"property": "C46", "status": "proved", "theorems": ["C46_LCF", "C46_LCF_diag_refuted", "C46_LCF_diag_state", "C46_RCF", "C46_SCF", "C46_SCF_singular_refuted"], "note": "exact arithmetic; settled: restore_RCF, restore_LCF(diag_r=False) and restore_SCF for full-rank environments; REFUTED for restore_LCF(diag_r=True), whose stored environments are wrong although the tensors still describe the same state, and for restore_SCF on rank-deficient environments (division by zero)"},
 {"property": "C47", "status": "proved", "theorems": ["C47_amplitudes", "C47_environments", "C47_grow", "C47_round_trip", "C47_same_offset_refuted"], "note": "exact arithmetic; settled: round trip with the negated offset; REFUTED for the same positive offset (ValueError)"},
 {"property": "C48", "status": "proved", "theorems": ["C48_all", "C48_grown_single_site", "C48_init", "C48_left", "C48_norm_const", "C48_offset_refuted", "C48_one_site_window_refuted", "C48_rN1_refuted", "C48_r_np1", "C48_shapes", "C48_uni_right_refuted", "C48_update_norm"], "note": "exact arithmetic; settled for arbitrary tensor and environment types: recursion at all sites left of and inside the window, at all integer sites when the right unit cell divides N and r[N+1] is right; update(restore_CF=False) normalises; shapes; REFUTED as universal claim: index offset when L does not divide N, r[N+1]=r[N] after growing with L=2, r[N+1] with a separate right bulk, one-site window"},
 {"property": "C49", "status": "proved", "theorems": ["C49_centre", "C49_centre_refuted", "C49_grow_left", "C49_grow_left_lr", "C49_grow_right", "C49_grow_right_lr", "C49_grow_right_zero_refuted", "C49_ham3_refuted", "C49_ham_left", "C49_ham_right"], "note": "settled for arbitrary tensor and environment types; REFUTED as universal claim: grow_right(0) raises, the centre site is moved by m instead of m*L, the three-site Hamiltonian term at n=-1 reads the last list entry"},
 {"property": "C50", "status": "proved", "theorems": ["C50_finite", "C50_finite_default_refuted", "C50_finite_long_refuted", "C50_finite_q_refuted", "C50_finite_short", "C50_sandwich_autogrow", "C50_sandwich_autogrow_refuted", "C50_sandwich_autoshrink_refuted", "C50_sandwich_from_file", "C50_sandwich_load", "C50_sandwich_refuse", "C50_tdvp_sandwich_load", "C50_tdvp_sandwich_load_refuted", "C50_uniform", "C50_uniform_expand", "C50_uniform_expand_q_refuted", "C50_uniform_refuse", "C50_uniform_shrink_q_refuted", "C50_uniform_userdata_refuted"], "note": "NumPy's save/load contract trusted; settled: tensors (and the saved environments) come back for the finite class (with a loader that accepts pickled arrays), uniform export/import, sandwich from_file and load_state; REFUTED as universal claim: numpy.load without allow_pickle, q not recovered, expand_q/shrink_q, autogrow with longer unit cells, TDVP sandwich load_state for D > 1"},
 {"property": "C51", "status": "proved", "theorems": ["C51_matvec", "C51_result_not_kept"], "note": "exact arithmetic; arrays as a store with explicit buffers"},
 {"property": "C52", "status": "proved", "theorems": ["C52_last_try_refuted", "C52_retry", "C52_single_try_refuted"], "note": "settled: exact outcome of the retry loop; REFUTED as universal claim (success on the last try reported as failure)"},
 {"property": "C53", "status": "proved", "theorems": ["C53_inverse", "C53_ode_driver_refuted", "C53_roundtrip", "C53_too_short"], "note": "settled: packing is a bijection for all shapes; the driver evolve_scipy_ode itself raises TypeError in its first step (REFUTED as usable)"},
 {"property": "C54", "status": "proved", "theorems": ["C54_AA_refuted", "C54_bracket_fails", "C54_cg", "C54_cg_chain", "C54_chain_ev", "C54_negative_step_refuted", "C54_restore", "C54_skip", "C54_skip_early", "C54_skip_refuted", "C54_value"], "note": "exact arithmetic; the scipy searches are arbitrary adaptive procedures and (for the restoring part) the trial evaluation is an arbitrary function of the object; settled: without skipIfLower every field take_step needs is restored and the returned energy is the energy of the returned step; conjugate gradient never raises the energy for tau >= 0, also instantiated with the finite-chain evaluation. REFUTED as universal claim: skipIfLower, the cached AA, negative steps"},
 {"property": "C55", "status": "proved", "theorems": ["C55_conj_grad", "C55_conj_grad_negative", "C55_first_step", "C55_grad_descent", "C55_im_time", "C55_im_time_negative", "C55_limit_exceeded_refuted"], "note": "exact arithmetic; settled: exact iteration/step/callback counts; REFUTED as universal claim: opt_grad_descent can report max_itr + 1"},
 {"property": "C56", "status": "proved", "theorems": ["C56_from_tensors_exact", "C56_over_complete_rejected_refuted"], "note": "settled: exact acceptance domain; REFUTED as universal claim (over-complete bond dimensions rejected)"},
 {"property": "C57", "status": "proved", "theorems": ["C57_kernels_stay_in_block", "C57_left_kernel", "C57_right_kernel"], "note": "exact arithmetic; BLAS by its reference definition"},
 {"property": "C58", "status": "proved", "theorems": ["C58_K_2s", "C58_K_3s", "C58_K_tp", "C58_K_traceless_2s", "C58_K_traceless_3s", "C58_energy_density_2s", "C58_energy_density_3s", "C58_energy_density_tp", "C58_window_norm"], "note": "exact arithmetic; the linear solver is an oracle with its equation as hypothesis (C42 shows what that operator is)"},
 {"property": "C59", "status": "proved", "theorems": ["C59_calc_B", "C59_complete", "C59_components_2s", "C59_components_3s", "C59_gauge", "C59_isometry", "C59_orthogonal_sites", "C59_orthogonal_to_state", "C59_projection_2s", "C59_projection_3s", "C59_x_tp"], "note": "exact arithmetic; eigh and qr as oracles with contract; orthogonality, gauge and components need no rank condition, isometry, completeness and the projection need full rank"},
 {"property": "C60", "status": "proved", "theorems": ["C60_K_left_refuted", "C60_energy_density_2s", "C60_energy_density_3s", "C60_last_bond", "C60_one_site", "C60_other_bonds", "C60_tp", "C60_window_2s", "C60_window_3s"], "note": "exact arithmetic; settled: energy density, K_left[L-1] and its unique family of left environments for every L, all of K_left for L = 1; REFUTED as universal claim for L > 1 (the loop uses self.K)"},
 {"property": "C61", "status": "proved", "theorems": ["C61_bulks", "C61_canonical", "C61_same_state"], "note": "exact arithmetic; eigh, cholesky and the triangular inverse as oracles with contract; calc_lr of the bulks is the input of the model; full-rank environments, N >= 2 (for N = 1 the centre site is 0 and the code does not work)"},
 {"property": "C62", "status": "proved", "theorems": ["C62_energies", "C62_gauge_norm", "C62_projection", "C62_uniform"], "note": "exact arithmetic; eigh and qr as oracles with contract; the chain is seen through a finite number of sites with arbitrary boundary matrices and bulk energy environments; C62_uniform ties them to what the uniform class computes; the loop bounds q[0], q[2] of calc_B_centre must agree with the dimensions at the centre"},
 {"property": "C63", "status": "proved", "theorems": ["C63_centre_refuted", "C63_energies", "C63_projection", "C63_tangent", "C63_uniform"], "note": "exact arithmetic; eigh and qr as oracles with contract; settled: exact energies, exact offset used by calc_B_centre (h_expect is shifted by one entry left of the centre), projection when the energies concerned agree; REFUTED as universal claim: otherwise the tangent vector is not orthogonal to a normalised state"},
 {"property": "C64", "status": "proved", "theorems": ["C64_misplaced", "C64_step_2s", "C64_step_3s"], "note": "exact arithmetic; eigh and qr as oracles with contract; the noise samples are arguments; right gauge, plain Euler step (save_memory and dynamic expansion are covered by other properties); three-site terms need a term or an operator on every site, as in C30"},
 {"property": "C65", "status": "proved", "theorems": ["C65_orthogonal_refuted", "C65_overlap", "C65_projector", "C65_result"], "note": "exact arithmetic; settled: the result is op - <op^+ op>, orthogonal exactly when <op^+ op> = <op>; REFUTED as universal claim (op = 2)"},
 {"property": "C66", "status": "proved", "theorems": ["C66_bond", "C66_components", "C66_energy", "C66_hermitian", "C66_loops", "C66_one_site", "C66_projection", "C66_stale_eta_refuted"], "note": "exact arithmetic; eigh and qr as oracles with contract; settled: eta is exact when eta_sq is zero at the sites without right-gauge tangent vectors, otherwise (e.g. after a left-gauge calc_B) exactly these entries are added"},
 {"property": "C67", "status": "proved", "theorems": ["C67_fidelity", "C67_gauge_align", "C67_gauge_copy", "C67_gauge_fidelity", "C67_intertwiner", "C67_no_align", "C67_phase_align", "C67_phase_cells_refuted"], "note": "exact arithmetic; eigenvalue routine (dense or largest-magnitude sparse) and eigh as oracles with contract (a routine satisfying it is constructed); settled: bound, equality case in both directions, gauge_align for equal cell lengths; REFUTED as universal claim: phase_align with cells of 1 and 2 sites"},
 {"property": "C68", "status": "proved", "theorems": ["C68_dmrg_2s", "C68_dmrg_3s"], "note": "exact arithmetic; eigsh and qr as oracles with contract (routines satisfying them are constructed); two_site=False, bond dimensions that the QR steps keep (dims_ok), KL_bulk = KR_bulk = None"},
 {"property": "C69", "status": "proved", "theorems": ["C69_complex_step_refuted", "C69_conservation_2s", "C69_conservation_3s"], "note": "exact arithmetic; gexpmv as oracle: for i times a Hermitian operator a unitary commuting with it (the Cayley transform is shown to satisfy the contract); two_site=False, dims_ok; settled: a complex step acts like its imaginary part, so the energy is conserved for every complex step with nonzero imaginary part"},
 {"property": "C70", "status": "proved", "theorems": ["C70_quasi_optimal", "C70_rank_bound", "C70_restore_and_truncate", "C70_single_bond_optimal", "C70_split_optimal", "C70_state_bound"], "note": "exact arithmetic; svd, qr and eigh as oracles with contract (for the last theorem eigh returns the eigenvector 1 for 1x1 matrices, as LAPACK does); the left canonical form is not treated"},
 {"property": "C71", "status": "proved", "theorems": ["C71_bound", "C71_gauge", "C71_lead", "C71_leading", "C71_occupancy", "C71_phase_refuted", "C71_virtop"], "note": "exact arithmetic; eigs(which=LM, k=1) as oracle with contract (a routine satisfying it is constructed), the complex power 1/L as a function with pw(z)^L = z; settled: bound, both directions of the symmetry statement, phase convention for a non-degenerate largest Schmidt coefficient; REFUTED as universal claim: degenerate largest coefficient (dimer state, spin flip)"},
 {"property": "C72", "status": "proved", "theorems": ["C72_mismatch", "C72_overlap", "C72_same", "C72_single_site", "C72_single_site_refuted"], "note": "exact arithmetic; eigenvalue routine as oracle with contract (a routine satisfying it is constructed); the other state has the same bond dimensions; settled: windows of two or more sites, mismatching bulks; REFUTED as universal claim: window of one site (two normalised states with overlap 3/5 give 9/25)"},
 {"property": "C73", "status": "proved", "theorems": ["C73_momentum0", "C73_momentum_refuted", "C73_pseudo", "C73_right", "C73_value"], "note": "exact arithmetic; the iterative linear solver as oracle (solves its equation exactly); settled: exact factor of every site, p = 0, right bulk, pseudo-inverse with equal bulks; REFUTED as universal claim: p != 0 (bond dimension 1, p = pi)"},
 {"property": "C74", "status": "proved", "theorems": ["C74_connected", "C74_connected_iff", "C74_connected_refuted", "C74_expect_1s", "C74_expect_2s", "C74_joint", "C74_norm", "C74_outside", "C74_uniform", "C74_uniform_connected"], "note": "exact arithmetic; settled: single-site, two-site and joint values for all windows, exact condition under which c is the connected correlation; REFUTED as universal claim: c subtracts the product of the values at the same site (product state 0 1 0, Z)"},
 {"property": "C75", "status": "proved", "theorems": ["C75_gauge", "C75_gauge2", "C75_gf1", "C75_gf2", "C75_gf_both", "C75_herm", "C75_parallel", "C75_sum"], "note": "exact arithmetic; the iterative linear solver as oracle (solves its equation exactly, operator nonsingular; an instance is given); L = 1, M = 1, other=None; allclose(BRblock, 0) is the exact test"},
 {"property": "C76", "status": "proved", "theorems": ["C76_coordinates", "C76_exact", "C76_fixed", "C76_gf", "C76_null", "C76_overlap", "C76_param", "C76_positive", "C76_unique"], "note": "exact arithmetic; eigh, QR and the iterative linear solver as oracles with contracts; L = 1, M = 1; full rank of l and r as hypothesis for all theorems but C76_gf; allclose(BRblock, 0) is the exact test"},
 {"property": "C77", "status": "proved", "theorems": ["C77_all_degenerate_refuted", "C77_corr", "C77_degenerate", "C77_gap", "C77_gap_nan", "C77_gap_order", "C77_nan", "C77_product"], "note": "exact arithmetic; the eigenvalues returned by the solver are the input, log is any function; settled: value for every spectrum; REFUTED as universal claim: nan only for one eigenvalue, not for a degenerate spectrum"},
 {"property": "C78", "status": "proved", "theorems": ["C78_callbacks", "C78_expansion", "C78_im_numbers", "C78_max_itr_0_refuted", "C78_no_expansion", "C78_reached", "C78_stuck"], "note": "the optimisers are functions with the contract that C55 proves for opt_im_time (C78_im_numbers); settled: callbacks, targets, number of turns; REFUTED as universal claim: no return when the expansion does not raise D (max_itr = 0)"},
 {"property": "C79", "status": "proved", "theorems": ["C79_calls", "C79_ncv_default", "C79_ncv_shrinks_refuted", "C79_outcome", "C79_reproducible", "C79_success_lost_refuted"], "note": "eigsh as arbitrary function of call number, v0 and ncv; settled: C79_outcome describes every run; REFUTED as universal claim: success can be lost, ncv can shrink"}
]}
