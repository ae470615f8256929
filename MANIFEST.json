{
 "claims": [
  {
   "property": "C01",
   "status": "proved",
   "theorems": [
    "C01_no_failure",
    "C01_live_distinct",
    "C01_fresh"
   ],
   "note": "block manager, all histories and all GC trigger outcomes; size_t wrap-around separately in C31"
  },
  {
   "property": "C02",
   "status": "proved",
   "theorems": [
    "C02_contiguous"
   ],
   "note": ""
  },
  {
   "property": "C03",
   "status": "proved",
   "theorems": [
    "C03_read_last_write"
   ],
   "note": ""
  },
  {
   "property": "C04",
   "status": "proved",
   "theorems": [
    "C04_count",
    "C04_no_leak"
   ],
   "note": ""
  },
  {
   "property": "C05",
   "status": "proved",
   "theorems": [
    "C05_no_failure",
    "C05_live_distinct",
    "C05_range",
    "C05_read_last_write",
    "C05_count",
    "C05_block_request_rejected"
   ],
   "note": ""
  },
  {
   "property": "C31",
   "status": "proved",
   "theorems": [
    "C31_fitting_request_served",
    "C31_other_requests",
    "C31_nontrivial",
    "C31_too_many_locations_refuted"
   ],
   "note": "the documented error is never raised (refuted); the requests that are served are characterised exactly, in 64-bit arithmetic, together with the effect of all others"
  },
  {
   "property": "C06",
   "status": "proved",
   "theorems": [
    "C06_forward_sweep_reads_recorded_trace",
    "C06_C07_any_sweep_history",
    "C06_large_buffer_refuted",
    "C06_many_params_refuted",
    "C06_small_lbufsize_refuted"
   ],
   "note": "all recordings, all contents, all buffer sizes in the stated range, every series of sweeps; outside the range three refutations"
  },
  {
   "property": "C07",
   "status": "proved",
   "theorems": [
    "C07_reverse_sweep_reads_recorded_trace",
    "C06_C07_any_sweep_history",
    "C07_empty_value_file_refuted",
    "C07_params_over_block_refuted"
   ],
   "note": "under the guard reverse_ok (parameters inside the last value block, value file not empty); the two refutations show the guard is needed"
  },
  {
   "property": "C11",
   "status": "proved",
   "theorems": [
    "C11_replay_at_recording_point",
    "C11_double",
    "C11_signed_zero_refuted",
    "C11_frexp_refuted"
   ],
   "note": "all well-behaved programs (guards listed in AdPlain.v: allowed, wellbehaved), all garbage in the sweep's memory; two refutations show where the guards are needed"
  },
  {
   "property": "C12",
   "status": "proved",
   "theorems": [
    "C12_replay_at_new_point",
    "C12_replay_completes",
    "C12_double"
   ],
   "note": "same guards as C11 at the new point only"
  },
  {
   "property": "C13",
   "status": "proved",
   "theorems": [
    "C13_branch_switch_reported",
    "C13_error_reported",
    "C13_nan_refuted"
   ],
   "note": "for comparisons of ordered (non-NaN) values; refuted for NaN"
  },
  {
   "property": "C17",
   "status": "proved",
   "theorems": [
    "C17_new_parameters"
   ],
   "note": "zero order sweep"
  },
  {
   "property": "C27",
   "status": "proved",
   "theorems": [
    "C27_fmin_tmp_first",
    "C27_fmin_tmp_second",
    "C27_fmax",
    "C27_fabs",
    "C27_condassign",
    "C27_condassign_short",
    "C27_condeqassign",
    "C27_condeqassign_short",
    "C27_fmin_named_refuted",
    "C27_fmin_nan_refuted"
   ],
   "note": "IEEE double; fmin of two named variables is refuted, NaN operands are refuted"
  },
  {
   "property": "C32",
   "status": "proved",
   "theorems": [
    "C32_tracing_keeps_values",
    "C32_tracing_keeps_errors",
    "C32_compare_constant",
    "C32_compare_variables",
    "C32_compare_infinite_refuted"
   ],
   "note": "well-behaved programs; comparisons for finite doubles"
  },
  {
   "property": "C33",
   "status": "proved",
   "theorems": [
    "C33_selections_unchanged",
    "C33_double",
    "C33_nontrivial",
    "C33_condassign_short_refuted"
   ],
   "note": "zero order sweep; exact for fmin/fabs/ceil/floor/condassign/condeqassign, one-directional for the forms without else (the refutation shows why the code cannot give more there); guard: no selection looks at a NaN (definite)"
  },
  {
   "property": "C15",
   "status": "proved",
   "theorems": [
    "C15_adjoint",
    "C15_trace",
    "C15_gradient",
    "C15_redeclared_independent_refuted",
    "C15_redeclared_dependent_refuted",
    "C15_used_dependent_refuted",
    "C15_eq_plus_prod_double_refuted"
   ],
   "note": "exact (real) arithmetic; programs accepted by the decidable check prog_ok (all scalar calls and vec_dot); the refutations show which programs the check has to exclude, and what rounding does to y += a*b"
  },
  {
   "property": "C16",
   "status": "proved",
   "theorems": [
    "C16_restores",
    "C16_stack_empty",
    "C16_after_recording",
    "C16_scalar_recording",
    "C16_scalar_sweep",
    "C16_double",
    "C16_vec_copy_refuted"
   ],
   "note": "any arithmetic, hence IEEE double; excluded: fused y += a*b (exact arithmetic only, see C15), vec_copy / vec_axpy (refuted)"
  },
  {
   "property": "C14",
   "status": "proved",
   "theorems": [
    "C14_directional_derivative",
    "C14_program",
    "C14_trace"
   ],
   "note": "exact (real) arithmetic, along every differentiable curve through the point; programs accepted by prog_ok and fprog (all scalar calls); points where every elementary operation is differentiable (smooth_run)"
  },
  {
   "property": "C08",
   "status": "proved",
   "theorems": [
    "C08_value_stack",
    "C08_recorded_stack",
    "C08_delete_scaylor",
    "C08_exactly_full_refuted",
    "C08_get_taylors_across_boundary_refuted",
    "C08_block_longer_than_buffer_refuted"
   ],
   "note": "all histories of pushes, all buffer sizes, any number of full or partial reverse sweeps; the guards (legal, fits, number of values not equal to the buffer size) are shown necessary by the three refutations"
  },
  {
   "property": "C09",
   "status": "proved",
   "theorems": [
    "C09_sections",
    "C09_one_section",
    "C09_fresh_tapes",
    "C09_unknown_tape",
    "C09_not_tracing",
    "C09_many_tapes_refuted",
    "C09_failed_trace_on_refuted"
   ],
   "note": "all properly nested programs, any depth, any number of tapes up to 65536; a failed trace_on whose exception is caught is refuted, as is the 65537th tape"
  },
  {
   "property": "C10",
   "status": "proved",
   "theorems": [
    "C10_plain_starts",
    "C10_unknown_tape",
    "C10_nontrivial",
    "C10_explicit_sizes_refuted",
    "C10_operation_after_it_undefined",
    "C10_plain_return_value"
   ],
   "note": "trace_on(tag, keep) starts the trace as documented except for its return value; the overload with buffer sizes never starts a trace (refuted for every state and every size)"
  },
  {
   "property": "C18",
   "status": "proved",
   "theorems": [
    "C18_safe_pattern_covers",
    "C18_tight_pattern_covers",
    "C18_safe_pattern_derivative",
    "C18_tight_pattern_derivative",
    "C18_rows_sorted",
    "C18_tight_rows_sorted",
    "C18_index_domains_fit",
    "C18_tight_index_domains_fit",
    "C18_divide_by_temporary_refuted",
    "C18_condassign_to_second_operand_refuted",
    "C18_axpy_in_place_refuted",
    "C18_tight_short_condassign_refuted"
   ],
   "note": "value form for any arithmetic, derivative form over the reals; the guard patternable excludes exactly the four situations that are refuted (result replaces second operand, axpy in place, short condassign in tight mode) and reading the helper location of sin/cos"
  },
  {
   "property": "C28",
   "status": "proved",
   "theorems": [
    "C28_vector",
    "C28_matrix",
    "C28_tensor",
    "C28_identity",
    "C28_free",
    "C28_overflow_refuted"
   ],
   "note": "64 bit data model; every series of writes; requests whose byte size fits in size_t (otherwise refuted: the size wraps, no error is raised)"
  },
  {
   "property": "C29",
   "status": "proved",
   "theorems": [
    "C29_spread1",
    "C29_pack1",
    "C29_spread2",
    "C29_pack2",
    "C29_pack_spread2",
    "C29_spread_pack2",
    "C29_spread3",
    "C29_pack3",
    "C29_spread_pack3",
    "C29_pack_spread3"
   ],
   "note": "all int dimensions, all contents"
  },
  {
   "property": "C22",
   "status": "proved",
   "theorems": [
    "C22_binomi",
    "C22_bijection",
    "C22_quadratic",
    "C22_value",
    "C22_tensorentry",
    "C22_freetensor",
    "C22_freetensor_refuted",
    "C22_permutation_refuted",
    "C22_tensor_value_refuted",
    "C22_coeff_address",
    "C22_directions"
   ],
   "note": "TnModel/TnSpec/TnProofs/TnEnum/TnProps. Proved for the documented (non-increasing) multi-indices; the permuted indices of the manual's example, tensor_value and freetensor for d=1 are refuted with witnesses. binomi is modelled in exact integer arithmetic."
  },
  {
   "property": "C34",
   "status": "proved",
   "theorems": [
    "C34_tensor_eval"
   ],
   "note": "TnInterp/TnCoeffModel/TnCoeffProofs/TnCoeffEval/TnEval: real arithmetic; the Taylor coefficients returned by the forward sweep are a hypothesis (they are those of F); all earlier call histories; loops without a static bound carry fuel and a bound on it is proved to exist"
  },
  {
   "property": "C25",
   "status": "proved",
   "theorems": [
    "C25_conv",
    "C25_inconv",
    "C25_deconv",
    "C25_inconv0",
    "C25_deconv0",
    "C25_divide",
    "C25_recipr",
    "C25_quotient_unique",
    "C25_zeroset",
    "C25_copyAndZeroset",
    "C25_inconv0_square_refuted",
    "C25_divide_in_place_refuted",
    "C25_recipr_dim0_refuted"
   ],
   "note": "ConvModel/ConvSpec/ConvProofs/ConvProps: all dimensions, all contents, all placements of the arrays that the guards allow (in-place product and in-place numerator included); three refutations show the guards are needed. Real arithmetic."
  },
  {
   "property": "C20",
   "status": "proved",
   "theorems": [
    "C20_values",
    "C20_derivatives",
    "C20_two_sided",
    "C20_getset",
    "C20_setADValues",
    "C20_nontrivial",
    "C20_atan2_refuted",
    "C20_default_ctor_refuted"
   ],
   "note": "TlModel/TlSpec/TlDeriv/TlProofs/TlProps: all operators and functions of adtl.h over the reals, all programs with branches, any number of directions; derivative along every curve (one-sided, so fabs/fmax/fmin at kinks are included); domain conditions are in good; atan2 at b = 0 and the default constructor are refuted"
  },
  {
   "property": "C23",
   "status": "proved",
   "theorems": [
    "C23_schedule",
    "C23_optimal",
    "C23_too_many_steps",
    "C23_overflow_refuted",
    "C23_maxrange",
    "C23_nontrivial"
   ],
   "note": "RevModel/RevSpec/RevProofs/RevInv/RevProps: every number of steps and snapshots with 1<=snaps<=1000, steps within binomial(snaps+1000,snaps) and steps*2000<=MAXINT, any contents of the global rev_num before; termination, at most snaps snapshots, steps turned in reverse order, and the number of advanced steps is numforw, which is optimal among all schedules; outside the int range refuted; maxrange's double arithmetic is taken as exact"
  },
  {
   "property": "C24",
   "status": "proved",
   "theorems": [
    "C24_adjoint",
    "C24_value",
    "C24_tangent",
    "C24_gradient",
    "C24_nontrivial",
    "C24_gradient_nontrivial",
    "C24_two_loops_refuted",
    "C24_second_reverse_refuted"
   ],
   "note": "CpModel/CpSpec/CpProofs/CpProps/CpGrad: every step function, every admissible number of steps and checkpoints, with and without retaping, with and without saveNonAdoubles; the sweeps of the one-step tape are a hypothesis (faithful, reusable: C11-C16). Two loops on one tape and a second reverse sweep are refuted"
  },
  {
   "property": "C26",
   "status": "proved",
   "theorems": [
    "C26_function",
    "C26_gradient",
    "C26_vec_jac",
    "C26_jacobian",
    "C26_large_jacobian",
    "C26_large_jacobian_fits",
    "C26_jac_vec",
    "C26_lagra_hess_vec",
    "C26_hess_vec",
    "C26_hess_mat",
    "C26_hessian",
    "C26_hessian2",
    "C26_nontrivial",
    "C26_trace_exact",
    "C26_program_exact",
    "C26_recorded_gradient",
    "C26_recorded_jacobian",
    "C26_recorded_met",
    "C26_vec_jac_repeat_refuted",
    "C26_large_jacobian_refuted"
   ],
   "note": "DrvModel/DrvSpec/DrvProps: all drivers of drivers.cpp, all shapes, real arithmetic; what the sweeps return at the point when their code is not negative is the hypothesis exact1 / exact2; DrvTrace proves exact1 for the first order sweeps of every recorded program (C12, C14, C15, C38, C39, C40), so gradient, jacobian, vec_jac, jac_vec, function and large_jacobian are end to end; exact2 (second order sweeps) is assumed. vec_jac with repeat always returns a negative code (refuted); large_jacobian leaves its arrays for some numbers of runs (refuted, guard fits)"
  },
  {
   "property": "C21",
   "status": "proved",
   "theorems": [
    "C21_taylor",
    "C21_path",
    "C21_program",
    "C21_trace",
    "C21_first_coefficient",
    "C21_pow_at_zero_refuted",
    "C21_cbrt_refuted"
   ],
   "note": "HosModel/HosSpec/HosTay/HosFun/HosLoops/HosProofs/HosProps/HosEx: hos_forward (one direction, no keep), every degree, every opcode's coefficient loop, result location equal to an operand allowed; real arithmetic, along every curve with the given coefficients, at points where every elementary operation is smooth. pow with an integer exponent at 0 is refuted (misplaced parenthesis, second coefficient stale), cbrt stops the program (refuted)"
  },
  {
   "property": "C19",
   "status": "proved",
   "theorems": [
    "C19_safe_pattern_covers",
    "C19_tight_pattern_covers",
    "C19_safe_mixed_derivative",
    "C19_tight_mixed_derivative",
    "C19_safe_pattern_shape",
    "C19_tight_pattern_shape",
    "C19_safe_pattern_defined",
    "C19_tight_pattern_defined",
    "C19_example",
    "C19_short_condassign_refuted",
    "C19_safe_fmin_refuted",
    "C19_safe_condassign_refuted",
    "C19_stock_refuted",
    "C19_vec_dot_refuted"
   ],
   "note": "NlModel/NlSpec/NlProofs/NlProps/NlEx: real arithmetic for the second difference and the mixed derivative, any arithmetic for shape (symmetric, sorted, in range) and for definedness; guards hpatternable, piece, assigned. Refuted: short condassign (entry missed), fmin / condassign in safe mode, variables alive before trace_on (uninitialised memory read), vec_dot / vec_axpy (count of dependents wrong)"
  },
  {
   "property": "C30",
   "status": "proved",
   "theorems": [
    "C30_extended_jacobian",
    "C30_piecewise_linear_exact",
    "ex30_recorded",
    "C30_signature_gradient_refuted",
    "C30_branch_switch_unreported_refuted"
   ],
   "note": "AnfModel/AnfSpec/AnfProofs/AnfDeriv/AnfProps/AnfEx: abs_normal for every recorded program, at every point, kinks included; real arithmetic. The matrices are the partial derivatives of the cut-open function, L strictly lower triangular, and for piecewise linear programs the abs-normal form with updateCy/updateCz reproduces y and z at every other point. A point on another recorded branch is not reported (refuted) and fos_pl_sig_reverse loses the gradient through |.| (refuted)"
  },
  {
   "property": "C35",
   "status": "proved",
   "theorems": [
    "C35_factor_and_solve",
    "C35_solution",
    "C35_refused",
    "C35_nontrivial",
    "C35_after_failure_refuted",
    "C35_traced_again_refuted",
    "C35_after_branch_switch_refuted",
    "C35_after_mode_0_refuted"
   ],
   "note": "LinModel/LinSpec/LinProofs/LinProps: real arithmetic, every dimension; a negative code is given only for a Jacobian within 1e-15 of a singular one (C35_refused); the guard in_order (a mode 2 call at the same point follows a successful mode 1/2 call of the same trace) is shown necessary by the four refutations: the cached factors are used after a failed factorisation, after re-tracing, after a negative sweep code and after mode 0"
  },
  {
   "property": "C36",
   "status": "proved",
   "theorems": [
    "C36_last_trace",
    "C36_nontrivial",
    "C36_stale_files_refuted",
    "C36_C37_refuted_concrete"
   ],
   "note": "HistModel/HistProps: for tapes whose earlier traces left no file that the new trace does not write anew (no_stale); otherwise refuted: *_FILE_ACCESS is never reset, so after trace_off(1) a trace of the same length kept in memory is never evaluated, the sweeps replay the old one from disk"
  },
  {
   "property": "C37",
   "status": "proved",
   "theorems": [
    "C37_parameters_used",
    "C37_nontrivial",
    "C37_disk_refuted",
    "C37_wrong_number_refuted",
    "C36_C37_refuted_concrete"
   ],
   "note": "HistModel/HistProps: all histories of sweeps and set_param_vec calls on a tape that is not entirely on disk. Refuted for tapes on disk (openTape reloads the recorded parameters before every sweep) and for the promise after a wrong number (the tape stays in write mode, all later calls fail)"
  },
  {
   "property": "C38",
   "status": "proved",
   "theorems": [
    "C38_columns",
    "C38_first_column",
    "C38_jacobian_product",
    "C38_log_at_zero_refuted",
    "C38_C39_met"
   ],
   "note": "VecModel/VecProps: column l of fov_forward = fos_forward with direction l over any arithmetic, and = the directional derivative over the reals; guard logs_fine (no logarithm at 0), refuted without it: after one direction asked for NaN all later directions get NaN."
  },
  {
   "property": "C39",
   "status": "proved",
   "theorems": [
    "C39_rows",
    "C39_single_row",
    "C39_adjoint",
    "C39_jacobian",
    "C39_subscript_refuted",
    "C38_C39_met"
   ],
   "note": "VecModel/VecProps: row l of fov_reverse = fos_reverse with weight l; Z = U*J and the Jacobian over the reals; guard: no read through an advector (refuted: fo_rev.cpp:2029 does not advance the adjoint pointer) or a single weight."
  },
  {
   "property": "C40",
   "status": "proved",
   "theorems": [
    "C40_reported",
    "C40_recording",
    "C40_history",
    "C40_forward_counts",
    "C40_forward_reads",
    "C40_reverse_counts",
    "C40_reverse_weights",
    "C40_met",
    "C40_C41_histories",
    "C40_vec_dot_refuted"
   ],
   "note": "StatModel/StatProps: any arithmetic, every opcode of the model, every history of a tape; guard no_vec_product: adolc_vec_dot and adolc_vec_axpy add to the number of dependents (refuted: one output, 5 reported, the gradient of the only output is taken from a weight the user did not give)"
  },
  {
   "property": "C41",
   "status": "proved",
   "theorems": [
    "C41_trace_on_accepted",
    "C40_history",
    "C40_C41_histories",
    "C41_rejected_sweep_refuted"
   ],
   "note": "StatModel/StatProps: all histories without refused sweeps; a sweep refused for its arguments throws before end_sweep and leaves the tape in read mode, after which every trace_on fails until a sweep is accepted (refuted)"
  },
  {
   "property": "C42",
   "status": "proved",
   "theorems": [
    "C42_forward_case",
    "C42_reverse_case",
    "C42_image_injective",
    "C42_recording_exists",
    "C42_sweeps_perform_the_recorded_program",
    "C42_met",
    "C42_bits_tight_case",
    "C42_bits_tight_case_refuted",
    "C42_bits_tight_refuted"
   ],
   "note": "LayModel/LayProps: every opcode of the model, any arithmetic, all buffer sizes, all histories of sweeps, composed with C06/C07 and with the recorder of C11; the conditional assignments in the tight variant of int_forward (bit pattern sparsity) take one constant too many (refuted)"
  },
  {
   "property": "C43",
   "status": "proved",
   "theorems": [
    "C43_hos_ti_reverse",
    "C43_forward_completes",
    "C43_met",
    "C43_pow_refuted",
    "C43_floor_refuted"
   ],
   "note": "HrvModel/HrvProps: over the reals, every smooth opcode incl. aliasing; guard reverse_ok: no cbrt/ceil/floor and |argument| of pow above the 10E-20 threshold of ho_rev.cpp; refuted outside the guard for pow(x,3) at 0 (derivative row overwritten) and floor (top adjoint coefficient survives)"
  },
  {
   "property": "C44",
   "status": "proved",
   "theorems": [
    "C44_second_order_adjoint",
    "C44_lagra_hess_vec",
    "C44_hess_vec",
    "C44_hessian",
    "mixed_second",
    "C44_met"
   ],
   "note": "HrvHess: the drivers of C26 composed with fos_forward keep = 2 and hos_reverse of degree 1, about the program `computed` the user wrote; guards as in C43"
  },
  {
   "property": "C45",
   "status": "proved",
   "theorems": [
    "C45_forode",
    "C45_completes",
    "C45_met",
    "C45_met_run"
   ],
   "note": "OdeModel/OdeFor over the reals, about the program `computed` the user wrote; the solution is any curve with x' = tau F(x) on which the program takes the recorded branches; C45_completes: no cbrt in the trace (hos_forward throws on it)"
  },
  {
   "property": "C46",
   "status": "proved",
   "theorems": [
    "C46_accode",
    "C46_accode_sparse",
    "C46_fundamental",
    "C46_accode_fundamental",
    "C46_accode_sparse_fundamental",
    "C46_met",
    "C46_in_place_refuted",
    "C46_negative_entry_refuted",
    "C46_exit_bound_refuted"
   ],
   "note": "OdeModel/OdeAcc/OdeFund; guards: A and B different arrays and no negative entry in nonzero; the comment of accodec promises more in three places, each refuted: A overwritten by B, negative entries, the bound k <= -nonzero on return"
  },
  {
   "property": "C47",
   "status": "proved",
   "theorems": [
    "C47_safe_forward_covers",
    "C47_safe_forward_only_chains",
    "C47_safe_forward_rows",
    "C47_safe_forward_returns",
    "C47_tight_forward_covers",
    "C47_tight_forward_only_chains",
    "C47_tight_forward_rows",
    "C47_tight_forward_returns",
    "C47_C48_safe_example",
    "C47_tight_example",
    "C47_constant_row_null_refuted",
    "C47_many_independents_crash_refuted",
    "C47_fmin_wide_refuted",
    "C47_short_condassign_refuted"
   ],
   "note": "BvModel/BvSpec/BvProps, any arithmetic, any word width; guards fwd_keeps (safe: no short conditional assignment, no fmin with more than one word of independents) and no_tie (tight), refuted without: fmin only handles the first word, condassign(a,b,c) overwrites the row; a row without entries stays a null pointer, and with more than 30 words the driver reads through it. The tight sweep with conditional assignments is not modelled (it misreads the tape, C42_bits_tight_refuted)"
  },
  {
   "property": "C48",
   "status": "proved",
   "theorems": [
    "C48_safe_reverse_covers",
    "C48_safe_reverse_only_chains",
    "C48_safe_reverse_rows",
    "C48_safe_reverse_returns",
    "C48_tight_reverse_covers",
    "C48_tight_reverse_only_chains",
    "C48_tight_reverse_rows",
    "C48_tight_reverse_returns",
    "C48_jac_pat_safe_covers",
    "C47_C48_safe_example",
    "C48_tight_example",
    "C48_short_condassign_refuted",
    "C48_dependent_reused_refuted",
    "C48_fabs_at_zero_refuted",
    "C48_division_wrong_branch_refuted"
   ],
   "note": "BvModel/BvSpec/BvProps, any arithmetic, any word width; guards rev_keeps (no dependent is read after its declaration, no overlapping vector operations, no short conditional assignment in safe mode), traceable and tight_ok (tight: values needed for a decision are restored; no division, no fabs at 0), each refuted without"
  },
  {
   "property": "C49",
   "status": "proved",
   "theorems": [
    "C49_directions",
    "C49_single",
    "C49_taylor",
    "C49_met",
    "C49_log_at_zero_refuted",
    "C49_pow_at_zero_refuted"
   ],
   "note": "HovModel/HovProofs/HovProps: hov_forward opcode by opcode with its pointers into the rows; any arithmetic, compared with hos_forward (C21); guard dirs_fine: no log of 0, no pow with base 0 (in these cases an infinity or a pointer left behind by one direction leaks into the next: both refuted in binary64); no guard needed for one direction"
  },
  {
   "property": "C50",
   "status": "proved",
   "theorems": [
    "C50_tensor_eval",
    "line_taylor",
    "C50_met"
   ],
   "note": "TnTaylor/TnTrace: C34 composed with fov_forward (C38) and hov_forward (C49) on the trace of a program; G is any family of partial derivatives of z -> F(x+Sz) around 0 (directional derivatives linear in the direction); guards: no cbrt in the trace unless d = 1 (hov_forward throws), smooth operations at x, the recorded branches near x; over the reals"
  },
  {
   "property": "C51",
   "status": "proved",
   "theorems": [
    "C51_directions",
    "C51_taylor",
    "C51_hess_mat",
    "C51_hessian2",
    "ordinary_fine",
    "C51_met",
    "C51_dead_product_refuted",
    "C51_vec_axpy_refuted"
   ],
   "note": "VrvModel/VrvProofs/VrvRun/VrvProps: any arithmetic for C51_directions (each direction of the pair = the scalar pair of C43), then the reals and the drivers about the program `computed`; guard directions_ok: no vec_axpy, no floor with an adjoint, no y += a*b / y -= a*b whose result has no adjoint, no minimum of equal values (ordinary_fine: a condition on the trace alone that implies it); refuted outside the guard: a product added to a variable nobody reads any more is undone in direction 0 once per direction, vec_axpy is differentiated in direction 0 only"
  },
  {
   "property": "C52",
   "status": "proved",
   "theorems": [
    "C52_rows",
    "C52_taylor",
    "C52_hov_reverse",
    "C52_pattern",
    "rowwise_fine",
    "C52_met",
    "C52_vec_axpy_refuted",
    "C52_fabs_refuted",
    "C52_inplace_pattern_refuted",
    "C52_inplace_refuted"
   ],
   "note": "HvrModel/HvrProps/HvrQuiet/HvrReal/HvrEx: any arithmetic for C52_rows (each row = the scalar sweep of C43), then the reals; guard row_fine: no vec_axpy, no floor/ceil with an adjoint, no fabs with an adjoint in a row other than the first (rowwise_fine: a condition on the trace alone); C52_pattern holds for every trace without an in-place vec_axpy; refuted outside the guards: vec_axpy is differentiated in row 0 only, fabs reads behind two arrays, in-place vec_axpy loses its flag and with it the adjoint"
  },
  {
   "property": "C53",
   "status": "proved",
   "theorems": [
    "C53_scalarcv",
    "C53_scalarc",
    "C53_gradientcv",
    "C53_gradientc",
    "C53_covector",
    "C53_bracket",
    "C53_met",
    "C53_met_run",
    "C53_overflow_refuted",
    "C53_d1_refuted"
   ],
   "note": "LieSpec/LieCore/LieModel/LieLoops/LieProps/LieDrv/LieEx/LieBin: over the reals, against the recursive definitions of the manual (LieSpec), for all degrees d > 0 (scalar), d > 1 (gradient), 1 < d <= 12 (covector), 0 < d <= 12 (bracket); a solution of x' = f(x) through x0 is a hypothesis; refuted: for d = 1 lie_gradientcv and lie_covector return wrong first order values (C53_d1_refuted), for d > 12 the int factorial overflows (C53_overflow_refuted)"
  },
  {
   "property": "C54",
   "status": "proved",
   "theorems": [
    "C54_pattern",
    "C54_jacobian",
    "C54_sorted",
    "C54_get",
    "C54_chains",
    "C54_straight",
    "C54_straight_jacobian",
    "C54_straight_met",
    "C54_met",
    "C54_jacobian_met",
    "C54_self_assignment_refuted"
   ],
   "note": "IndoModel/IndoProps/IndoEx: any type of doubles with any functions and comparisons (C54_jacobian: the reals); guard legal: no object is assigned to itself; refuted without it: x = x and condassign(x, c, x, y) clear the pattern before reading it"
  },
  {
   "property": "C55",
   "status": "proved",
   "theorems": [
    "C55_recording",
    "C55_replay",
    "C55_tangent",
    "C55_reverse",
    "C55_gradient",
    "C55_two_places_refuted",
    "C55_in_place_refuted",
    "C55_iarr_in_place_refuted",
    "C55_overwriting_refuted"
   ],
   "note": "ExtModel/ExtSpec/ExtProps/ExtEx: real numbers, generic elementals between the calls; guards: the callback contract, one_place (each registered function called on one set of variables), inputs and outputs disjoint, dp_y_priorRequired set for the reverse; refuted without one_place (the locations are in the shared structure, not on the tape), for in-place calls, and for callbacks that set z instead of adding to it"
  },
  {
   "property": "C56",
   "status": "proved",
   "theorems": [
    "C56_value",
    "C56_converges",
    "C56_zos",
    "C56_tangent",
    "C56_reverse",
    "C56_reverse_converges",
    "C56_registered",
    "C56_kept_entry",
    "C56_stale_refuted",
    "C56_two_tapes_refuted",
    "C56_uninitialised_refuted",
    "C56_code_refuted"
   ],
   "note": "FixModel/FixProps/FixEx: real numbers; the sub tape's sweeps are given by what they compute (C14, C15); refuted: reverse after zos_forward at new parameters uses the old point; two tapes share one table of iterations; N_max_deriv <= 1 adds uninitialised memory; the return code of the outer sweep"
  },
  {
   "property": "C57",
   "status": "proved",
   "theorems": [
    "C57_first_call",
    "C57_any_call",
    "C57_no_crash",
    "C57_repeated_call",
    "C57_repeat_needs_first",
    "C57_hypotheses_met",
    "C57_met",
    "C57_other_mode_refuted",
    "C57_failed_first_call_refuted",
    "C57_tight_at_new_point_refuted"
   ],
   "note": "SjModel/SjSpec/SjProps/SjEx: index domains; ColPack by its contract (colours_right); refuted: a repeated call with the other compression mode, a repeated call after a first call whose tight pattern failed, and a tight pattern reused at a point on the other branch"
  }
 ]
}