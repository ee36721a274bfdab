{
 "claims": [
  {
   "property": "C01",
   "status": "proved",
   "theorems": [
    "C01_qb2_stops",
    "C01_qb_b"
   ],
   "note": "QB2 with any conformant rangefinder, and the driver qb_b from the generator up"
  },
  {
   "property": "C02",
   "status": "proved",
   "theorems": [
    "C02_qb2_accounting"
   ],
   "note": ""
  },
  {
   "property": "C03",
   "status": "proved",
   "theorems": [
    "C03_log_determines",
    "C03_qb2_orthonormal",
    "C03_single_block_rank"
   ],
   "note": "rangefinder outputs are read from the event log of the run"
  },
  {
   "property": "C04",
   "status": "proved",
   "theorems": [
    "C04_qb2_orthonormality_refuted",
    "C04_qb_b_orthonormality_refuted"
   ],
   "note": "the documented unconditional claim is refuted: for every QR routine and row sketcher there is a 2x2 counterexample"
  },
  {
   "property": "C05",
   "status": "proved",
   "theorems": [
    "C05_qb2_caller_array"
   ],
   "note": ""
  },
  {
   "property": "C06",
   "status": "proved",
   "theorems": [
    "C06_qb3_block_independent",
    "C06_qb3_equals_projector",
    "C06_qb3_projection"
   ],
   "note": ""
  },
  {
   "property": "C07",
   "status": "proved",
   "theorems": [
    "C07_qb3_early_stop",
    "C07_qb3_rank_deficient"
   ],
   "note": "also shows that no earlier block boundary met the tolerance"
  },
  {
   "property": "C08",
   "status": "proved",
   "theorems": [
    "C08_qb1"
   ],
   "note": ""
  },
  {
   "property": "C09",
   "status": "proved",
   "theorems": [
    "C09_qb1_rejects",
    "C09_qb2_clamps",
    "C09_qb2_rejects",
    "C09_qb3_rejects",
    "C09_rf1_rejects",
    "C09_rf1_warns"
   ],
   "note": "any scalar type"
  },
  {
   "property": "C10",
   "status": "proved",
   "theorems": [
    "C10_rs1_negative",
    "C10_rs1_schedule",
    "C10_rs1_shape"
   ],
   "note": "schedule for any scalar type; shape in exact arithmetic"
  },
  {
   "property": "C11",
   "status": "proved",
   "theorems": [
    "C11_rs1_range",
    "C11_stabilizers"
   ],
   "note": ""
  },
  {
   "property": "C12",
   "status": "proved",
   "theorems": [
    "C12_evd1_passes",
    "C12_evd2_passes",
    "C12_osid1_passes",
    "C12_osid2_one_pass_more",
    "C12_osid2_passes_refuted",
    "C12_qb_b_passes",
    "C12_qb_b_pe_passes",
    "C12_qb_passes",
    "C12_rf1_passes",
    "C12_rocs1_passes",
    "C12_svd1_passes",
    "C12_tsid1_passes"
   ],
   "note": "holds except for osid2, which makes one pass more than its p: refuted there"
  },
  {
   "property": "C13",
   "status": "proved",
   "theorems": [
    "C13_svd1_form",
    "C13_svd1_negative_k"
   ],
   "note": ""
  },
  {
   "property": "C14",
   "status": "proved",
   "theorems": [
    "C14_svd1_accuracy",
    "C14_svd1_tolerance_refuted"
   ],
   "note": "the documented unconditional tolerance is refuted (absolute cut-off 10*eps); the bound with the dropped part is proved"
  },
  {
   "property": "C15",
   "status": "proved",
   "theorems": [
    "C15_evd1_form"
   ],
   "note": "np.argsort through its contract"
  },
  {
   "property": "C16",
   "status": "proved",
   "theorems": [
    "C16_evd1_error"
   ],
   "note": ""
  },
  {
   "property": "C17",
   "status": "proved",
   "theorems": [
    "C17_evd2_loses_pairs",
    "C17_evd2_rank_refuted"
   ],
   "note": "refuted: a pair is lost whenever 0 < rank A < k; concrete witness through the driver"
  },
  {
   "property": "C18",
   "status": "proved",
   "theorems": [
    "C18_evd2_definite",
    "C18_evd2_driver",
    "C18_evd2_nystrom"
   ],
   "note": ""
  },
  {
   "property": "C19",
   "status": "proved",
   "theorems": [
    "C19_osid1_col",
    "C19_osid1_rank_needed",
    "C19_osid1_row",
    "C19_qrcp_osid_col",
    "C19_qrcp_osid_deficient",
    "C19_qrcp_osid_row"
   ],
   "note": "up to the oversampling hypothesis 0 < k+over <= min(m,n) for the driver"
  },
  {
   "property": "C20",
   "status": "proved",
   "theorems": [
    "C20_osid2_col",
    "C20_osid2_row"
   ],
   "note": ""
  },
  {
   "property": "C21",
   "status": "proved",
   "theorems": [
    "C21_tsid1_tall",
    "C21_tsid1_wide"
   ],
   "note": ""
  },
  {
   "property": "C22",
   "status": "proved",
   "theorems": [
    "C22_cur1_exact",
    "C22_cur1_tall",
    "C22_cur1_wide"
   ],
   "note": ""
  },
  {
   "property": "C23",
   "status": "proved",
   "theorems": [
    "C23_dim_checks",
    "C23_dim_checks_negative",
    "C23_dim_checks_range"
   ],
   "note": "any scalar type"
  },
  {
   "property": "C24",
   "status": "proved",
   "theorems": [
    "C24_sso1"
   ],
   "note": ""
  },
  {
   "property": "C25",
   "status": "proved",
   "theorems": [
    "C25_a_lift_precond"
   ],
   "note": "dense and triangular preconditioners"
  },
  {
   "property": "C26",
   "status": "proved",
   "theorems": [
    "C26_svd_right_precond"
   ],
   "note": ""
  },
  {
   "property": "C27",
   "status": "proved",
   "theorems": [
    "C27_spo_start"
   ],
   "note": "start observed through calls with iter_lim = 0"
  },
  {
   "property": "C28",
   "status": "proved",
   "theorems": [
    "C28_spo_not_worse"
   ],
   "note": ""
  },
  {
   "property": "C29",
   "status": "proved",
   "theorems": [
    "C29_pcg_log",
    "C29_pcg_negative_limit"
   ],
   "note": "any matrices mat and pre; k-th entry is tied to the run limited to k iterations"
  },
  {
   "property": "C30",
   "status": "proved",
   "theorems": [
    "C30_pcg_exact"
   ],
   "note": ""
  },
  {
   "property": "C31",
   "status": "proved",
   "theorems": [
    "C31_pcg_energy"
   ],
   "note": ""
  },
  {
   "property": "C32",
   "status": "proved",
   "theorems": [
    "C32_pcss1",
    "C32_pcss1_no_b"
   ],
   "note": ""
  },
  {
   "property": "C33",
   "status": "proved",
   "theorems": [
    "C33_pcss1_full",
    "C33_pcss1_low",
    "C33_sps1",
    "C33_sps1_nystrom_left",
    "C33_sps1_nystrom_right"
   ],
   "note": "sketch sizes >= n for any strategy; Nystrom branches for A of full column rank (the code divides by zero singular values otherwise)"
  },
  {
   "property": "C34",
   "status": "proved",
   "theorems": [
    "C34_absolute_tol_refuted",
    "C34_relative_tol"
   ],
   "note": "the documented absolute criterion is refuted; the relative criterion that holds is proved"
  },
  {
   "property": "C35",
   "status": "proved",
   "theorems": [
    "C35_lsqr_norms",
    "C35_lsqr_r1norm",
    "C35_lsqr_r1norm_refuted",
    "C35_lsqr_returns"
   ],
   "note": "general damping and starting point; b = 0 with a supplied start is excluded (the code divides by bnorm = 0)"
  },
  {
   "property": "C36",
   "status": "proved",
   "theorems": [
    "C36_lsqr_acond",
    "C36_lsqr_code",
    "C36_lsqr_first_stop",
    "C36_lsqr_stop"
   ],
   "note": "all eight codes; code 6 never occurs"
  },
  {
   "property": "C37",
   "status": "proved",
   "theorems": [
    "C37_lsqr_limits",
    "C37_lsqr_start"
   ],
   "note": "also monotone in the iteration limit"
  },
  {
   "property": "C38",
   "status": "proved",
   "theorems": [
    "C38_sym_ortho"
   ],
   "note": ""
  },
  {
   "property": "C39",
   "status": "proved",
   "theorems": [
    "C39_pcss2_b_zero",
    "C39_pcss2_both_nonzero",
    "C39_pcss2_c_zero"
   ],
   "note": ""
  },
  {
   "property": "C40",
   "status": "proved",
   "theorems": [
    "C40_sps2_reduction"
   ],
   "note": "for an arbitrary iterative solver"
  },
  {
   "property": "C41",
   "status": "proved",
   "theorems": [
    "C41_wrap_up"
   ],
   "note": ""
  },
  {
   "property": "C42",
   "status": "proved",
   "theorems": [
    "C42_spo_refuted",
    "C42_spo_zero_rhs",
    "C42_sps2_refuted",
    "C42_sps2_zero_rhs",
    "C42_spu1_refuted",
    "C42_spu1_zero_rhs"
   ],
   "note": "refuted: zero right-hand sides raise; universal theorems and concrete runs"
  },
  {
   "property": "C43",
   "status": "proved",
   "theorems": [
    "C43_orthonormal_rows",
    "C43_sampling_drawn",
    "C43_sampling_given"
   ],
   "note": "S applied to vectors and matrices, S' on vectors; S' applied to a matrix raises TypeError, which the theorem states"
  },
  {
   "property": "C44",
   "status": "proved",
   "theorems": [
    "C44_indices_refuted",
    "C44_tall_indices_seed"
   ],
   "note": "refuted in the tall case: the indices only seed a generator; the wide case is C43_sampling_given"
  },
  {
   "property": "C45",
   "status": "proved",
   "theorems": [
    "C45_operator_refuted",
    "C45_shape",
    "C45_sparse_sign_returns_nothing"
   ],
   "note": "refuted for SkOpSS, which returns None; proved for the other five"
  },
  {
   "property": "C46",
   "status": "proved",
   "theorems": [
    "C46_columns",
    "C46_rows",
    "C46_warning"
   ],
   "note": ""
  },
  {
   "property": "C47",
   "status": "proved",
   "theorems": [
    "C47_apply_srct",
    "C47_seed_raises",
    "C47_srct_operator"
   ],
   "note": "proved for Generator arguments; a seed raises AttributeError"
  },
  {
   "property": "C48",
   "status": "proved",
   "theorems": [
    "C48_backend_independent",
    "C48_orthonormal",
    "C48_rank_deficient_draw"
   ],
   "note": "rank deficient draws provably give a non-orthonormal result"
  },
  {
   "property": "C49",
   "status": "proved",
   "theorems": [
    "C49_entries",
    "C49_no_entry"
   ],
   "note": ""
  },
  {
   "property": "C50",
   "status": "proved",
   "theorems": [
    "C50_exact_data",
    "C50_loglinear",
    "C50_loglog",
    "C50_loglog_raises",
    "C50_r_squared",
    "C50_size_mismatch",
    "C50_unique"
   ],
   "note": "np.log is a parameter; 1-D samples; R squared for non-constant log y"
  },
  {
   "property": "C51",
   "status": "proved",
   "theorems": [
    "C51_checks_axis",
    "C51_checks_cur",
    "C51_checks_interpolative",
    "C51_checks_least_squares",
    "C51_checks_qb",
    "C51_checks_svd_evd",
    "C51_interpolative",
    "C51_least_squares",
    "C51_qb",
    "C51_saddle",
    "C51_sketching",
    "C51_svd_evd"
   ],
   "note": "seeds, Generators and failed argument checks for all drivers and sketching operators"
  },
  {
   "property": "C52",
   "status": "proved",
   "theorems": [
    "C52_lup",
    "C52_lupt"
   ],
   "note": ""
  },
  {
   "property": "C53",
   "status": "proved",
   "theorems": [
    "C53_lsqr_finite"
   ],
   "note": ""
  },
  {
   "property": "C54",
   "status": "proved",
   "theorems": [
    "C54_lsqr_damped_start_refuted"
   ],
   "note": "the documented claim is refuted by a 1x1 example; C35 and C53 state what holds instead"
  },
  {
   "property": "C55",
   "status": "proved",
   "theorems": [
    "C55_spu1"
   ],
   "note": ""
  },
  {
   "property": "C56",
   "status": "proved",
   "theorems": [
    "C56_spo_exact"
   ],
   "note": ""
  },
  {
   "property": "C57",
   "status": "proved",
   "theorems": [
    "C57_pcss1_argument_refuted",
    "C57_pcss1_argument_square",
    "C57_pcss1_overwrites",
    "C57_pcss2_argument"
   ],
   "note": "refuted for PcSS1 with fewer than n columns; proved for square R and for PcSS2"
  },
  {
   "property": "C58",
   "status": "proved",
   "theorems": [
    "C58_spo_returns"
   ],
   "note": ""
  },
  {
   "property": "C59",
   "status": "proved",
   "theorems": [
    "C59_spo_log"
   ],
   "note": ""
  },
  {
   "property": "C60",
   "status": "proved",
   "theorems": [
    "C60_sps2_exact"
   ],
   "note": ""
  },
  {
   "property": "C61",
   "status": "proved",
   "theorems": [
    "C61_sps1_lsqr"
   ],
   "note": ""
  },
  {
   "property": "C62",
   "status": "proved",
   "theorems": [
    "C62_evd1_accuracy",
    "C62_evd1_single_block",
    "C62_evd1_tolerance_refuted"
   ],
   "note": "the documented tolerance is refuted; bound with the dropped part is proved"
  },
  {
   "property": "C63",
   "status": "proved",
   "theorems": [
    "C63_evd2_underestimates"
   ],
   "note": ""
  },
  {
   "property": "C64",
   "status": "proved",
   "theorems": [
    "C64_svd1_error"
   ],
   "note": ""
  },
  {
   "property": "C65",
   "status": "proved",
   "theorems": [
    "C65_cur1_one_pass_fewer",
    "C65_cur1_passes_refuted",
    "C65_cur1_single_pass_raises"
   ],
   "note": "refuted: p-1 passes, and p = 1 raises AssertionError"
  },
  {
   "property": "C66",
   "status": "proved",
   "theorems": [
    "C66_coefficient_bound",
    "C66_greedy",
    "C66_osid1_error"
   ],
   "note": ""
  },
  {
   "property": "C67",
   "status": "proved",
   "theorems": [
    "C67_osid2_not_worse",
    "C67_osid2_not_worse_row",
    "C67_same_skeleton"
   ],
   "note": ""
  },
  {
   "property": "C68",
   "status": "proved",
   "theorems": [
    "C68_apply_pinv_on_left",
    "C68_apply_pinv_on_right"
   ],
   "note": ""
  },
  {
   "property": "C69",
   "status": "proved",
   "theorems": [
    "C69_repeated_refuted"
   ],
   "note": "refuted by a concrete call"
  },
  {
   "property": "C70",
   "status": "proved",
   "theorems": [
    "C70_square_rows_refuted"
   ],
   "note": "refuted for square shapes by a concrete call; the strictly tall case is C46_rows"
  },
  {
   "property": "C71",
   "status": "proved",
   "theorems": [
    "C71_spo",
    "C71_spo1_is_svd_mode",
    "C71_spo1_zero_rhs",
    "C71_spu1",
    "C71_spu1_orthogonal_rhs",
    "C71_sso1"
   ],
   "note": "includes two provable failures caused by logging: spo1 with b = 0, spu1 with A c = 0"
  },
  {
   "property": "C72",
   "status": "proved",
   "theorems": [
    "C72_sps_lsqr_raises",
    "C72_sps_method",
    "C72_sps_pcg",
    "C72_sps_pcg_small_sketch"
   ],
   "note": "method lsqr provably raises when b and c are both non-zero"
  },
  {
   "property": "C73",
   "status": "proved",
   "theorems": [
    "C73_lsqr_acond",
    "C73_lsqr_anorm",
    "C73_lsqr_var"
   ],
   "note": "b = 0 with a supplied start is excluded, as in C35"
  },
  {
   "property": "C74",
   "status": "proved",
   "theorems": [
    "C74_lsqr_krylov"
   ],
   "note": "b = 0 with a supplied start is excluded, as in C35"
  },
  {
   "property": "C75",
   "status": "proved",
   "theorems": [
    "C75_pcg_krylov"
   ],
   "note": "exact arithmetic"
  },
  {
   "property": "C76",
   "status": "proved",
   "theorems": [
    "C76_gaussian",
    "C76_sampling",
    "C76_sjlt",
    "C76_srct"
   ],
   "note": "expectations are abstract normalised linear functionals with the stated second moments; sparse sign and orthonormal operators are not covered"
  },
  {
   "property": "C77",
   "status": "proved",
   "theorems": [
    "C77_sps1_log",
    "C77_sps2_log",
    "C77_spu1_log"
   ],
   "note": "SPS1: from the conclusion of C33; SPS2 with a numerically rank deficient sketch and delta = 0 logs residuals with c projected"
  },
  {
   "property": "C78",
   "status": "proved",
   "theorems": [
    "C78_sps1_start",
    "C78_sps2_not_worse",
    "C78_sps2_start"
   ],
   "note": "SPS1: full sketch, exact cut-off for the converse"
  },
  {
   "property": "C79",
   "status": "proved",
   "theorems": [
    "C79_pcg_rate"
   ],
   "note": "exact arithmetic; Chebyshev bound proved without the spectral theorem"
  },
  {
   "property": "C80",
   "status": "proved",
   "theorems": [
    "C80_lsqr_rate"
   ],
   "note": "exact arithmetic"
  },
  {
   "property": "C81",
   "status": "proved",
   "theorems": [
    "C81_spo_rate"
   ],
   "note": "exact arithmetic; the embedding property is a hypothesis on the drawn sketch"
  },
  {
   "property": "C82",
   "status": "proved",
   "theorems": [
    "C82_spo_quality",
    "C82_sso1_quality"
   ],
   "note": "exact arithmetic; the embedding property is a hypothesis on the drawn sketch"
  },
  {
   "property": "C83",
   "status": "proved",
   "theorems": [
    "C83_qb1_error",
    "C83_qb1_exact",
    "C83_qb3_error"
   ],
   "note": "exact arithmetic; LAPACK QR contract"
  },
  {
   "property": "C84",
   "status": "proved",
   "theorems": [
    "C84_qb1_power"
   ],
   "note": "exact arithmetic; LAPACK QR contract"
  },
  {
   "property": "C85",
   "status": "proved",
   "theorems": [
    "C85_svd1_best"
   ],
   "note": "exact arithmetic; LAPACK SVD contract; the QB step is a hypothesis on its result"
  },
  {
   "property": "C86",
   "status": "proved",
   "theorems": [
    "C86_evd1_best"
   ],
   "note": "exact arithmetic; LAPACK eigh contract; the QB step is a hypothesis on its result"
  },
  {
   "property": "C87",
   "status": "proved",
   "theorems": [
    "C87_dim",
    "C87_never",
    "C87_rank",
    "C87_rf1_refuted",
    "C87_rf1_warns",
    "C87_skop",
    "C87_sps"
   ],
   "note": "any scalar type, LAPACK and generator; rf1 is refuted: it warns on every admissible call"
  },
  {
   "property": "C88",
   "status": "proved",
   "theorems": [
    "C88_osid1_col",
    "C88_osid1_row",
    "C88_qrcp_osid_col",
    "C88_qrcp_osid_row"
   ],
   "note": "exact arithmetic; LAPACK pivoted QR contract"
  },
  {
   "property": "C89",
   "status": "proved",
   "theorems": [
    "C89_cur1_error"
   ],
   "note": "exact arithmetic; LAPACK pivoted QR and least squares contracts"
  },
  {
   "property": "C90",
   "status": "proved",
   "theorems": [
    "C90_sps1_rate",
    "C90_sps2_rate",
    "C90_spu1_rate"
   ],
   "note": "exact arithmetic; the embedding property is a hypothesis on the drawn sketch; SPS1: full sketch (Nystrom preconditioners not covered)"
  },
  {
   "property": "C91",
   "status": "proved",
   "theorems": [
    "C91_gaussian_product",
    "C91_sjlt_product"
   ],
   "note": "expectations are abstract normalised linear functionals with the stated moments; witnesses for all sizes"
  },
  {
   "property": "C92",
   "status": "proved",
   "theorems": [
    "C92_gaussian_embedding",
    "C92_sjlt_embedding"
   ],
   "note": "positive expectations; second moment (Markov) bound, so polynomial rather than exponential tails; wide operators"
  },
  {
   "property": "C93",
   "status": "proved",
   "theorems": [
    "C93_spo",
    "C93_sps_pcg",
    "C93_spu1",
    "C93_sso1"
   ],
   "note": "exact arithmetic; conditioning hypothesis rules out the singular value cut-off; spo and spu1: whenever the call returns (their logging can raise, see C71)"
  },
  {
   "property": "C94",
   "status": "proved",
   "theorems": [
    "C94_evd1",
    "C94_qb",
    "C94_qb_b",
    "C94_qb_b_pe",
    "C94_rf1",
    "C94_svd1"
   ],
   "note": "exact arithmetic; Markov bounds from second and fourth moments, so polynomial rather than exponential failure probabilities; svd1 and evd1 for block sizes covering the rank; qb_b_pe: bound, tolerance stop, or LinAlgError with a rank deficient sketch"
  },
  {
   "property": "C95",
   "status": "proved",
   "theorems": [
    "C95_evd2_passes",
    "C95_evd2_prob",
    "C95_evd2_trace"
   ],
   "note": "exact arithmetic; compared with the eigenvalues beyond the pairs actually returned, because evd2 may return too few (C17); Markov bounds as in C94"
  },
  {
   "property": "C96",
   "status": "proved",
   "theorems": [
    "C96_cur1",
    "C96_evd1",
    "C96_evd2",
    "C96_osid1",
    "C96_osid2",
    "C96_qb",
    "C96_qb_b",
    "C96_qb_b_pe",
    "C96_rf1",
    "C96_rocs1",
    "C96_svd1",
    "C96_tsid1"
   ],
   "note": "no arithmetic law used; LAPACK only assumed to return the right shapes or raise"
  },
  {
   "property": "C97",
   "status": "proved",
   "theorems": [
    "C97_lsqr",
    "C97_pcg",
    "C97_spo",
    "C97_sps2",
    "C97_sps_lsqr",
    "C97_sps_pcg",
    "C97_spu1",
    "C97_sso1"
   ],
   "note": "no arithmetic law used; a division by zero inside the iterative solvers is reported as Unmodelled"
  },
  {
   "property": "C98",
   "status": "proved",
   "theorems": [
    "C98_cur1",
    "C98_osid1_col",
    "C98_osid1_row",
    "C98_osid2_col",
    "C98_osid2_row",
    "C98_tsid1"
   ],
   "note": "exact arithmetic; the moments of rng.normal are hypotheses"
  },
  {
   "property": "C99",
   "status": "proved",
   "theorems": [
    "C99_exact",
    "C99_qb",
    "C99_qb1",
    "C99_qb2",
    "C99_qb2_floor",
    "C99_qb_b",
    "C99_qb_prob",
    "C99_sso1",
    "C99_sso1_prob"
   ],
   "note": "errors of QR and least squares only; the other operations are exact"
  },
  {
   "property": "C100",
   "status": "proved",
   "theorems": [
    "C100_constants",
    "C100_qb",
    "C100_qb1",
    "C100_qb2",
    "C100_qb_b",
    "C100_qb_prob",
    "C100_sso1"
   ],
   "note": "standard model without overflow, underflow, NaN; products as sequential dot products; moments of the generated normals exact; loss of orthogonality between the blocks of qb_b is not bounded"
  },
  {
   "property": "C101",
   "status": "proved",
   "theorems": [
    "C101_gap_zero",
    "C101_pcg",
    "C101_pcss1",
    "C101_products",
    "C101_sps"
   ],
   "note": "standard model without overflow, underflow, NaN; the norm bound xi on the iterates is a hypothesis (convergence of CG in rounded arithmetic is not claimed)"
  },
  {
   "property": "C102",
   "status": "proved",
   "theorems": [
    "C102_SVD1",
    "C102_exact",
    "C102_svd1",
    "C102_svd1_prob"
   ],
   "note": "standard model without overflow, underflow, NaN; svd1 with a single block (block_size >= k + over): across blocks the orthogonality of Q is not claimed in rounded arithmetic; moments of the generated normals exact in the probability version"
  },
  {
   "property": "C103",
   "status": "proved",
   "theorems": [
    "C103_empty",
    "C103_exponent_rank_refuted",
    "C103_rand_low_rank",
    "C103_simple_mat"
   ],
   "note": "rank claim of exponent_spectrum and s_shaped_spectrum refuted (they return rank - 1); the generator structure for array spectra; division of a spectrum with maximum 0 not modelled"
  },
  {
   "property": "C104",
   "status": "proved",
   "theorems": [
    "C104_make_demo",
    "C104_resample"
   ],
   "note": "only_Ab=True returns (A, b) of the same computation; division by a zero norm not modelled"
  },
  {
   "property": "C105",
   "status": "proved",
   "theorems": [
    "C105_EVD1",
    "C105_evd1",
    "C105_evd1_prob",
    "C105_exact"
   ],
   "note": "standard model without overflow, underflow, NaN; evd1 with a single block (block_size >= k + over); moments of the generated normals exact in the probability version"
  },
  {
   "property": "C106",
   "status": "proved",
   "theorems": [
    "C106_block_size",
    "C106_evd1_prob",
    "C106_qb_b",
    "C106_qb_b_prob",
    "C106_svd1_prob"
   ],
   "note": "exact arithmetic; two passes (no power iteration: with one, the blocks sketch powers of the residual); genericity of the drawn columns is a hypothesis of the bound because the moment hypotheses do not imply it"
  },
  {
   "property": "C107",
   "status": "proved",
   "theorems": [
    "C107_CUR1_tall",
    "C107_CUR1_wide",
    "C107_OSID1_col",
    "C107_OSID1_row",
    "C107_OSID2_col",
    "C107_OSID2_row",
    "C107_TSID1_tall",
    "C107_TSID1_wide",
    "C107_exact",
    "C107_osid1",
    "C107_qrcp_osid",
    "C107_solve_tri"
   ],
   "note": "standard rounding model as for C100; substitution evaluated in the order of the model; the bounds contain the norm of the computed interpolation matrix, which is not bounded a priori"
  },
  {
   "property": "C108",
   "status": "proved",
   "theorems": [
    "C108_EVD2",
    "C108_cholesky",
    "C108_coefficients",
    "C108_evd2",
    "C108_evd2_one",
    "C108_exact"
   ],
   "note": "standard rounding model as for C100; Cholesky and substitution evaluated in the order of the model; the bound is against the Nystrom approximation of the shifted matrix (its distance from A is C95); tol = None"
  },
  {
   "property": "C109",
   "status": "proved",
   "theorems": [
    "C109_EVD2",
    "C109_cholesky",
    "C109_evd2",
    "C109_evd2_one",
    "C109_exact",
    "C109_spo",
    "C109_spo3_chol",
    "C109_spo3_qr",
    "C109_spo_call",
    "C109_spo_qr"
   ],
   "note": "rounded arithmetic without underflow or overflow; QR mode: the zeros below the diagonal of R are exact; the Cholesky and triangular solve are the model loops; sufficient conditions, not claimed to be sharp"
  },
  {
   "property": "C110",
   "status": "proved",
   "theorems": [
    "C110_drivers",
    "C110_spo",
    "C110_sps1",
    "C110_sps2",
    "C110_spu"
   ],
   "note": "the clock differences are parameters of the model"
  },
  {
   "property": "C111",
   "status": "proved",
   "theorems": [
    "C111_exact",
    "C111_mat",
    "C111_tri"
   ],
   "note": "rounded arithmetic without underflow or overflow; k = 1 as in C25"
  }
 ]
}