{
 "claims": [
  {
   "property": "C01",
   "status": "proved",
   "theorems": [
    "C01_emd_coupling",
    "C01_emd_coupling_any_cost"
   ],
   "note": "Exact reals. Exact coupling for non-negative costs, or costs with some entry >= -1 between points with mass (and tolerance < 1); any costs: marginals within 1e-8."
  },
  {
   "property": "C02",
   "status": "proved",
   "theorems": [
    "C02_emd_optimal"
   ],
   "note": "Exact reals; tolerance 2.22e-15*(n+m)*(2C+1) times the mass, from the relative reduced-cost test of the code."
  },
  {
   "property": "C03",
   "status": "proved",
   "theorems": [
    "C03_emd_duals"
   ],
   "note": "Exact reals; feasibility up to the tolerance, tightness and dual value exact."
  },
  {
   "property": "C04",
   "status": "proved",
   "theorems": [
    "C04_emd_sparse"
   ],
   "note": "Every status and stopping point."
  },
  {
   "property": "C05",
   "status": "proved",
   "theorems": [
    "C05_emd_interrupted"
   ],
   "note": "Every iteration limit."
  },
  {
   "property": "C06",
   "status": "proved",
   "theorems": [
    "C06_emd_never_infeasible",
    "C06_negative_costs_refuted"
   ],
   "note": "The claim is a boundary statement: positive half for benign costs, refutation for costs below -1."
  },
  {
   "property": "C07",
   "status": "proved",
   "theorems": [
    "C07_arc_mixing"
   ],
   "note": "Unbounded integers."
  },
  {
   "property": "C08",
   "status": "proved",
   "theorems": [
    "C08_full_bipartite"
   ],
   "note": "Unbounded integers: the int product of firstOut overflows in C++ beyond 2^31 arcs."
  },
  {
   "property": "C09",
   "status": "proved",
   "theorems": [
    "C09_sparse_graph"
   ],
   "note": "std::sort and lower_bound modelled by insertion sort and halving search."
  },
  {
   "property": "C10",
   "status": "proved",
   "theorems": [
    "C10_packed_states"
   ],
   "note": "Refinement of a plain array for every in-bounds call sequence."
  },
  {
   "property": "C100",
   "status": "proved",
   "theorems": [
    "C100_expected_plan",
    "C100_expected_plan_monotone",
    "C100_unequal_weights_refuted"
   ],
   "note": "Boundary statement. Exact reals; logsumexp written as log of the sum of exponentials."
  },
  {
   "property": "C101",
   "status": "proved",
   "theorems": [
    "C101_gradient",
    "C101_certificate",
    "C101_bounds",
    "C101_run"
   ],
   "note": "Exact reals. The linear solver is an exact oracle and scipy's Armijo search is described by its contract (step in [0,1] that does not raise the loss, or no step)."
  },
  {
   "property": "C102",
   "status": "proved",
   "theorems": [
    "C102_factored",
    "C102_no_iteration",
    "C102_logged_costs"
   ],
   "note": "Boundary statement. Exact reals; inner solvers are exact minimisers of linear cost plus an arbitrary penalty."
  },
  {
   "property": "C103",
   "status": "proved",
   "theorems": [
    "C103_labels_ignored",
    "C103_limit_max_refuted",
    "C103_limit_drifts",
    "C103_missing_attribute"
   ],
   "note": "Boundary statement: the documented effect is refuted and the actual behaviour proved for all labels."
  },
  {
   "property": "C104",
   "status": "proved",
   "theorems": [
    "C104_barycentric",
    "C104_zero_row_refuted",
    "C104_out_of_sample",
    "C104_consistent",
    "C104_inverse",
    "C104_continuous"
   ],
   "note": "Exact reals. Distances are squared Euclidean for the nearest-sample branch."
  },
  {
   "property": "C105",
   "status": "proved",
   "theorems": [
    "C105_transform_labels",
    "C105_inverse"
   ],
   "note": "Exact reals, integer labels."
  },
  {
   "property": "C106",
   "status": "proved",
   "theorems": [
    "C106_mm_descends"
   ],
   "note": "Exact reals; the inner sinkhorn is an exact minimiser of linear cost plus an arbitrary penalty."
  },
  {
   "property": "C107",
   "status": "proved",
   "theorems": [
    "C107_group_lasso",
    "C107_exact"
   ],
   "note": "Exact reals."
  },
  {
   "property": "C108",
   "status": "proved",
   "theorems": [
    "C108_regulariser",
    "C108_displacement",
    "C108_run"
   ],
   "note": "Exact reals; similarity matrices are given; exact linear oracle and line search contract."
  },
  {
   "property": "C109",
   "status": "proved",
   "theorems": [
    "C109_descent",
    "C109_zero",
    "C109_errors",
    "C109_stale_value_refuted"
   ],
   "note": "Exact reals, exact inner solvers (emd; sinkhorn as exact minimiser, the 1e-16 inside the logarithm of kl_div set to 0). The stale value is computed with the modelled network simplex over the rationals."
  },
  {
   "property": "C11",
   "status": "proved",
   "theorems": [
    "C11_zero_weight_points",
    "C11_emd_wrapper_correct"
   ],
   "note": "Exact reals; the C++ solver enters as any function whose OPTIMAL answers are correct on strictly positive weights (discharged for the modelled simplex by C01/C02)."
  },
  {
   "property": "C110",
   "status": "proved",
   "theorems": [
    "C110_data_gradients",
    "C110_attached",
    "C110_weight_gradient_refuted"
   ],
   "note": "Exact reals, exact inner solvers; the refutation uses the modelled sinkhorn_knopp."
  },
  {
   "property": "C111",
   "status": "proved",
   "theorems": [
    "C111_mapping",
    "C111_moments",
    "C111_optimal",
    "C111_inverse"
   ],
   "note": "Exact reals; sqrtm and inv are parameters, assumed correct on the matrices of the call (pair_ok)."
  },
  {
   "property": "C112",
   "status": "proved",
   "theorems": [
    "C112_lower",
    "C112_attained"
   ],
   "note": "Exact reals; sqrtm and inv correct on the matrices of the call; the lower bound needs an invertible target covariance (reg > 0 or full rank)."
  },
  {
   "property": "C113",
   "status": "proved",
   "theorems": [
    "C113_zero",
    "C113_symmetric",
    "C113_triangle"
   ],
   "note": "Exact reals; sqrtm and inv correct on the matrices of the calls; invertible covariances."
  },
  {
   "property": "C114",
   "status": "proved",
   "theorems": [
    "C114_certificate",
    "C114_descent",
    "C114_mean",
    "C114_no_iterations",
    "C114_unnormalised_refuted"
   ],
   "note": "Exact reals; sqrtm, inv correct on the iterates; Frobenius norm. Stochastic and averaged variants are not modelled."
  },
  {
   "property": "C115",
   "status": "proved",
   "theorems": [
    "C115_value",
    "C115_metric",
    "C115_mapping",
    "C115_covariance",
    "C115_skewness_refuted"
   ],
   "note": "Exact reals; the sorted eigendecomposition is a parameter with orthonormal columns."
  },
  {
   "property": "C116",
   "status": "proved",
   "theorems": [
    "C116_factors",
    "C116_unbound",
    "C116_returns",
    "C116_lower_bound_refuted"
   ],
   "note": "Exact reals, exact cube root; C116_unbound for any arithmetic."
  },
  {
   "property": "C117",
   "status": "proved",
   "theorems": [
    "C117_certificate",
    "C117_exact",
    "C117_mirror_step",
    "C117_gradient"
   ],
   "note": "Exact reals. Convergence of the Dykstra iteration itself is not proved; the certificate is a posteriori."
  },
  {
   "property": "C118",
   "status": "proved",
   "theorems": [
    "C118_value",
    "C118_rescaled_refuted"
   ],
   "note": "Exact reals. The 100 outer iterations are the code's."
  },
  {
   "property": "C119",
   "status": "proved",
   "theorems": [
    "C119_returns",
    "C119_marginals",
    "C119_init_deterministic",
    "C119_init_random",
    "C119_alpha_error"
   ],
   "note": "Exact reals; tiny stands for 1e-16. The kmeans start is not modelled."
  },
  {
   "property": "C12",
   "status": "proved",
   "theorems": [
    "C12_null_weight_duals"
   ],
   "note": "Exact reals."
  },
  {
   "property": "C120",
   "status": "proved",
   "theorems": [
    "C120_refines",
    "C120_plan"
   ],
   "note": "Exact reals, no NaN or infinity."
  },
  {
   "property": "C121",
   "status": "proved",
   "theorems": [
    "C121_certificate",
    "C121_uniform",
    "C121_weights_refuted"
   ],
   "note": "Exact reals, no NaN."
  },
  {
   "property": "C122",
   "status": "proved",
   "theorems": [
    "C122_log"
   ],
   "note": "Exact reals; tiny stands for 1e-16."
  },
  {
   "property": "C123",
   "status": "proved",
   "theorems": [
    "C123_stabilized",
    "C123_absorption_refuted"
   ],
   "note": "Exact reals, no NaN or infinity; at least two iterations."
  },
  {
   "property": "C124",
   "status": "proved",
   "theorems": [
    "C124_fixed_point",
    "C124_certificate",
    "C124_log",
    "C124_log_debias"
   ],
   "note": "Exact reals; convergence of the iterates is not claimed."
  },
  {
   "property": "C125",
   "status": "proved",
   "theorems": [
    "C125_free_support_sinkhorn_descent",
    "C125_one_measure_refuted"
   ],
   "note": "Exact reals; ot.sinkhorn is a parameter assumed to return the exact entropic plan."
  },
  {
   "property": "C126",
   "status": "proved",
   "theorems": [
    "C126_shared_proportions",
    "C126_labels",
    "C126_errors",
    "C126_minimiser_refuted",
    "C126_labels_refuted"
   ],
   "note": "Exact reals; two or more domains."
  },
  {
   "property": "C127",
   "status": "proved",
   "theorems": [
    "C127_runs_converge",
    "C127_exists_unique"
   ],
   "note": "Exact reals; the runs of sinkhorn_knopp end without warning (which C25 shows for large enough numItermax)."
  },
  {
   "property": "C128",
   "status": "proved",
   "theorems": [
    "C128_steps",
    "C128_gw_is_fused",
    "C128_losses"
   ],
   "note": "Exact reals; ot.sinkhorn is a parameter assumed to return the exact Sinkhorn plan (exists and is unique: C127)."
  },
  {
   "property": "C129",
   "status": "proved",
   "theorems": [
    "C129_descent",
    "C129_stops"
   ],
   "note": "Exact reals, exact inner solutions; the class 'eucl' is C_ik = u_i + u_k - <x_i,x_k>."
  },
  {
   "property": "C13",
   "status": "proved",
   "theorems": [
    "C13_center_ot_dual"
   ],
   "note": "Exact reals."
  },
  {
   "property": "C130",
   "status": "proved",
   "theorems": [
    "C130_fixed_points",
    "C130_stop_certificate"
   ],
   "note": "Exact reals, exact inner solutions."
  },
  {
   "property": "C131",
   "status": "proved",
   "theorems": [
    "C131_warmstart_same_plan",
    "C131_warmstart_scale_refuted"
   ],
   "note": "Exact reals, exact inner solutions."
  },
  {
   "property": "C132",
   "status": "proved",
   "theorems": [
    "C132_half_steps",
    "C132_columns",
    "C132_columns_gw",
    "C132_no_iteration",
    "C132_fixed_plans",
    "C132_gradient",
    "C132_value",
    "C132_optimal_not_fixed_refuted"
   ],
   "note": "Exact reals; positive start. Convergence of BAPG is not claimed."
  },
  {
   "property": "C133",
   "status": "proved",
   "theorems": [
    "C133_block_descent",
    "C133_stop"
   ],
   "note": "Exact reals, exact inner solutions; the random initial structure is a parameter."
  },
  {
   "property": "C134",
   "status": "proved",
   "theorems": [
    "C134_features_never_updated",
    "C134_one_iteration",
    "C134_features_refuted"
   ],
   "note": "First theorem in any arithmetic."
  },
  {
   "property": "C135",
   "status": "proved",
   "theorems": [
    "C135_sqeuclidean",
    "C135_euclidean",
    "C135_minkowski",
    "C135_self",
    "C135_metric",
    "C135_default_refuted",
    "C135_loss"
   ],
   "note": "Exact reals for the distances, any arithmetic for the errors."
  },
  {
   "property": "C136",
   "status": "proved",
   "theorems": [
    "C136_solve",
    "C136_errors",
    "C136_solvers_agree",
    "C136_independent"
   ],
   "note": "Exact reals; gradients not modelled. Row errors and termination of the projections: C28."
  },
  {
   "property": "C137",
   "status": "proved",
   "theorems": [
    "C137_loss",
    "C137_flag",
    "C137_kl_arguments_refuted",
    "C137_stale_constant_refuted"
   ],
   "note": "Exact reals."
  },
  {
   "property": "C138",
   "status": "proved",
   "theorems": [
    "C138_detect",
    "C138_default_start",
    "C138_value",
    "C138_steps",
    "C138_errors"
   ],
   "note": "Exact reals; inner projections as modelled (finite number of iterations). No descent claim: the rows of the iterates are only approximately a."
  },
  {
   "property": "C139",
   "status": "proved",
   "theorems": [
    "C139_linear",
    "C139_kernel",
    "C139_transform",
    "C139_two_transforms_refuted"
   ],
   "note": "Exact reals. Assumed: exact linear oracle (C01 ff.), scipy's search contract, np.linalg.solve returns a solution when it returns."
  },
  {
   "property": "C14",
   "status": "proved",
   "theorems": [
    "C14_emd_1d_sorted_safe",
    "C14_empty_input_refuted"
   ],
   "note": "Arbitrary arithmetic. On empty inputs the code reads element 0 of an empty array (finding)."
  },
  {
   "property": "C140",
   "status": "proved",
   "theorems": [
    "C140_constants",
    "C140_truth_feasible",
    "C140_bounds",
    "C140_interpolates",
    "C140_fit"
   ],
   "note": "Exact reals; cvxpy assumed exact. Regularity stated as the two quadratic bounds."
  },
  {
   "property": "C141",
   "status": "proved",
   "theorems": [
    "C141_duals",
    "C141_ties_refuted"
   ],
   "note": "Exact reals; the tie order of nx.sort is any order that sorts the values."
  },
  {
   "property": "C142",
   "status": "proved",
   "theorems": [
    "C142_marginals",
    "C142_certificate",
    "C142_bracket",
    "C142_unsorted_refuted",
    "C142_axis_refuted",
    "C142_ties_refuted"
   ],
   "note": "Exact reals, eps of kl_div dropped; positive weights."
  },
  {
   "property": "C143",
   "status": "proved",
   "theorems": [
    "C143_all_partial_problems",
    "C143_indices",
    "C143_marginals",
    "C143_excess",
    "C143_excess_refuted"
   ],
   "note": "Exact reals, p = 1; heapq modelled by its contract. The positive statement is for n_transported_samples <= min(n, m)."
  },
  {
   "property": "C144",
   "status": "proved",
   "theorems": [
    "C144_pdf",
    "C144_ground_cost",
    "C144_zero",
    "C144_symmetric",
    "C144_triangle",
    "C144_bary",
    "C144_rand",
    "C144_component_map",
    "C144_plan_density"
   ],
   "note": "Exact reals. Assumed: sqrtm and inv correct on the covariances used, exact emd/emd2, numpy's choice contract; inverse and log-determinant inside the density are the backend's."
  },
  {
   "property": "C145",
   "status": "proved",
   "theorems": [
    "C145_components",
    "C145_mean",
    "C145_best_means",
    "C145_outcome",
    "C145_euclidean_refuted"
   ],
   "note": "Exact reals, exact emd. Unequal weights with the Euclidean projection are refuted. The in-place overwriting of means_init/covs_init is noted in the model, not in the theorems."
  },
  {
   "property": "C146",
   "status": "proved",
   "theorems": [
    "C146_usot",
    "C146_suot",
    "C146_balanced",
    "C146_one_direction",
    "C146_dims",
    "C146_axis_refuted"
   ],
   "note": "Exact reals; logsumexp without its stabilising shift, kl_div without its eps. The lower bounds assume no interior ties (see C141). One infinite parameter with several directions is refuted for sliced_unbalanced_ot."
  },
  {
   "property": "C147",
   "status": "proved",
   "theorems": [
    "C147_plain",
    "C147_converges",
    "C147_stab",
    "C147_stab_converges",
    "C147_errors",
    "C147_exit",
    "C147_tau_refuted"
   ],
   "note": "Exact reals. The stabilized theorems take the 1e-16 guards as 0. Convergence is of the objective value; convergence of the histogram itself is not claimed. tau < 1 with two histograms is refuted."
  },
  {
   "property": "C148",
   "status": "proved",
   "theorems": [
    "C148_partitioned",
    "C148_construction",
    "C148_graph",
    "C148_samples",
    "C148_solver",
    "C148_representants",
    "C148_representants_refuted",
    "C148_errors",
    "C148_alpha_zero_refuted",
    "C148_networkx_refuted",
    "C148_samples_fused_refuted",
    "C148_order_refuted"
   ],
   "note": "Exact reals for the plans. The global solver is any solver answering couplings of probability vectors; C148_solver shows it for the conditional gradient model with any exact linear solver. Clusterings and random choices are arbitrary functions. Zero-mass partitions (0/0 in the code) are excluded by the positive weights."
  },
  {
   "property": "C149",
   "status": "proved",
   "theorems": [
    "C149_batches",
    "C149_errors",
    "C149_stopping",
    "C149_plan",
    "C149_converges",
    "C149_limit",
    "C149_loss",
    "C149_swapped",
    "C149_lazy_differs_refuted",
    "C149_warm",
    "C149_warn",
    "C149_warn_refuted",
    "C149_divergence",
    "C149_divergence_limit",
    "C149_lazy_plan",
    "C149_last_row_refuted"
   ],
   "note": "Structural theorems hold for any arithmetic, the analytic ones over exact reals. The metric matrix is an argument (dist of the two batches is assumed to be the matching block of dist of all samples). logsumexp is ln of the sum of exp. Dense mode is the sinkhorn_knopp model, its warm start exponentiated as in the code."
  },
  {
   "property": "C15",
   "status": "proved",
   "theorems": [
    "C15_emd_1d_sorted_coupling",
    "C15_emd_1d_rescaled_coupling"
   ],
   "note": "Exact reals."
  },
  {
   "property": "C150",
   "status": "proved",
   "theorems": [
    "C150_swap",
    "C150_estimate",
    "C150_zero_weight_refuted",
    "C150_map_plan",
    "C150_unbiased_refuted",
    "C150_loss_order_refuted",
    "C150_expectation",
    "C150_gradient",
    "C150_gradient_spec",
    "C150_sample_sizes_refuted",
    "C150_sampled",
    "C150_sign",
    "C150_best",
    "C150_one_point_refuted",
    "C150_pointwise",
    "C150_threshold"
   ],
   "note": "Exact reals except C150_swap and C150_sample_sizes_refuted (any arithmetic). Draws are arbitrary sequences meeting the contract of numpy's choice; expectations are finite sums over the column draws with the rows fixed. The entropic step of sampled_gromov_wasserstein is any function answering couplings (sinkhorn at convergence); the exact step any solver answering couplings."
  },
  {
   "property": "C151",
   "status": "proved",
   "theorems": [
    "C151_bijection",
    "C151_cost",
    "C151_wrapper",
    "C151_fewer_refuted",
    "C151_ignored_refuted",
    "C151_errors"
   ],
   "note": "C151_bijection, C151_fewer_refuted and C151_errors hold in any arithmetic; the cost inequalities are at the exact reals (the C++ code uses single precision). std::sort is any listing of the plans. Only the default cycle = true of MergePlansNoPar is modelled."
  },
  {
   "property": "C152",
   "status": "proved",
   "theorems": [
    "C152_bijection",
    "C152_solver",
    "C152_line",
    "C152_similar",
    "C152_errors",
    "C152_initial_dtype_refuted",
    "C152_no_plan_refuted",
    "C152_gaussian_line_refuted"
   ],
   "note": "Slices, pivots and nth_element are parameters with their contracts, so the three recursions of the header are one model. C152_bijection, C152_errors, C152_initial_dtype_refuted and C152_no_plan_refuted hold in any arithmetic, the rest at the exact reals. In floating point an orthogonal slice in dimension 1 may be rounding noise instead of zero."
  },
  {
   "property": "C153",
   "status": "proved",
   "theorems": [
    "C153_value",
    "C153_optimal",
    "C153_exact",
    "C153_gap",
    "C153_unique",
    "C153_gradient",
    "C153_gradient_refuted",
    "C153_l2_iff",
    "C153_tv_refuted",
    "C153_total",
    "C153_entropy_refuted",
    "C153_errors",
    "C153_list_refuted"
   ],
   "note": "scipy.optimize.minimize is an oracle: its iterations are not modelled, only what its stopping test implies. C153_errors and C153_list_refuted hold in any arithmetic, the rest at the exact reals. Backend conversions are not modelled."
  },
  {
   "property": "C154",
   "status": "proved",
   "theorems": [
    "C154_mass",
    "C154_prior_only",
    "C154_data_only",
    "C154_alpha_refuted",
    "C154_identity",
    "C154_stop",
    "C154_shapes"
   ],
   "note": "The optimality theorem is for the identity dictionary only and assumes that the marginals are met exactly and that the 1e-10 floor of projR did not act on the data rows; convergence itself is not proved. Vectors are 1-D arrays; warnings and printing are not modelled."
  },
  {
   "property": "C155",
   "status": "proved",
   "theorems": [
    "C155_convolution",
    "C155_sinkhorn",
    "C155_log",
    "C155_debiased",
    "C155_debiased_log",
    "C155_debias_term",
    "C155_zero",
    "C155_stop",
    "C155_weights"
   ],
   "note": "Certificates in terms of the disagreement of the marginals; that the iterations converge is not proved. Exact real arithmetic. nx.squeeze in the debiased version is taken to remove only the added axis. Name dispatch, backend tests and warnings are not modelled."
  },
  {
   "property": "C156",
   "status": "proved",
   "theorems": [
    "C156_reports",
    "C156_solves",
    "C156_solvers_exist",
    "C156_fused_plan_ignores_reg",
    "C156_fused_reg_refuted",
    "C156_semirelaxed_reg_refuted",
    "C156_refusals",
    "C156_reg_type_ignored",
    "C156_options"
   ],
   "note": "The fourteen called solvers are a parameter (their own properties are other claims); the default epsilon 0.1 of the fused entropic solvers is part of their specification here. verbose, n_threads, warnings and the log in the result are not modelled. The two _refuted theorems show that the code violates its documentation there."
  },
  {
   "property": "C157",
   "status": "proved",
   "theorems": [
    "C157_reports",
    "C157_solves",
    "C157_solvers_exist",
    "C157_reference_refuted",
    "C157_potentials",
    "C157_ignored",
    "C157_method",
    "C157_refusals"
   ],
   "note": "The seven called solvers are a parameter (their own properties are other claims, e.g. C64 for the factor of the L2 branch, C73 for the missing mass terms of the unbalanced entropic value, C29 for last_step, C94 for gradients). That method is never used assumes that sinkhorn_knopp_unbalanced ignores it, which it does by swallowing it in its keyword arguments. verbose, n_threads, batches and the log in the result are not modelled. C157_reference_refuted shows that the code violates its documentation there."
  },
  {
   "property": "C158",
   "status": "proved",
   "theorems": [
    "C158_dense",
    "C158_lazy_exact",
    "C158_lazy_entropic",
    "C158_lazy_reg_type_refuted",
    "C158_methods_ignore",
    "C158_unbalanced_refuted",
    "C158_weights_ignored",
    "C158_weights_refuted",
    "C158_default_reg",
    "C158_methods_return",
    "C158_refusals",
    "C158_solvers_exist"
   ],
   "note": "The cost function, the solvers behind solve and the eight sample solvers are parameters with the specification l_ok; exceptions they raise themselves are not modelled. X_a and X_b are given; the 1d method is modelled for one dimension. The three _refuted theorems show that the code violates its documentation there."
  },
  {
   "property": "C159",
   "status": "proved",
   "theorems": [
    "C159_start_invertible",
    "C159_index_error",
    "C159_stationary",
    "C159_optimal",
    "C159_ties_refuted"
   ],
   "note": "np.linalg.inv is a parameter that has to invert the starting matrix only, which C159_start_invertible shows to be invertible; reals instead of floats, the guard 1e-16 is 0 in the theorems over R and kept in C159_ties_refuted. Printed messages are left out. The refuted theorem shows that the hypothesis on ties is needed."
  },
  {
   "property": "C16",
   "status": "proved",
   "theorems": [
    "C16_emd_1d_sorted_monge_optimal",
    "C15_emd_1d_sorted_coupling",
    "C17_emd_1d_optimal_in_callers_order"
   ],
   "note": "Exact reals."
  },
  {
   "property": "C160",
   "status": "proved",
   "theorems": [
    "C160_structure",
    "C160_rescale",
    "C160_mirror_step",
    "C160_iteration",
    "C160_gradient",
    "C160_value",
    "C160_marginals",
    "C160_returns",
    "C160_refusals",
    "C160_step_size",
    "C160_error",
    "C160_stopped"
   ],
   "note": "reals instead of floats; the Frobenius norm and the random start are parameters; rank is a natural number. C160_error is stated with the safeguard 1e-16 replaced by 0. The step of gamma_init='theory' is modelled but only enters through the generic statements."
  },
  {
   "property": "C161",
   "status": "proved",
   "theorems": [
    "C161_barycenter",
    "C161_unequal",
    "C161_feasible",
    "C161_refusals"
   ],
   "note": "the LP solver (scipy linprog or cvxopt) is a parameter, required to be correct for the program it receives; scipy.sparse constructors are modelled entry by entry; reals instead of floats"
  },
  {
   "property": "C162",
   "status": "proved",
   "theorems": [
    "C162_gradient",
    "C162_step",
    "C162_inner",
    "C162_feature_cost",
    "C162_unmixing",
    "C162_no_iteration",
    "C162_asymmetric_refuted"
   ],
   "note": "the transport solvers are parameters, required to return a coupling, its value and nothing worse than the warm start; reals instead of floats; the dictionary learning loops are not modelled; for asymmetric C the claim fails in the code (C162_asymmetric_refuted)"
  },
  {
   "property": "C17",
   "status": "proved",
   "theorems": [
    "C17_emd_1d_optimal_in_callers_order"
   ],
   "note": "Exact reals; any sorting permutation is covered by with_perm_run."
  },
  {
   "property": "C18",
   "status": "proved",
   "theorems": [
    "C18_wasserstein_1d_optimal",
    "C18_wasserstein_1d_equals_emd2_1d"
   ],
   "note": "Exact reals."
  },
  {
   "property": "C19",
   "status": "proved",
   "theorems": [
    "C19_w1_circle_optimal",
    "C19_w1_circle_rotation",
    "C19_w1_circle_rotation_refuted"
   ],
   "note": "Exact reals, one column; floor as the integer part. Optimal over all couplings when a sample sits at the cut; refutation over Q otherwise."
  },
  {
   "property": "C20",
   "status": "proved",
   "theorems": [
    "C20_semidiscrete_sorted",
    "C20_semidiscrete_uniform",
    "C20_semidiscrete_uniform_invariant",
    "C20_semidiscrete_permutation_refuted"
   ],
   "note": "Exact reals, one column; refutation over Q."
  },
  {
   "property": "C21",
   "status": "proved",
   "theorems": [
    "C21_knopp_rows",
    "C21_log_rows"
   ],
   "note": "Exact reals, positive weights and kernel, at least one iteration."
  },
  {
   "property": "C22",
   "status": "proved",
   "theorems": [
    "C22_stopping"
   ],
   "note": "Any arithmetic, all exits."
  },
  {
   "property": "C23",
   "status": "proved",
   "theorems": [
    "C23_log_agrees",
    "C23_zero_iterations_refuted"
   ],
   "note": "Exact reals; same exit, same recorded errors, same plan for numItermax >= 1; with 0 iterations they differ by the factor nm."
  },
  {
   "property": "C24",
   "status": "proved",
   "theorems": [
    "C24_fixed_point_optimal"
   ],
   "note": "Exact reals; unique minimiser over all couplings."
  },
  {
   "property": "C25",
   "status": "proved",
   "theorems": [
    "C25_converges",
    "C25_log_converges"
   ],
   "note": "Exact reals, euclidean norm; explicit iteration bound."
  },
  {
   "property": "C26",
   "status": "proved",
   "theorems": [
    "C26_greenkhorn_bookkeeping",
    "C26_within_threshold_refuted"
   ],
   "note": "Exact reals; 2 stopThr at exit, counterexample for stopThr."
  },
  {
   "property": "C27",
   "status": "proved",
   "theorems": [
    "C27_stabilized",
    "C27_converged_not_absorbed",
    "C27_absorption_refuted"
   ],
   "note": "Exact reals; boundary statement with the counterexample."
  },
  {
   "property": "C28",
   "status": "proved",
   "theorems": [
    "C28_batch",
    "C28_batch_converged",
    "C28_batch_terminates",
    "C28_batch_log_agrees"
   ],
   "note": "Exact reals; kernel and log-domain batch."
  },
  {
   "property": "C29",
   "status": "proved",
   "theorems": [
    "C29_last_step",
    "C29_one_iteration_refuted"
   ],
   "note": "Exact reals for the marginal; the failure for max_iter=1 in any arithmetic. Gradient (autodiff) behaviour not modelled."
  },
  {
   "property": "C30",
   "status": "proved",
   "theorems": [
    "C30_fixed_point_optimal",
    "C30_converges",
    "C30_gap"
   ],
   "note": "Exact reals."
  },
  {
   "property": "C31",
   "status": "proved",
   "theorems": [
    "C31_kl_decreases",
    "C31_l2_decreases"
   ],
   "note": "Exact reals, the 1e-16 guard taken as 0; includes the explicit decrease per step."
  },
  {
   "property": "C32",
   "status": "proved",
   "theorems": [
    "C32_equal_penalties",
    "C32_refuted"
   ],
   "note": "Exact reals. Equal finite penalties: steady states are optimal. Unequal penalties: refuted for every threshold and iteration count."
  },
  {
   "property": "C33",
   "status": "proved",
   "theorems": [
    "C33_partial_mass",
    "C33_partial_answers",
    "C33_negative_cost_refuted"
   ],
   "note": "Exact reals, composed with the simplex model; the condition M_ij + 2 max(M) > 0 is needed up to twice the simplex tolerance."
  },
  {
   "property": "C34",
   "status": "proved",
   "theorems": [
    "C34_partial_optimal"
   ],
   "note": "Exact reals; up to the simplex tolerance times the mass of the extended problem."
  },
  {
   "property": "C35",
   "status": "proved",
   "theorems": [
    "C35_lagrange_optimal",
    "C35_early_exit_refuted"
   ],
   "note": "Exact reals; positive masses; the early exit is optimal for non-negative costs and refuted for negative ones."
  },
  {
   "property": "C36",
   "status": "proved",
   "theorems": [
    "C36_lagrange_log",
    "C36_log_dropped_refuted"
   ],
   "note": "Boundary statement, any arithmetic: which calls honour log, and that the early exit does not."
  },
  {
   "property": "C37",
   "status": "proved",
   "theorems": [
    "C37_entropic_partial_mass",
    "C37_entropic_partial_gap",
    "C37_fixed_point_optimal"
   ],
   "note": "Exact reals, positive weights and mass. The gap bound holds at every iteration; that the bound tends to 0 is not proved."
  },
  {
   "property": "C38",
   "status": "proved",
   "theorems": [
    "C38_quad_linesearch"
   ],
   "note": "Exact reals."
  },
  {
   "property": "C39",
   "status": "proved",
   "theorems": [
    "C39_cg_feasible",
    "C39_cg_default_start",
    "C39_unnormalised_default_start_refuted"
   ],
   "note": "Positive for a feasible start, and for the default start with unit masses; the default start is shown infeasible for other masses."
  },
  {
   "property": "C40",
   "status": "proved",
   "theorems": [
    "C40_cg_descends"
   ],
   "note": "Exact reals; objective quadratic along segments."
  },
  {
   "property": "C41",
   "status": "proved",
   "theorems": [
    "C41_cg_accounting",
    "C41_cg_exit"
   ],
   "note": "Accounting holds for any arithmetic."
  },
  {
   "property": "C42",
   "status": "proved",
   "theorems": [
    "C42_armijo"
   ],
   "note": "Relies on the contract of scipy's scalar_search_armijo, stated as armijo_contract."
  },
  {
   "property": "C43",
   "status": "proved",
   "theorems": [
    "C43_semirelaxed_oracle"
   ],
   "note": "Up to the code's own margin 1e-15."
  },
  {
   "property": "C44",
   "status": "proved",
   "theorems": [
    "C44_partial_oracle",
    "C44_zero_linear_cost_refuted"
   ],
   "note": "Boundary statement: exact mass when Mi_ij + 100 max(M) exceeds twice the tolerance; counterexample with M = 0."
  },
  {
   "property": "C45",
   "status": "proved",
   "theorems": [
    "C45_tensor_factorisation",
    "C45_semirelaxed_and_partial"
   ],
   "note": "Exact reals; any logarithm and any guard eps."
  },
  {
   "property": "C46",
   "status": "proved",
   "theorems": [
    "C46_gradients",
    "C46_line_search"
   ],
   "note": "Exact reals."
  },
  {
   "property": "C47",
   "status": "proved",
   "theorems": [
    "C47_square_discrepancy",
    "C47_isometry_costs_zero",
    "C47_kl_discrepancy"
   ],
   "note": "Exact reals; kl with the 1e-18 guard taken as 0."
  },
  {
   "property": "C48",
   "status": "proved",
   "theorems": [
    "C48_square_gradients",
    "C48_kl_gradients",
    "C48_partial_gradient_refuted"
   ],
   "note": "Exact reals; kl with the guards taken as 0.  Partial solver refuted."
  },
  {
   "property": "C49",
   "status": "proved",
   "theorems": [
    "C49_structure_square",
    "C49_structure_kl",
    "C49_features",
    "C49_unnormalised_weights_refuted"
   ],
   "note": "Exact reals.  Positive under masses consistent with the plans; refuted for shared p with weights not summing to 1."
  },
  {
   "property": "C50",
   "status": "proved",
   "theorems": [
    "C50_joint_cost",
    "C50_independent_cost_balanced",
    "C50_independent_cost_refuted"
   ],
   "note": "Exact reals, guard 1e-16 taken as 0."
  },
  {
   "property": "C51",
   "status": "proved",
   "theorems": [
    "C51_div_to_product",
    "C51_div_between_product"
   ],
   "note": "Exact reals, guard 1e-16 taken as 0."
  },
  {
   "property": "C52",
   "status": "proved",
   "theorems": [
    "C52_proj_simplex",
    "C52_proj_simplex_unique"
   ],
   "note": "Exact reals, z > 0."
  },
  {
   "property": "C53",
   "status": "proved",
   "theorems": [
    "C53_distances"
   ],
   "note": "Exact reals."
  },
  {
   "property": "C54",
   "status": "proved",
   "theorems": [
    "C54_reduce_lazytensor",
    "C54_not_additive_refuted"
   ],
   "note": ""
  },
  {
   "property": "C55",
   "status": "proved",
   "theorems": [
    "C55_sparse_ot_dist",
    "C55_weights_by_sample_refuted",
    "C55_index_error_refuted"
   ],
   "note": "What the code computes, when it agrees with the documentation, and counterexamples."
  },
  {
   "property": "C56",
   "status": "proved",
   "theorems": [
    "C56_standard",
    "C56_minmax",
    "C56_l2",
    "C56_history"
   ],
   "note": "Exact reals; history theorem for any arithmetic."
  },
  {
   "property": "C57",
   "status": "proved",
   "theorems": [
    "C57_north_west_gluing"
   ],
   "note": "Exact reals."
  },
  {
   "property": "C58",
   "status": "proved",
   "theorems": [
    "C58_merge_is_image",
    "C58_moves_less_than_tol_refuted"
   ],
   "note": "Closeness relation arbitrary (reflexive); refutations over Q."
  },
  {
   "property": "C59",
   "status": "proved",
   "theorems": [
    "C59_uniform_weights_exact",
    "C59_uniform_descent",
    "C59_weights_only_through_A",
    "C59_weights_refuted",
    "C59_initial_point_refuted"
   ],
   "note": "Exact reals, emd and the inverse square root as oracles; refutations over Q."
  },
  {
   "property": "C60",
   "status": "proved",
   "theorems": [
    "C60_greedy_optimal"
   ],
   "note": "Exact reals."
  },
  {
   "property": "C61",
   "status": "proved",
   "theorems": [
    "C61_sag_table",
    "C61_sag_stationary"
   ],
   "note": "Exact reals; the sampled indices are an arbitrary list."
  },
  {
   "property": "C62",
   "status": "proved",
   "theorems": [
    "C62_semi_dual_plan",
    "C62_c_transform_best"
   ],
   "note": "Exact reals; at every potential."
  },
  {
   "property": "C63",
   "status": "proved",
   "theorems": [
    "C63_smooth_dual",
    "C63_smooth_dual_supergradient",
    "C63_smooth_dual_defined"
   ],
   "note": "Exact reals, at every dual point; scipy's L-BFGS iterations are not modelled. argpartition ties resolved by a stable order."
  },
  {
   "property": "C64",
   "status": "proved",
   "theorems": [
    "C64_l2_plan_minimises_half",
    "C64_l2_value_refuted"
   ],
   "note": "Exact reals; the claim is refuted by a 2x2 instance with an exact zero-gradient dual point."
  },
  {
   "property": "C65",
   "status": "proved",
   "theorems": [
    "C65_complement_schur_add",
    "C65_complement_schur_remove",
    "C65_first_block"
   ],
   "note": "Exact reals; functions for matrices."
  },
  {
   "property": "C66",
   "status": "proved",
   "theorems": [
    "C66_compute_transport_plan"
   ],
   "note": "Exact reals; any list of breakpoints with decreasing parameters."
  },
  {
   "property": "C67",
   "status": "proved",
   "theorems": [
    "C67_emd_terminates"
   ],
   "note": "Exact reals; strongly feasible trees plus potential monotonicity, bound 2^(nm+n+m) on pivots."
  },
  {
   "property": "C68",
   "status": "proved",
   "theorems": [
    "C68_sparse_projection"
   ],
   "note": "Exact reals, z > 0, 1 <= max_nz <= n."
  },
  {
   "property": "C69",
   "status": "proved",
   "theorems": [
    "C69_logscale_same_iterates"
   ],
   "note": "Exact reals; logsumexp modelled without its max-shift. The two solvers may stop at different iterations."
  },
  {
   "property": "C70",
   "status": "proved",
   "theorems": [
    "C70_error_controls_objective"
   ],
   "note": "Exact reals."
  },
  {
   "property": "C71",
   "status": "proved",
   "theorems": [
    "C71_greenkhorn_terminates"
   ],
   "note": "Exact reals; existence of the limit (explicit in the proof: phi(init)/min(thr^2/(9A),A))."
  },
  {
   "property": "C72",
   "status": "proved",
   "theorems": [
    "C72_epsilon_scaling_always_warns"
   ],
   "note": "Any arithmetic."
  },
  {
   "property": "C73",
   "status": "proved",
   "theorems": [
    "C73_total_cost",
    "C73_refuted"
   ],
   "note": "Exact reals."
  },
  {
   "property": "C74",
   "status": "proved",
   "theorems": [
    "C74_terminates"
   ],
   "note": "Exact reals."
  },
  {
   "property": "C75",
   "status": "proved",
   "theorems": [
    "C75_kl_stops",
    "C75_l2_stops"
   ],
   "note": "Exact reals, the 1e-16 guard taken as 0."
  },
  {
   "property": "C76",
   "status": "proved",
   "theorems": [
    "C76_last_step",
    "C76_refuted"
   ],
   "note": "Exact reals, the 1e-16 guards taken as 0."
  },
  {
   "property": "C77",
   "status": "proved",
   "theorems": [
    "C77_columns",
    "C77_refuted"
   ],
   "note": "Exact reals."
  },
  {
   "property": "C78",
   "status": "proved",
   "theorems": [
    "C78_fused_gw"
   ],
   "note": "Exact reals; the linear oracle is any function answering couplings."
  },
  {
   "property": "C79",
   "status": "proved",
   "theorems": [
    "C79_semirelaxed_gw"
   ],
   "note": "Exact reals."
  },
  {
   "property": "C80",
   "status": "proved",
   "theorems": [
    "C80_partial_gw",
    "C80_start_mass_refuted"
   ],
   "note": "Exact reals; the linear oracle is any function answering partial plans of mass m."
  },
  {
   "property": "C81",
   "status": "proved",
   "theorems": [
    "C81_stalled_is_stationary"
   ],
   "note": "Exact reals."
  },
  {
   "property": "C82",
   "status": "proved",
   "theorems": [
    "C82_block_problems_exact",
    "C82_objective_never_increases",
    "C82_fixed_point_blockwise_optimal"
   ],
   "note": "Exact reals; the inner solver is any function meeting the stated condition."
  },
  {
   "property": "C83",
   "status": "proved",
   "theorems": [
    "C83_l2_block_problem_refuted"
   ],
   "note": "Refutation."
  },
  {
   "property": "C84",
   "status": "proved",
   "theorems": [
    "C84_eps_samp_ignored",
    "C84_sample_problem_refuted"
   ],
   "note": "Non-dependence for any arithmetic; refutation over the reals."
  },
  {
   "property": "C85",
   "status": "proved",
   "theorems": [
    "C85_rescaled_mass",
    "C85_equal_mass_refuted"
   ],
   "note": "Exact reals."
  },
  {
   "property": "C86",
   "status": "proved",
   "theorems": [
    "C86_dual_value",
    "C86_dual_is_subgradient",
    "C86_empty_last_bin_refuted"
   ],
   "note": "Exact reals; refutation over Q."
  },
  {
   "property": "C87",
   "status": "proved",
   "theorems": [
    "C87_free_support_descent",
    "C87_step_with_network_simplex"
   ],
   "note": "Exact reals; exact emd oracle for the loop, the network simplex model for one step."
  },
  {
   "property": "C88",
   "status": "proved",
   "theorems": [
    "C88_renormalize",
    "C88_optimize_returns_histograms"
   ],
   "note": "Exact reals."
  },
  {
   "property": "C89",
   "status": "proved",
   "theorems": [
    "C89_true_fixed_point_descent",
    "C89_l2_projection_refuted"
   ],
   "note": "Exact reals, emd and ground barycenter as oracles, without clean_measure; refutation over Q."
  },
  {
   "property": "C90",
   "status": "proved",
   "theorems": [
    "C90_lcot_pseudometric",
    "C90_lcot_quantile_shifted",
    "C90_lcot_quantile_refuted"
   ],
   "note": "Exact reals, one column, grid size a parameter (100 in the code); refutation over Q."
  },
  {
   "property": "C91",
   "status": "proved",
   "theorems": [
    "C91_wasserstein_circle_upper"
   ],
   "note": "Exact reals, one column, x ** p as a parameter instantiated by the real power. derivative_cost_on_circle is an arbitrary function: exactness of the minimiser in theta is not claimed."
  },
  {
   "property": "C92",
   "status": "proved",
   "theorems": [
    "C92_smooth_semi_dual",
    "C92_smooth_semi_dual_supergradient",
    "C92_semi_dual_dominates"
   ],
   "note": "Exact reals, at every dual point, b positive; L-BFGS not modelled."
  },
  {
   "property": "C93",
   "status": "proved",
   "theorems": [
    "C93_asgd_average",
    "C93_asgd_bias_refuted"
   ],
   "note": "Exact reals; sampled indices an arbitrary list, sqrt a parameter. Refutation with a 2x2 instance."
  },
  {
   "property": "C94",
   "status": "proved",
   "theorems": [
    "C94_emd2_gradients",
    "C94_solve_entropy_gradients",
    "C94_solve_kl_gradients",
    "C94_solve_kl_gradient_refuted",
    "C94_mass_changing_refuted"
   ],
   "note": "Exact reals; autodiff itself not modelled, set_gradients attaches the arrays. emd2 through the network simplex model, up to its tolerance; Sinkhorn at an exact fixed point, eps = 0 in the logarithm."
  },
  {
   "property": "C95",
   "status": "proved",
   "theorems": [
    "C95_batch_unbiased",
    "C95_sgd_local"
   ],
   "note": "Exact reals; batches are arbitrary lists, expectation as a sum over families of batches covering each sample equally often."
  },
  {
   "property": "C96",
   "status": "proved",
   "theorems": [
    "C96_dual_entropic",
    "C96_dual_quadratic",
    "C96_entropic_objective",
    "C96_same_plan"
   ],
   "note": "Exact reals; the cost matrix computed by the metric is an argument."
  },
  {
   "property": "C97",
   "status": "proved",
   "theorems": [
    "C97_fully_relaxed_path",
    "C97_ties_refuted",
    "C97_itmax_refuted"
   ],
   "note": "Boundary statement. Exact reals with the 1e-16 offsets set to 0 in the positive theorem; hypotheses (no simultaneous events, no event within the filter tolerance, itmax not reached) are on the returned lists. Refutations over rationals with the code's constants."
  },
  {
   "property": "C98",
   "status": "proved",
   "theorems": [
    "C98_sliced_distances",
    "C98_projections_unit",
    "C98_symmetric",
    "C98_triangle",
    "C98_zero"
   ],
   "note": "Exact reals; projections are an argument (the random draw is not modelled)."
  },
  {
   "property": "C99",
   "status": "proved",
   "theorems": [
    "C99_sliced_plans",
    "C99_min_sliced_plan",
    "C99_unequal_weights_refuted",
    "C99_unnormalised_refuted"
   ],
   "note": "Boundary statement. Exact reals for the positive theorems, rationals for the refutations."
  }
 ]
}