{
 "claims": [
  {
   "property": "C01",
   "status": "proved",
   "theorems": [
    "C01_round_trip",
    "C01_other_ranks_rejected",
    "C01_real_unchanged",
    "C01_zero_rows",
    "C01_shapes"
   ],
   "note": ""
  },
  {
   "property": "C02",
   "status": "partial",
   "theorems": [
    "C02_even_round_trip",
    "C02_image_is_even",
    "C02_odd_rejected_partial",
    "C02_odd_accepted_refuted"
   ],
   "note": "REFUTED: an array of odd length is not always rejected (witness). Even sizes proved; the odd sizes that are rejected are proved to be so."
  },
  {
   "property": "C03",
   "status": "proved",
   "theorems": [
    "C03_complex_round_trip",
    "C03_real_round_trip",
    "C03_unchanged",
    "C03_rejected"
   ],
   "note": ""
  },
  {
   "property": "C04",
   "status": "proved",
   "theorems": [
    "C04_defined",
    "C04_symmetric_iff_hermitian",
    "C04_quadratic_form",
    "C04_definite_iff",
    "C04_linear",
    "C04_determinant",
    "C04_inverse"
   ],
   "note": ""
  },
  {
   "property": "C05",
   "status": "proved",
   "theorems": [
    "C05_stack_toreal",
    "C05_stack_tocomplex",
    "C05_stack_round_trip",
    "C05_unchanged",
    "C05_other_ranks_rejected",
    "C05_bad_matrices_rejected"
   ],
   "note": ""
  },
  {
   "property": "C06",
   "status": "partial",
   "theorems": [
    "C06_round_trip_iff",
    "C06_exact_iff_even_multiple",
    "C06_normal_round_trip_partial",
    "C06_error_bound",
    "C06_subnormal_lost_refuted"
   ],
   "note": "REFUTED for odd multiples of the smallest subnormal: 2^-1074 comes back as 0 (witness). Proved: the round trip is exact exactly for even multiples of 2^-1074, hence for 0 and every magnitude at least 2^-1021, and the error never exceeds 2^-1074. The sign of a zero may be lost."
  },
  {
   "property": "C07",
   "status": "partial",
   "theorems": [
    "C07_square_matrices",
    "C07_exact_accepted",
    "C07_nonsquare_partial",
    "C07_nonsquare_refuted",
    "C07_vector_refuted"
   ],
   "note": "REFUTED: a non-square matrix or a vector can be accepted by broadcasting (witnesses). Proved for square matrices."
  },
  {
   "property": "C08",
   "status": "proved",
   "theorems": [
    "C08_logpdf_samples",
    "C08_logpdf_vector",
    "C08_frozen",
    "C08_pdf"
   ],
   "note": "SciPy's multivariate_normal is modelled from its source (Model_scipy.v). Any number of samples, data of any dtype, mean given or None, frozen and un-frozen, logpdf and pdf. Exact arithmetic."
  },
  {
   "property": "C09",
   "status": "partial",
   "theorems": [
    "C09_frozen_logpdf_partial",
    "C09_unfrozen_refuted"
   ],
   "note": "REFUTED for the un-frozen call: complex_multivariate_t.logpdf is not overridden and drops imaginary parts (refuted in dimension 1 for any log-gamma function). Proved for the frozen law."
  },
  {
   "property": "C10",
   "status": "proved",
   "theorems": [
    "C10_circular"
   ],
   "note": "For every finite weighted sample, about any centre; also the means."
  },
  {
   "property": "C11",
   "status": "partial",
   "theorems": [
    "C11_complex_covariance",
    "C11_real_parameters",
    "C11_complex_mean_refuted",
    "C11_frozen_refuted",
    "C11_defaults_refuted"
   ],
   "note": "REFUTED: with a complex mean and a real covariance, logpdf ignores the imaginary part of the mean and the frozen law has dimension 2p for data of dimension p (ValueError, or accepted when p = 1); the default parameters raise TypeError. Proved for complex covariances and for real parameters."
  },
  {
   "property": "C12",
   "status": "partial",
   "theorems": [
    "C12_shape_partial",
    "C12_sizes",
    "C12_sizes_refuted"
   ],
   "note": "REFUTED for size 0 (ValueError) and for tuples with several axes (AttributeError). Proved for every n >= 1, with a full table of the outcome for every size."
  },
  {
   "property": "C13",
   "status": "proved",
   "theorems": [
    "C13_formula",
    "C13_positive_semidefinite",
    "C13_translation_invariant",
    "C13_linear_map",
    "C13_fit"
   ],
   "note": "assume_centered False is np.cov(X.T, bias=1), modelled from its documentation."
  },
  {
   "property": "C14",
   "status": "partial",
   "theorems": [
    "C14_complex_matrix_stored",
    "C14_real_matrix_stored",
    "C14_set_then_transform",
    "C14_computed_is_complex",
    "C14_parts",
    "C14_real_dtype_stored_half_size_refuted",
    "C14_identity_stored_as_2_refuted",
    "C14_real_dtype_odd_refuted",
    "C14_reached_by_fit_refuted"
   ],
   "note": "REFUTED for covariances of real dtype: the complex _set_covariance takes a 2p x 2p real matrix for the real representation of a p x p one (I_2 is stored as the 1 x 1 matrix 2, odd sizes raise); reached by fit with a real init and iter_max=0. Proved for covariances of complex dtype, which is what every fit that iterates, or starts from None or a complex init, produces."
  },
  {
   "property": "C15",
   "status": "partial",
   "theorems": [
    "C15_complex_data",
    "C15_real_estimators",
    "C15_real_data_halved_refuted",
    "C15_n_features_in_doubled_refuted"
   ],
   "note": "REFUTED for real-valued data given to a complex estimator: columns are paired into half as many complex features; n_features_in_ is twice the number of features of complex data. Proved: complex data are used as given, real estimators use the data as given."
  },
  {
   "property": "C16",
   "status": "partial",
   "theorems": [
    "C16_nonnegative",
    "C16_zero_when_equal",
    "C16_separates_partial",
    "C16_separation_refuted"
   ],
   "note": "REFUTED for complex matrices: the difference [[1,i],[-i,1]] has error_norm 0 for both norms and all flags. Proved: nonnegative, zero when equal, and zero only when equal for matrices that differ by real numbers."
  },
  {
   "property": "C17",
   "status": "proved",
   "theorems": [
    "C17_entry_is_fit_on_trial",
    "C17_succeeds",
    "C17_any_n_jobs",
    "C17_any_history",
    "C17_other_trials_do_not_matter",
    "C17_estimator_untouched",
    "C17_ex"
   ],
   "note": ""
  },
  {
   "property": "C18",
   "status": "partial",
   "theorems": [
    "C18_refit_partial",
    "C18_new_objects",
    "C18_natural_gradient_refit_refuted",
    "C18_ex",
    "C18_natural_gradient_ex"
   ],
   "note": "REFUTED for method='natural gradient': the second fit raises TypeError (iteration_ is None). Proved for every other estimator and every history of fits."
  },
  {
   "property": "C19",
   "status": "partial",
   "theorems": [
    "C19_real_partial",
    "C19_complex_partial",
    "C19_complex_estimator_real_trials_refuted",
    "C19_integer_trials_refuted"
   ],
   "note": "REFUTED for integer trials (5/2 comes back as 2) and for a complex estimator on real trials with 2 columns (each 2 x 2 matrix is filled with one value). Proved for real estimators on float trials and complex estimators on complex trials."
  },
  {
   "property": "C20",
   "status": "proved",
   "theorems": [
    "C20_append_concatenates",
    "C20_append_accepted"
   ],
   "note": ""
  },
  {
   "property": "C21",
   "status": "proved",
   "theorems": [
    "C21_getitem_int",
    "C21_getitem_int_out_of_range",
    "C21_getitem_slice"
   ],
   "note": ""
  },
  {
   "property": "C22",
   "status": "partial",
   "theorems": [
    "C22_rejected_append_one_component_partial",
    "C22_rejected_append_refuted"
   ],
   "note": "REFUTED for several components: an append whose second component is rejected leaves the first component modified, and a later valid append then fails (witness). Proved for feature arrays with one component, for every history."
  },
  {
   "property": "C23",
   "status": "partial",
   "theorems": [
    "C23_component_lengths_refuted"
   ],
   "note": "REFUTED: components bringing 3 and 2 items are accepted, len is 2 and an item of the first component is silently lost (witness). For appends with equal counts see C20."
  },
  {
   "property": "C24",
   "status": "partial",
   "theorems": [
    "C24_caller_array_overwritten_refuted",
    "C24_shares_memory_refuted"
   ],
   "note": "REFUTED: the feature array keeps a view of the caller's first array; a later append can overwrite the caller's array and writes by the caller show through (two witnesses). For appends with equal counts C26 proves that the caller's arrays keep their values."
  },
  {
   "property": "C25",
   "status": "partial",
   "theorems": [
    "C25_vectorize_single_append_partial",
    "C25_vectorize_refuted"
   ],
   "note": "REFUTED after a second append: 4 items give 1003 rows because the preallocated buffer is exported (witness). Proved for feature arrays made by one append, any number of components."
  },
  {
   "property": "C26",
   "status": "proved",
   "theorems": [
    "C26_exports_and_caller_arrays_stable"
   ],
   "note": ""
  },
  {
   "property": "C27",
   "status": "partial",
   "theorems": [
    "C27_one_item_per_trial",
    "C27_any_n_jobs",
    "C27_no_trial",
    "C27_ex",
    "C27_shared_estimator_refuted",
    "C27_scalar_features",
    "C27_other_features",
    "C27_exceptions"
   ],
   "note": "REFUTED for estimators whose fit depends on earlier fits (Tyler 'natural gradient'): in one process the same estimator object is fitted on all trials (the deep copy is discarded) and transform raises. Proved for every estimator whose answer depends on the trial only, any number of trials, any n_jobs."
  },
  {
   "property": "C28",
   "status": "proved",
   "theorems": [
    "C28_normalisation_constraint",
    "C28_unknown_or_None_unscaled",
    "C28_scale_invariant",
    "C28_idempotent",
    "C28_returned_by_tyler"
   ],
   "note": ""
  },
  {
   "property": "C29",
   "status": "partial",
   "theorems": [
    "C29_stopping_contract",
    "C29_estimators_follow_contract",
    "C29_invalid_parameters_raise",
    "C29_early_stop_partial",
    "C29_nan_reported_as_success_refuted",
    "C29_early_stop"
   ],
   "note": "REFUTED for 'the reported error is at most tol when stopping early': a nan error also stops the loop, without warning (witness: data set of zeros). Everything else is proved for all inputs, and the refuted part for positive definite initial points (or none) and samples spanning the space, none of them zero."
  },
  {
   "property": "C30",
   "status": "proved",
   "theorems": [
    "C30_iterates_psd",
    "C30_iterates_pd",
    "C30_returned_pd"
   ],
   "note": "Semidefiniteness: any data and starting point. Definiteness: samples spanning the space, none zero, positive definite or default starting point. Exact arithmetic."
  },
  {
   "property": "C31",
   "status": "proved",
   "theorems": [
    "C31_sample_norms_irrelevant"
   ],
   "note": ""
  },
  {
   "property": "C32",
   "status": "proved",
   "theorems": [
    "C32_affine_equivariance",
    "C32_one_update",
    "C32_unitary_run"
   ],
   "note": "Updates: any invertible map. Whole runs (same error, same iteration count): unitary maps, for which the Frobenius norm is invariant."
  },
  {
   "property": "C33",
   "status": "proved",
   "theorems": [
    "C33_sample_order_irrelevant"
   ],
   "note": ""
  },
  {
   "property": "C34",
   "status": "proved",
   "theorems": [
    "C34_initial_scale_irrelevant"
   ],
   "note": ""
  },
  {
   "property": "C35",
   "status": "proved",
   "theorems": [
    "C35_update_decreases_cost",
    "C35_fixed_point_is_global_minimiser"
   ],
   "note": "Data spanning the space, no zero sample, positive definite initial point (or none). Stronger than stated: a point reached with error 0 is a global minimiser of the cost, and an update that moves strictly decreases it. Exact arithmetic."
  },
  {
   "property": "C36",
   "status": "partial",
   "theorems": [
    "C36_score_real",
    "C36_score_complex",
    "C36_real_maximises_half_df_partial",
    "C36_complex_maximises_double_df_partial",
    "C36_real_refuted",
    "C36_complex_refuted"
   ],
   "note": "REFUTED: the real estimator with df maximises the likelihood with df/2, the complex one the likelihood with 2 df (proved, global maximum over positive definite matrices, samples not zero); with its own df the fixed point is neither a maximiser nor a stationary point of the score (witness in dimension 1, samples 1 and 2). The score methods are modelled and proved to be the Student log-likelihoods."
  },
  {
   "property": "C37",
   "status": "partial",
   "theorems": [
    "C37_equation_solved_partial",
    "C37_code_weight_increases",
    "C37_refuted"
   ],
   "note": "REFUTED: the code divides by Huber's weights instead of multiplying: a fixed point solves the equation with weights beta max(1, t/lambda), which grow with the distance (proved, equivalence). Witness for every lambda, beta with lambda beta >= 1, beta <> 1."
  },
  {
   "property": "C38",
   "status": "partial",
   "theorems": [
    "C38_student_bounded_partial",
    "C38_tyler_bounded_partial",
    "C38_huber_refuted"
   ],
   "note": "REFUTED for Huber: the update from the identity is unbounded in the sample (witness for every lambda, beta > 0). Proved for Student-t and Tyler: replacing one sample, whatever its values, changes the update by at most the stated multiple of S in the Loewner order."
  },
  {
   "property": "C39",
   "status": "partial",
   "theorems": [
    "C39_tyler_agrees_partial",
    "C39_student_agrees_with_half_df_partial",
    "C39_huber_agrees_with_same_thresholds_partial",
    "C39_student_refuted"
   ],
   "note": "REFUTED for Student-t with the same df (witness). Proved for whole runs (same error, same number of iterations): Tyler; Student-t when the complex df is half the real df; Huber with equal lambda and beta. Samples spanning the space, none zero, positive definite initial point or none."
  },
  {
   "property": "C40",
   "status": "proved",
   "theorems": [
    "C40_formula",
    "C40_incompatible_shapes",
    "C40_scale_of_Q",
    "C40_rescaled_samples",
    "C40_affine"
   ],
   "note": ""
  },
  {
   "property": "C41",
   "status": "partial",
   "theorems": [
    "C41_success",
    "C41_failure_partial",
    "C41_pinvh_failure_refuted"
   ],
   "note": "REFUTED in one case: when pinvh raises, covariance_ is already the new one while precision_, err_ and iteration_ are the old ones. Proved: success sets all of them from the same run; every other failure leaves them unchanged."
  },
  {
   "property": "C42",
   "status": "partial",
   "theorems": [
    "C42_unknown_method",
    "C42_own_options_used",
    "C42_new_and_set_method",
    "C42_stays",
    "C42_others_do_not_matter",
    "C42_huber_student",
    "C42_copy_reads_original_refuted",
    "C42_original_changes_copy_refuted",
    "C42_method_ignored_refuted",
    "C42_ex"
   ],
   "note": "REFUTED for copies (the copied Tyler estimator reads tol, iter_max and normalisation in the original) and for the attribute method (ignored until set_method). Proved for objects built by the constructor or after set_method, whatever happens to other objects."
  },
  {
   "property": "C43",
   "status": "partial",
   "theorems": [
    "C43_none_before_any_successful_fit",
    "C43_loglik_after_successful_fit_partial",
    "C43_no_iteration_refuted",
    "C43_ex"
   ],
   "note": "REFUTED for iter_max=0: score is None after a successful fit. Proved: None before any successful fit; the Student log-likelihood after a successful fit that iterates."
  },
  {
   "property": "C44",
   "status": "partial",
   "theorems": [
    "C44_covariance_is_image_partial",
    "C44_complex_image",
    "C44_stale_covariance_refuted",
    "C44_stays_on_manifold",
    "C44_positive_definite",
    "C44_covariance_is_estimate",
    "C44_stale_witness_refuted",
    "C44_real_start_refuted",
    "C44_ex"
   ],
   "note": "REFUTED after a call that raised (set_estimate stores the estimate before the covariance is checked: stale covariance_) and for real-dtype starts (np.eye(2) gives a 1x1 covariance_). Proved: after any history of calls that return normally covariance_ is the stored image of the estimate; every estimate is positive definite in every history, raising calls included, and for every manifold whose retraction maps tangent vectors to points."
  },
  {
   "property": "C45",
   "status": "partial",
   "theorems": [
    "C45_fit_path",
    "C45_first_fit_partial",
    "C45_second_fit_refuted"
   ],
   "note": "REFUTED: _iteration is never reset, so a second fit starts at lrate/(n+1) (witness: 5/2 then 13/8). Proved: the exact path of fit from any state, and the property for the first fit of any history."
  },
  {
   "property": "C46",
   "status": "partial",
   "theorems": [
    "C46_update_before_initialisation",
    "C46_fit_without_init_refuted",
    "C46_fit_without_init_tocov"
   ],
   "note": "REFUTED for fit: fit(init=None) raises ValueError (or what estimatetocov(None) raises) and resets the estimate to None. Proved for update in every state."
  },
  {
   "property": "C47",
   "status": "proved",
   "theorems": [
    "C47_rand",
    "C47_exp_positive",
    "C47_retr_positive",
    "C47_log_exp",
    "C47_exp_log",
    "C47_dist_is_norm_of_log",
    "C47_dist_nonnegative",
    "C47_dist_symmetric",
    "C47_dist_separates",
    "C47_dist_triangle",
    "C47_transp_isometry",
    "C47_gradient",
    "C47_inner_product"
   ],
   "note": ""
  },
  {
   "property": "C48",
   "status": "proved",
   "theorems": [
    "C48_retr_positive_definite",
    "C48_retr_zero",
    "C48_retr_first_order",
    "C48_rand"
   ],
   "note": ""
  },
  {
   "property": "C49",
   "status": "proved",
   "theorems": [
    "C49_exp_positive_definite",
    "C49_exp_log",
    "C49_log_exp",
    "C49_log_hermitian",
    "C49_eigensolver_irrelevant"
   ],
   "note": ""
  },
  {
   "property": "C50",
   "status": "proved",
   "theorems": [
    "C50_inner_real",
    "C50_inner_symmetric",
    "C50_inner_bilinear",
    "C50_inner_positive",
    "C50_inner_definite",
    "C50_inner_invariant",
    "C50_norm",
    "C50_gradient",
    "C50_gradient_tangent",
    "C50_projection",
    "C50_cholesky_exists"
   ],
   "note": ""
  },
  {
   "property": "C51",
   "status": "proved",
   "theorems": [
    "C51_transp_hermitian",
    "C51_transp_isometry",
    "C51_transp_point",
    "C51_sqrtm_exists"
   ],
   "note": ""
  },
  {
   "property": "C52",
   "status": "proved",
   "theorems": [
    "C52_rand",
    "C52_exp",
    "C52_retr",
    "C52_proj_tangent",
    "C52_proj_identity",
    "C52_proj_idempotent",
    "C52_proj_orthogonal",
    "C52_log_tangent",
    "C52_exp_geodesic",
    "C52_exp_log",
    "C52_log_exp",
    "C52_gradient",
    "C52_gradient_tangent",
    "C52_transp"
   ],
   "note": ""
  },
  {
   "property": "C53",
   "status": "partial",
   "theorems": [
    "C53_distance",
    "C53_metric",
    "C53_positive_vectors_distance",
    "C53_positive_vectors_metric",
    "C53_inner",
    "C53_gradient",
    "C53_randvec_norm_partial",
    "C53_randvec_unit_partial",
    "C53_positive_vectors_factor",
    "C53_hpd_factor",
    "C53_shpd_factor",
    "C53_randvec_refuted"
   ],
   "note": "REFUTED: randvec scales the k-th factor by sqrt(w_k) instead of 1/sqrt(w_k), so its squared norm is the mean of the w_k^2 (one factor of weight 4: norm 4). Inner product and gradient hold, with the three manifolds of the library as instances."
  },
  {
   "property": "C54",
   "status": "partial",
   "theorems": [
    "C54_dimension_true",
    "C54_dimension_refuted",
    "C54_special_dimension_refuted",
    "C54_positive_vectors_dimension",
    "C54_inner_lower_bound",
    "C54_inner_positive",
    "C54_inner_symmetric",
    "C54_inner_linear",
    "C54_gradient_partial",
    "C54_gradient_gaussian_partial",
    "C54_gradient_refuted"
   ],
   "note": "REFUTED: egrad2rgrad ignores the trace term of the metric (a=b=1, df=1 at the identity is a counterexample; the exact defect is proved), and the reported dimensions n(n+1) and n(n+1)-1 exceed the true ones. The metric itself is proved positive definite, symmetric and linear."
  },
  {
   "property": "C55",
   "status": "proved",
   "theorems": [
    "C55_nonnegative",
    "C55_norm_of_log",
    "C55_separates",
    "C55_symmetric",
    "C55_congruence",
    "C55_inversion"
   ],
   "note": ""
  },
  {
   "property": "C56",
   "status": "partial",
   "theorems": [
    "C56_at_most_iter_max",
    "C56_result",
    "C56_factors_partial",
    "C56_succeeds",
    "C56_zero_sample",
    "C56_returns_tol_refuted",
    "C56_size_mismatch",
    "C56_complete",
    "C56_B_iff",
    "C56_rows_missing",
    "C56_singular_B_refuted",
    "C56_final_error_refuted",
    "C56_fit_size_mismatch",
    "C56_fit"
   ],
   "note": "REFUTED in part. The function returns the tolerance it was given instead of the final error (C56_returns_tol_refuted, C56_final_error_refuted), and B is singular when the samples do not span the rows (C56_singular_B_refuted; C56_B_iff gives the exact condition). True: at most iter_max iterations, the stopping rule exactly (C56_result, C56_complete), A always positive definite, B positive semidefinite; success with positive definite factors on nonzero samples spanning rows and columns; ValueError on a zero sample; sizes that do not match give None and make fit raise without changing A_, B_, covariance_; fit stores kron(A,B)."
  },
  {
   "property": "C57",
   "status": "partial",
   "theorems": [
    "C57_quadratic_form",
    "C57_symmetric_partial",
    "C57_reported_worse_than_identity_refuted"
   ],
   "note": "REFUTED: the quadratic form is that of kron(A.T,B) (C57_quadratic_form); on complex data the covariance reported, kron(A,B), can be worse for Tyler's cost than the identity while kron(A.T,B) is better (C57_reported_worse_than_identity_refuted). True when A is symmetric, e.g. for real data."
  },
  {
   "property": "C58",
   "status": "partial",
   "theorems": [
    "C58_cost",
    "C58_real_data_partial",
    "C58_complex_data_refuted",
    "C58_location_refuted",
    "C58_degrees_of_freedom_refuted"
   ],
   "note": "REFUTED: on complex data (transpose without conjugate in Q_i: C58_complex_data_refuted), when a location is given (it is ignored: C58_location_refuted) and for real centred data (the cost of a complex Student distribution with df degrees of freedom needs df/2: C58_degrees_of_freedom_refuted, opposite signs). True: for real data without location the function returns 1/n times the gradient, at (A, B), of the supplied cost with 2*df degrees of freedom at kron(A.T, B) (C58_real_data_partial)."
  },
  {
   "property": "C59",
   "status": "proved",
   "theorems": [
    "C59_vec_stacks_columns",
    "C59_unvec_vec",
    "C59_vec_unvec",
    "C59_not_square_rejected",
    "C59_kronecker"
   ],
   "note": ""
  },
  {
   "property": "C60",
   "status": "partial",
   "theorems": [
    "C60_real_matrix_partial",
    "C60_hermitian_gives_transpose",
    "C60_real_vector_partial",
    "C60_complex_vector_conjugated",
    "C60_bad_length",
    "C60_integers_rejected",
    "C60_refuted"
   ],
   "note": "REFUTED for complex Hermitian matrices: unvech(vech(M)) is the transpose (= conjugate) of M (witness [[0,i],[-i,0]]), and vech(unvech(v)) is the conjugate of v; integer arrays raise TypeError. Proved for float arrays of every size and for rejected lengths."
  },
  {
   "property": "C61",
   "status": "proved",
   "theorems": [
    "C61_eigensolver_exists",
    "C61_acts_on_eigenvectors",
    "C61_eigensolver_irrelevant",
    "C61_square_roots",
    "C61_exp_log",
    "C61_powers"
   ],
   "note": "eigh is an oracle constrained by eigh_ok (unitary eigenvectors of a Hermitian matrix); such an oracle is proved to exist. Exact arithmetic."
  },
  {
   "property": "C62",
   "status": "partial",
   "theorems": [
    "C62_toeplitz_partial",
    "C62_toeplitz_determinant",
    "C62_toeplitz_refuted"
   ],
   "note": "REFUTED for |rho| > 1: the matrix is not positive semidefinite (witness rho = 2, p = 2). Proved for |rho| < 1, with the determinant formula for every rho."
  },
  {
   "property": "C63",
   "status": "proved",
   "theorems": [
    "C63_state_restored",
    "C63_outcome_depends_on_seed_only",
    "C63_rest_of_program_unaffected"
   ],
   "note": ""
  },
  {
   "property": "C64",
   "status": "partial",
   "theorems": [
    "C64_generate_covariance_partial",
    "C64_generate_covariance_unit_det_partial",
    "C64_generate_covariance_zero_draw",
    "C64_generate_covariance_nonsingular_refuted",
    "C64_generate_complex_covariance",
    "C64_generate_complex_covariance_unit_det",
    "C64_wrong_dtype",
    "C64_normal_samples",
    "C64_compound_samples",
    "C64_tau_UUH_samples",
    "C64_complex_standard",
    "C64_complex_compound_samples",
    "C64_complex_tau_UUH_samples"
   ],
   "note": "REFUTED in part: random.rand draws from [0,1), so generate_covariance can return a singular matrix, and an array of nan/inf with unit_det (C64_generate_covariance_nonsingular_refuted); proved when no draw is 0, and the complex generator always. Samplers: for every law of the draws (any linear expectation), white draws give centred, uncorrelated samples of covariance tau_j * cov (tau_j U U^H + I)."
  },
  {
   "property": "C65",
   "status": "proved",
   "theorems": [
    "C65_check_positive",
    "C65_check_type",
    "C65_check_value"
   ],
   "note": "check_positive is proved for Python integers (its only use)."
  },
  {
   "property": "C66",
   "status": "partial",
   "theorems": [
    "C66_numpy_integer_index_refuted"
   ],
   "note": "REFUTED: fa[np.int64(1)] is treated as a key on the array and returns 2 items (witness)."
  },
  {
   "property": "C67",
   "status": "partial",
   "theorems": [
    "C67_item_shape_refuted"
   ],
   "note": "REFUTED: items of shape (1,) are accepted and broadcast into a component of shape (2,), and the shape of a first append is not checked (witness)."
  },
  {
   "property": "C68",
   "status": "proved",
   "theorems": [
    "C68_entropy",
    "C68_frozen_entropy"
   ],
   "note": ""
  },
  {
   "property": "C69",
   "status": "proved",
   "theorems": [
    "C69_hpd_randvec",
    "C69_shpd_randvec",
    "C69_spv_randvec"
   ],
   "note": ""
  },
  {
   "property": "C70",
   "status": "proved",
   "theorems": [
    "C70_geodesic",
    "C70_hessian",
    "C70_spv_geodesic",
    "C70_spv_hessian"
   ],
   "note": ""
  },
  {
   "property": "C71",
   "status": "partial",
   "theorems": [
    "C71_tyler_score_always_raises_refuted",
    "C71_other_models"
   ],
   "note": "REFUTED: location_ is never set, so the real version raises AttributeError (or ValueError) and the complex one TypeError, for every history. Also proved: any other model name raises NotImplementedError."
  },
  {
   "property": "C72",
   "status": "proved",
   "theorems": [
    "C72_descent",
    "C72_run"
   ],
   "note": ""
  },
  {
   "property": "C73",
   "status": "partial",
   "theorems": [
    "C73_score_ignores_covariance_refuted",
    "C73_score_value_refuted",
    "C73_score_unfitted",
    "C73_wrong_sign_refuted",
    "C73_mm_score_is_zero_refuted",
    "C73_mm_score_returns_zero_refuted"
   ],
   "note": "REFUTED: KroneckerStudent.score does not depend on covariance_; it returns the opposite of the log-likelihood, for factors estimated again on the test data (C73_score_value_refuted gives the value; C73_wrong_sign_refuted a data set). KroneckerEllipticalMM.score returns 0."
  },
  {
   "property": "C74",
   "status": "proved",
   "theorems": [
    "C74_fit"
   ],
   "note": ""
  },
  {
   "property": "C75",
   "status": "proved",
   "theorems": [
    "C75_stiefel_orthonormal",
    "C75_stiefel_total",
    "C75_size_one_raises"
   ],
   "note": "Draws are arguments; the p <= 1 ValueError is that of the pinned scipy 1.7.3."
  },
  {
   "property": "C76",
   "status": "partial",
   "theorems": [
    "C76_gamma_textures",
    "C76_lognormal_textures_partial",
    "C76_lognormal_variance_refuted"
   ],
   "note": "REFUTED for the log-normal variance (it is exp(variance) - 1, C76_lognormal_variance_refuted); gamma textures and both means proved. The moments of the Gamma and log-normal laws are the textbook formulas, taken as definitions."
  },
  {
   "property": "C77",
   "status": "proved",
   "theorems": [
    "C77_solution_iff_minimiser",
    "C77_unique_iff_irreducible",
    "C77_same_estimate"
   ],
   "note": "Assumes a correct eigensolver (oracle) and exact arithmetic; a run with error exactly 0 is the limit case, C79 covers tol > 0."
  },
  {
   "property": "C78",
   "status": "proved",
   "theorems": [
    "C78_unique",
    "C78_same_estimate",
    "C78_linear_convergence",
    "C78_rate"
   ],
   "note": "The existence of the solution is a hypothesis of the convergence statement."
  },
  {
   "property": "C79",
   "status": "proved",
   "theorems": [
    "C79_tyler_stops",
    "C79_student_stops",
    "C79_large_enough"
   ],
   "note": "The existence of a solution is a hypothesis; exact arithmetic."
  },
  {
   "property": "C80",
   "status": "proved",
   "theorems": [
    "C80_multihconj",
    "C80_projection",
    "C80_nearest",
    "C80_quadratic_form"
   ],
   "note": ""
  },
  {
   "property": "C81",
   "status": "proved",
   "theorems": [
    "C81_reports"
   ],
   "note": ""
  },
  {
   "property": "C82",
   "status": "partial",
   "theorems": [
    "C82_complex",
    "C82_real_bias",
    "C82_real_refuted",
    "C82_weights"
   ],
   "note": "REFUTED for real data, for every p and q (C82_real_refuted): the threshold is half the quantile and beta uses p+1 instead of p+2 degrees of freedom, so that the expectation is less than p (C82_real_bias). The complex constants are proved right (C82_complex). scipy's chi2 functions are oracles assumed to be those of the law, written in polar coordinates; about the weight function, C37 shows that the update applies its inverse."
  },
  {
   "property": "C83",
   "status": "partial",
   "theorems": [
    "C83_real_solution",
    "C83_real_agree",
    "C83_complex_partial",
    "C83_complex_closed_partial",
    "C83_complex_refuted",
    "C83_solver_exists"
   ],
   "note": "REFUTED for complex data: the function stacks real and imaginary parts, solves the real problem of size 2p and keeps half of its solution; for eight explicit samples of dimension 2, whatever the exact optimiser, the result is not a solution of the complex equation (C83_complex_refuted). Proved for real data, and for complex data when the real solution has the block structure of a circular covariance, e.g. samples closed under multiplication by i."
  },
  {
   "property": "C84",
   "status": "proved",
   "theorems": [
    "C84_tyler_converges",
    "C84_tyler_accuracy",
    "C84_student_accuracy"
   ],
   "note": "Exact reals; eigh is any function returning an eigendecomposition. Existence of a solution is a hypothesis of these theorems."
  },
  {
   "property": "C85",
   "status": "proved",
   "theorems": [
    "C85_exists_iff",
    "C85_computed",
    "C85_general_position",
    "C85_too_few"
   ],
   "note": "Exact reals; eigh is any function returning an eigendecomposition. Proved by compactness of bounded sets of matrices."
  },
  {
   "property": "C86",
   "status": "proved",
   "theorems": [
    "C86_exists_iff",
    "C86_computed",
    "C86_general_position",
    "C86_weaker"
   ],
   "note": "Exact reals; eigh is any function returning an eigendecomposition."
  },
  {
   "property": "C87",
   "status": "proved",
   "theorems": [
    "C87_triangle",
    "C87_geodesic",
    "C87_dist_exp",
    "C87_shortest",
    "C87_geodesic_length",
    "C87_special_triangle",
    "C87_special_dist_exp",
    "C87_product_triangle"
   ],
   "note": ""
  },
  {
   "property": "C88",
   "status": "partial",
   "theorems": [
    "C88_solution",
    "C88_converges_partial",
    "C88_bounds",
    "C88_refuted",
    "C88_thresholds"
   ],
   "note": "REFUTED: existence, uniqueness and minimality of the solution hold (C88_solution), convergence does not. For samples of norm 1 that weigh every direction equally (an orthonormal basis) and lambda beta < p, which happens for some level q in every dimension (C88_thresholds), the functions started from c I alternate for ever between two matrices and return one or the other according to the parity of iter_max (C88_refuted). True part: when the samples whose distance to the solution is below lambda span the space, the iterates converge at a linear rate and the functions return the solution to any accuracy (C88_converges_partial). C88_bounds: bounds by multiples of the sample covariance matrix after two iterations, and equality with beta times it when N <= lambda beta."
  },
  {
   "property": "C89",
   "status": "proved",
   "theorems": [
    "C89_fixed_point"
   ],
   "note": ""
  },
  {
   "property": "C90",
   "status": "proved",
   "theorems": [
    "C90_exists_unique_iff",
    "C90_tyler_stable",
    "C90_two_by_two"
   ],
   "note": ""
  },
  {
   "property": "C91",
   "status": "proved",
   "theorems": [
    "C91_converges"
   ],
   "note": ""
  },
  {
   "property": "C92",
   "status": "proved",
   "theorems": [
    "C92_samples",
    "C92_no_sample",
    "C92_vector",
    "C92_frozen"
   ],
   "note": ""
  },
  {
   "property": "C93",
   "status": "partial",
   "theorems": [
    "C93_aligned_partial",
    "C93_same_length_partial",
    "C93_empty",
    "C93_alignment_refuted",
    "C93_left_refuted",
    "C93_width_refuted",
    "C93_sign_refuted"
   ],
   "note": "REFUTED for formats that start with an alignment, a sign or a width, because the width is written in front of the format: '>8g' prints 88888881 for 1, '<g' does not align, '8g' makes columns of 88 characters, '+g' raises ValueError (witnesses); a matrix without rows raises ValueError. Proved for every format [,|_][.digits][letter or %], in particular the default."
  },
  {
   "property": "C94",
   "status": "proved",
   "theorems": [
    "C94_display"
   ],
   "note": ""
  },
  {
   "property": "C95",
   "status": "partial",
   "theorems": [
    "C95_history_partial",
    "C95_vector_refuted",
    "C95_no_fit"
   ],
   "note": "REFUTED: a vector of scales (one dimension) is always refused by check_array; only a column can be stored. The histories are proved; fit and fit_transform always raise NotImplementedError."
  },
  {
   "property": "C96",
   "status": "partial",
   "theorems": [
    "C96_stationary_partial",
    "C96_stationary_refuted"
   ],
   "note": "REFUTED: with the degrees of freedom of the estimator (samples 2 and 1/2, df = 1: the gradient vanishes at A = B = 1, which is the estimate for 2 degrees of freedom and not for 1: C96_stationary_refuted); on complex data and with a location the gradient is not the one of the cost (C58). True: for real centred data, the gradient on the manifold vanishes at (A, B) if and only if kron(A.T, B) minimises the cost function over all pairs of positive definite matrices, with 2*df degrees of freedom (C96_stationary_partial): every stationary point is a global optimum."
  },
  {
   "property": "C97",
   "status": "proved",
   "theorems": [
    "C97_breakdown_iff",
    "C97_general_position"
   ],
   "note": ""
  },
  {
   "property": "C98",
   "status": "partial",
   "theorems": [
    "C98_given_start_partial",
    "C98_default_start_refuted"
   ],
   "note": "REFUTED: the default init is the sample covariance matrix; with it one sample makes the condition number of the result as large as wanted for any iter_max (C98_default_start_refuted). Proved when init is given (C98_given_start_partial)."
  },
  {
   "property": "C99",
   "status": "proved",
   "theorems": [
    "C99_breakdown_iff",
    "C99_general_position"
   ],
   "note": ""
  },
  {
   "property": "C100",
   "status": "partial",
   "theorems": [
    "C100_given_start_partial",
    "C100_default_start_refuted"
   ],
   "note": "REFUTED: with the default init=None, which starts from the sample covariance matrix of the data, one sample makes the largest eigenvalue of the result as large as wanted for any iter_max (C100_default_start_refuted); with a given positive definite starting matrix the property holds (C100_given_start_partial)"
  },
  {
   "property": "C101",
   "status": "proved",
   "theorems": [
    "C101_distance_to_estimate",
    "C101_bound_small"
   ],
   "note": "a posteriori bound; also that it vanishes with the returned error"
  },
  {
   "property": "C102",
   "status": "proved",
   "theorems": [
    "C102_continuous",
    "C102_results"
   ],
   "note": "existence, uniqueness and continuity near any data set that has an estimate; results uniformly in the perturbation"
  },
  {
   "property": "C103",
   "status": "proved",
   "theorems": [
    "C103_gradient",
    "C103_complex_gradient",
    "C103_natural_gradient",
    "C103_stationary",
    "C103_descent",
    "C103_result",
    "C103_agree",
    "C103_oracles_exist"
   ],
   "note": ""
  },
  {
   "property": "C104",
   "status": "proved",
   "theorems": [
    "C104_tyler_real",
    "C104_tyler_complex",
    "C104_chord",
    "C104_special",
    "C104_student_real",
    "C104_student_complex",
    "C104_kronecker",
    "C104_kronecker_tyler",
    "C104_kronecker_student",
    "C104_local_global",
    "C104_kronecker_local_global"
   ],
   "note": ""
  },
  {
   "property": "C105",
   "status": "proved",
   "theorems": [
    "C105_continuous",
    "C105_results"
   ],
   "note": ""
  },
  {
   "property": "C106",
   "status": "proved",
   "theorems": [
    "C106_parallel",
    "C106_unique",
    "C106_velocity",
    "C106_log",
    "C106_back",
    "C106_special",
    "C106_vectors",
    "C106_vectors_unique",
    "C106_vectors_log"
   ],
   "note": ""
  },
  {
   "property": "C107",
   "status": "proved",
   "theorems": [
    "C107_hermitian",
    "C107_special",
    "C107_vectors"
   ],
   "note": ""
  },
  {
   "property": "C108",
   "status": "proved",
   "theorems": [
    "C108_linear",
    "C108_error",
    "C108_iterations",
    "C108_accuracy"
   ],
   "note": ""
  },
  {
   "property": "C109",
   "status": "proved",
   "theorems": [
    "C109_tyler_lipschitz",
    "C109_tyler_results",
    "C109_student_lipschitz",
    "C109_student_results"
   ],
   "note": ""
  },
  {
   "property": "C110",
   "status": "proved",
   "theorems": [
    "C110_unvec_size",
    "C110_unvec_accepts",
    "C110_unvech_rows",
    "C110_unvech_accepts",
    "C110_hermitian",
    "C110_hermitian_id",
    "C110_symmetric",
    "C110_overflow",
    "C110_unvech"
   ],
   "note": ""
  },
  {
   "property": "C111",
   "status": "partial",
   "theorems": [
    "C111_finite_partial",
    "C111_infinite_refuted",
    "C111_infinite_real_partial"
   ],
   "note": "REFUTED: 1j*a multiplies 0 by the entries of a, so that an infinite imaginary part turns the finite real part of the entry into nan (C111_infinite_refuted); finite entries are kept exactly (C111_finite_partial), an infinite real part too (C111_infinite_real_partial)"
  },
  {
   "property": "C112",
   "status": "partial",
   "theorems": [
    "C112_real_element",
    "C112_complex_element_refuted",
    "C112_hermitian_partial",
    "C112_complex_element_partial"
   ],
   "note": "REFUTED for the complex function: NumPy divides complex numbers by multiplying by a reciprocal, 49 becomes 1 - 2^-53 (C112_complex_element_refuted); it is within 2^-52 of one (C112_complex_element_partial), exactly one for the real function (C112_real_element), and Hermitian matrices stay exactly Hermitian (C112_hermitian_partial)"
  },
  {
   "property": "C113",
   "status": "partial",
   "theorems": [
    "C113_repr",
    "C113_items_shown_first",
    "C113_first_append_partial",
    "C113_str_refuted"
   ],
   "note": "REFUTED: str shows the whole preallocated arrays, 1003 rows for four items after two appends, and None for an empty feature array (C113_str_refuted); after a first append exactly the items are shown (C113_first_append_partial), and in any history the items come first (C113_items_shown_first)"
  },
  {
   "property": "C114",
   "status": "proved",
   "theorems": [
    "C114_order_and_norms",
    "C114_rotations",
    "C114_covariance",
    "C114_stored",
    "C114_limits"
   ],
   "note": ""
  },
  {
   "property": "C115",
   "status": "proved",
   "theorems": [
    "C115_symmetries",
    "C115_tyler_directions",
    "C115_diagonal",
    "C115_shape",
    "C115_solutions",
    "C115_any_start"
   ],
   "note": ""
  },
  {
   "property": "C116",
   "status": "partial",
   "theorems": [
    "C116_gradient",
    "C116_update_ascends_refuted",
    "C116_any_cost_refuted",
    "C116_opposite_partial",
    "C116_witness_refuted",
    "C116_hypotheses",
    "C116_any_cost_ex"
   ],
   "note": "REFUTED: update adds t*nabla instead of subtracting it, so that with the gradient of the Gaussian cost of the sample (C116_gradient) every update with a step below 2/(q-1) increases that cost (C116_update_ascends_refuted, witness C116_witness_refuted), and so do small steps for any cost (C116_any_cost_refuted); when rgrad returns the opposite of the gradient the cost decreases (C116_opposite_partial)"
  },
  {
   "property": "C117",
   "status": "partial",
   "theorems": [
    "C117_blocks",
    "C117_causal",
    "C117_one_by_one_partial",
    "C117_update_schedule",
    "C117_one_by_one_refuted",
    "C117_stack_exists",
    "C117_blocks_ex"
   ],
   "note": "REFUTED one by one: update does not advance the counter, so that with the default schedule calls of update on the samples give another estimate than fit (C117_one_by_one_refuted, C117_update_schedule); with a constant step they give the same (C117_one_by_one_partial); blocks are as stated, with the same whole state (C117_blocks)"
  },
  {
   "property": "C118",
   "status": "proved",
   "theorems": [
    "C118_histories",
    "C118_linear",
    "C118_elliptical",
    "C118_conjugate",
    "C118_real",
    "C118_ex"
   ],
   "note": ""
  },
  {
   "property": "C119",
   "status": "proved",
   "theorems": [
    "C119_many",
    "C119_many_results",
    "C119_few",
    "C119_few_results"
   ],
   "note": ""
  },
  {
   "property": "C120",
   "status": "proved",
   "theorems": [
    "C120_congruence",
    "C120_congruence_derivatives",
    "C120_inversion",
    "C120_inversion_derivatives",
    "C120_conjugation",
    "C120_conjugation_inner",
    "C120_homogeneous",
    "C120_symmetry",
    "C120_special_congruence",
    "C120_special_inversion",
    "C120_retr_inversion"
   ],
   "note": ""
  },
  {
   "property": "C121",
   "status": "proved",
   "theorems": [
    "C121_distances",
    "C121_student",
    "C121_student_results",
    "C121_tyler",
    "C121_tyler_results"
   ],
   "note": ""
  },
  {
   "property": "C122",
   "status": "partial",
   "theorems": [
    "C122_refuted",
    "C122_partial"
   ],
   "note": "REFUTED for every data set, sample, level, starting point, tolerance and number of iterations: multiplying one sample by a large number makes the largest eigenvalue of the result as large as wanted (C122_refuted), since the code divides by the weights (C37). True part: the smallest eigenvalue stays above a positive bound when m samples take any values and the others span the space, and after two updates the largest is at most max(beta, N/lambda) times the largest squared norm of the samples, as for the sample covariance matrix (C122_partial)."
  },
  {
   "property": "C123",
   "status": "proved",
   "theorems": [
    "C123_continuous",
    "C123_results"
   ],
   "note": "C123_continuous for the solution of the equation, C123_results for the results of the functions. The condition of the second part on the samples below lambda cannot be dropped: without it the functions may alternate between two matrices (C88_refuted)."
  },
  {
   "property": "C124",
   "status": "proved",
   "theorems": [
    "C124_student",
    "C124_student_results",
    "C124_tyler",
    "C124_tyler_results"
   ],
   "note": "The linearised equation is student_change / tyler_change of Spec_deriv. C124_student and C124_tyler for the solutions, C124_student_results and C124_tyler_results for the results of the functions."
  },
  {
   "property": "C125",
   "status": "proved",
   "theorems": [
    "C125_fixed_points",
    "C125_empirical",
    "C125_kronecker",
    "C125_costs",
    "C125_same_frequencies"
   ],
   "note": "C125_fixed_points, C125_empirical, C125_kronecker for the results, C125_costs for the costs; C125_same_frequencies: which data sets have the same distribution. The Huber, Student and Tyler functions are taken with valid parameters. Exact numbers: rounding depends on the order of the sums."
  },
  {
   "property": "C126",
   "status": "proved",
   "theorems": [
    "C126_continuous"
   ],
   "note": "C126_continuous. The radius of the ball is not explicit (compactness). Exact numbers."
  },
  {
   "property": "C127",
   "status": "proved",
   "theorems": [
    "C127_continuous"
   ],
   "note": "C127_continuous. Exact numbers; scipy's sqrtm is assumed exact on positive semidefinite matrices. The radius and the numbers of iterations are not explicit (compactness)."
  },
  {
   "property": "C128",
   "status": "proved",
   "theorems": [
    "C128_compare",
    "C128_row",
    "C128_column"
   ],
   "note": "C128_compare, C128_row, C128_column. Exact numbers; scipy's sqrtm is assumed exact on positive semidefinite matrices. The transpose for b = 1 is the defect of C57."
  },
  {
   "property": "C129",
   "status": "proved",
   "theorems": [
    "C129_explicit",
    "C129_continuous",
    "C129_results"
   ],
   "note": "C129_explicit, C129_continuous, C129_results. Completes C119, which treats df near 0 and large df. Exact numbers."
  },
  {
   "property": "C130",
   "status": "proved",
   "theorems": [
    "C130_symmetries",
    "C130_diagonal",
    "C130_scalar",
    "C130_shape"
   ],
   "note": "C130_symmetries, C130_diagonal, C130_scalar, C130_shape. Exact numbers; scipy's sqrtm is assumed exact on positive semidefinite matrices. The transpose in the limit of A is the defect of C57."
  },
  {
   "property": "C131",
   "status": "proved",
   "theorems": [
    "C131_continuous",
    "C131_q",
    "C131_results"
   ],
   "note": "C131_continuous, C131_q, C131_results. Exact numbers; scipy.stats.chi2 is assumed to return the probabilities and quantiles of the distribution (chi2_ok). The equation is the one the code iterates, whose weight differs from Huber's above the threshold (defect of C37)."
  },
  {
   "property": "C132",
   "status": "proved",
   "theorems": [
    "C132_constants",
    "C132_covariance"
   ],
   "note": "C132_constants, C132_covariance. Exact numbers; scipy.stats.chi2 is assumed to return the probabilities and quantiles of the distribution (chi2_ok)."
  },
  {
   "property": "C133",
   "status": "partial",
   "theorems": [
    "C133_at_most_one_partial",
    "C133_refuted",
    "C133_results_partial"
   ],
   "note": "REFUTED for the real function, which takes the distribution function with p+1 degrees of freedom instead of p+2 (the defect of C82): in every dimension beta exceeds 1 for all q near 1, and the matrix returned for any N samples is then strictly larger than the sample covariance matrix (C133_refuted). True part: the complex function, for all q and all dimensions (C133_at_most_one_partial, C133_results_partial). Exact numbers; scipy.stats.chi2 is assumed to return the probabilities and quantiles of the distribution (chi2_ok)."
  }
 ]
}