{
 "claims": [
  {
   "property": "C01",
   "status": "proved",
   "theorems": [
    "C01_default_x_names",
    "C01_user_x_names",
    "C01_yend_names",
    "C01_q_names"
   ],
   "note": "names generated / passed through; user lists are not validated by spreg, so the length claim is an equivalence"
  },
  {
   "property": "C02",
   "status": "partial",
   "theorems": [
    "C02_slx_names",
    "C02_slx_accepts",
    "C02_slx_q_names_partial",
    "C02_q_names_refuted"
   ],
   "note": "regressor names proved truthful for every mask and order; instrument names only when nothing is masked out; the masked case is refuted (flex_wx concatenates the instrument groups in opposite orders)"
  },
  {
   "property": "C03",
   "status": "proved",
   "theorems": [
    "C03_total",
    "C03_labels",
    "C03_prefix_needed"
   ],
   "note": "total for all names; labels for distinct names that do not start with W_"
  },
  {
   "property": "C20",
   "status": "proved",
   "theorems": [
    "C20_get_lags",
    "C20_get_lags_split",
    "C20_get_lags_split_rejects",
    "C20_zero_lags_gives_one"
   ],
   "note": "for every lag operator on columns"
  },
  {
   "property": "C21",
   "status": "partial",
   "theorems": [
    "C21_set_endog_dense",
    "C21_sparse_agrees_partial",
    "C21_sparse_repeats_refuted"
   ],
   "note": "same set of columns for every order and the same list for w_lags <= 2; from 3 lags on the sparse builder repeats columns (refuted)"
  },
  {
   "property": "C56",
   "status": "partial",
   "theorems": [
    "C56_gm_lag_names_partial",
    "C56_gm_lag_slx_names_partial",
    "C56_yend_slx_refuted",
    "C56_mask_two_lags_raises_refuted",
    "C56_mask_refuted"
   ],
   "note": "truthful without SLX terms and for one SLX order on all regressors; refuted with yend+SLX, with masks"
  },
  {
   "property": "C04",
   "status": "proved",
   "theorems": [
    "C04_check_arrays",
    "C04_check_arrays_order"
   ],
   "note": "exact accept condition; pandas/csr conversion abstracted to (shape, finite)"
  },
  {
   "property": "C05",
   "status": "proved",
   "theorems": [
    "C05_check_constant"
   ],
   "note": "entries are exact integers; aliasing modelled with a heap of list objects"
  },
  {
   "property": "C06",
   "status": "partial",
   "theorems": [
    "C06_check_robust",
    "C06_spat_diag_partial",
    "C06_spat_diag_case_refuted"
   ],
   "note": "check_robust fully characterised; check_spat_diag proved for the lower-case spelling only: \"HAC\" keeps the diagnostics on (refuted)"
  },
  {
   "property": "C57",
   "status": "proved",
   "theorems": [
    "C57_check_y",
    "C57_check_weights",
    "C57_check_regimes",
    "C57_check_regi_args"
   ],
   "note": "exact accept conditions"
  },
  {
   "property": "C07",
   "status": "proved",
   "theorems": [
    "C07_design",
    "C07_fitted_value"
   ],
   "note": "whole design built by Regimes_Frame: cells and fitted values, any ring"
  },
  {
   "property": "C08",
   "status": "proved",
   "theorems": [
    "C08_names"
   ],
   "note": "names and regime tags are the labels of the design's columns"
  },
  {
   "property": "C09",
   "status": "partial",
   "theorems": [
    "C09_chow_one_partial",
    "C09_chow_joint_partial",
    "C09_chow_exogenous",
    "C09_chow_refuted",
    "C09_chow_drops_extra"
   ],
   "note": "proved whenever no exogenous variable is global or no endogenous one varies (all OLS/ML models); refuted for a global constant with regime-varying endogenous variables (C09_chow_refuted)"
  },
  {
   "property": "C11",
   "status": "proved",
   "theorems": [
    "C11_check_cols2regi",
    "C11_no_constant_error"
   ],
   "note": "exact characterisation of the accepted options; constant_regi=False with add_cons is an UnboundLocalError"
  },
  {
   "property": "C55",
   "status": "partial",
   "theorems": [
    "C55_regimes_set",
    "C55_regimes_set_float_partial",
    "C55_regimes_set_float_refuted"
   ],
   "note": "proved for non-float identifiers and for integral or colliding floats; refuted for e.g. [1.5, 2.5]"
  },
  {
   "property": "C10",
   "status": "proved",
   "theorems": [
    "C10_wald_zero_and_sign",
    "C10_wald_zero_any_vm",
    "C10_wald_invariant"
   ],
   "note": "any real field; wald_test's p-value (scipy) not modelled"
  },
  {
   "property": "C14",
   "status": "proved",
   "theorems": [
    "C14_ols_fails_iff_dependent",
    "C14_ols_normal_equations",
    "C14_ols_least_squares"
   ],
   "note": "exact arithmetic; failure of the inverse iff the regressors are dependent"
  },
  {
   "property": "C15",
   "status": "proved",
   "theorems": [
    "C15_ols_recombination",
    "C15_ols_shift",
    "C15_ols_vm"
   ],
   "note": "exact arithmetic"
  },
  {
   "property": "C16",
   "status": "proved",
   "theorems": [
    "C16_regimes_equal_separate_ols",
    "C16_design_entries"
   ],
   "note": "any number of regimes and any assignment"
  },
  {
   "property": "C17",
   "status": "partial",
   "theorems": [
    "C17_wls_normal_equations",
    "C17_wls_unique",
    "C17_weighted_regimes_partial",
    "C17_equal_variances_is_ols",
    "C17_negative_variance_refuted"
   ],
   "note": "weighted normal equations, uniqueness, equal-variance case proved for WLS and the group-wise estimator when the estimated variances are positive; with sig2n_k they can be negative (refuted)"
  },
  {
   "property": "C18",
   "status": "partial",
   "theorems": [
    "C18_white_psd",
    "C18_white_entries",
    "C18_hac_symmetric",
    "C18_hac_identity_is_white",
    "C18_ols_vm_white_partial",
    "C18_white_with_gwk_refuted"
   ],
   "note": "symmetry, PSD, identity kernel proved; robust='white' with gwk returns HAC (refuted)"
  },
  {
   "property": "C19",
   "status": "partial",
   "theorems": [
    "C19_tsls_moments",
    "C19_tsls_just_identified",
    "C19_tsls_self_instrument_is_ols",
    "C19_tsls_both_or_neither_partial",
    "C19_tsls_sparse_both_refuted"
   ],
   "note": "moment conditions, just-identified IV, self-instrumented = OLS, argument check for numpy arrays proved; sparse q and h may be passed together (refuted)"
  },
  {
   "property": "C33",
   "status": "proved",
   "theorems": [
    "C33_fit_measures",
    "C33_f_stat_last_nonneg"
   ],
   "note": "constant in the column space of x; y not constant; exact arithmetic"
  },
  {
   "property": "C34",
   "status": "partial",
   "theorems": [
    "C34_akaike",
    "C34_schwarz",
    "C34_likelihood_decreasing",
    "C34_likratio",
    "C34_likratio_symmetric_partial",
    "C34_likratio_df_refuted"
   ],
   "note": "criteria and likelihood ratio proved over the reals; degrees of freedom are not symmetric (refuted)"
  },
  {
   "property": "C12",
   "status": "proved",
   "theorems": [
    "C12_total",
    "C12_regime_weights",
    "C12_union",
    "C12_union_single",
    "C12_w_regimes",
    "C12_row_sums",
    "C12_original_weights_refuted"
   ],
   "note": "every cell of the regime weights and of their union, warning, row sums; libpysal's w_subset/w_union are modelled from their documentation, transforms V and D not modelled; the expectation that original weight values survive is refuted"
  },
  {
   "property": "C13",
   "status": "proved",
   "theorems": [
    "C13_betas",
    "C13_vm",
    "C13_residuals",
    "C13_fit_identity",
    "C13_names",
    "C13_name_y_refuted",
    "C13_constant_columns",
    "C13_duplicate_names_refuted"
   ],
   "note": "the assembly loop of all _*_regimes_multi methods with an arbitrary per-regime estimator, and check_const_regi; name_y and duplicate-name expectations refuted; the multiprocessing pool is modelled as a map"
  },
  {
   "property": "C22",
   "status": "proved",
   "theorems": [
    "C22_truncated_inverse",
    "C22_raises_iff",
    "C22_accuracy",
    "C22_truncated_inverse_post",
    "C22_true_inverse",
    "C22_contraction_refuted"
   ],
   "note": "residual, bound on passes, exit condition; convergent series whose first increment exceeds the initial test 10^7 raise (refuted expectation C22_contraction_refuted)"
  },
  {
   "property": "C23",
   "status": "proved",
   "theorems": [
    "C23_reduced_form",
    "C23_out_of_bounds",
    "C23_sum_refuted",
    "C23_sum"
   ],
   "note": "up to the truncation of the power expansion; outside the bounds prediction and error are both zero"
  },
  {
   "property": "C24",
   "status": "proved",
   "theorems": [
    "C24_filter",
    "C24_linear",
    "C24_panel"
   ],
   "note": "cross-section and stacked panel filter"
  },
  {
   "property": "C25",
   "status": "partial",
   "theorems": [
    "C25_filter_commutes_iff",
    "C25_e_filtered_partial",
    "C25_x_lag_iff",
    "C25_refuted"
   ],
   "note": "holds for all data exactly when no link crosses regimes (or lambda = 0); refuted otherwise"
  },
  {
   "property": "C26",
   "status": "proved",
   "theorems": [
    "C26_gm_moments",
    "C26_zero_iff"
   ],
   "note": "all W, u, lambda, sigma2"
  },
  {
   "property": "C27",
   "status": "proved",
   "theorems": [
    "C27_two_moments",
    "C27_A1_het",
    "C27_A1_hom"
   ],
   "note": "get_A1_het, get_A1_hom, get_A2_hom and _moments2eqs"
  },
  {
   "property": "C58",
   "status": "proved",
   "theorems": [
    "C58_objective",
    "C58_weighted_objective",
    "C58_same_minimisers",
    "C58_scale_gm"
   ],
   "note": "optimiser abstract; the Cholesky factor is an argument with L L' = inv(vcX)"
  },
  {
   "property": "C59",
   "status": "proved",
   "theorems": [
    "C59_gm_error",
    "C59_defined"
   ],
   "note": "the optimiser is an arbitrary function of the moments"
  },
  {
   "property": "C29",
   "status": "proved",
   "theorems": [
    "C29_lag_fit",
    "C29_lag_loglik",
    "C29_lag_global",
    "C29_lag_concentrated_defined",
    "C29_err_fit",
    "C29_err_loglik",
    "C29_err_global"
   ],
   "note": "minimiser abstract; the statement about the whole range of rho is for row standardised W; the log-likelihood is also shown to be the Gaussian one"
  },
  {
   "property": "C30",
   "status": "partial",
   "theorems": [
    "C30_jacobian_positive",
    "C30_full_lu",
    "C30_full_ord",
    "C30_full_ord_complex",
    "C30_ord_setup",
    "C30_ord_objective_partial",
    "C30_tr3",
    "C30_vm_refuted",
    "C30_vm1_refuted",
    "C30_unequal_weights_refuted",
    "C30_transform_refuted"
   ],
   "note": "the Jacobian terms agree for all W (full, LU, ord) and for symmetrised row standardised contiguity weights; refuted: covariance under ord with symmetric contiguity, unequal weights, transform of the caller's weights changed"
  },
  {
   "property": "C60",
   "status": "proved",
   "theorems": [
    "C60_err_info",
    "C60_lag_info",
    "C60_err_vm",
    "C60_lag_vm",
    "C60_err_defined",
    "C60_lag_defined"
   ],
   "note": "all W, x, residuals"
  },
  {
   "property": "C31",
   "status": "proved",
   "theorems": [
    "C31_sarma",
    "C31_durbin",
    "C31_durbin_defined"
   ],
   "note": "x of full rank, non-exact fit, W not antisymmetric, lag of the fit not in the span of x (otherwise the robust forms divide by zero)"
  },
  {
   "property": "C43",
   "status": "partial",
   "theorems": [
    "C43_decomposition_partial",
    "C43_trace",
    "C43_refuted"
   ],
   "note": "refuted as stated: LM-lag uses tr*tr where the robust tests use T*tr, so the identity holds only if u'Wy = 0 or tr(WW+W'W) = T; it holds for LM-lag computed with T*tr"
  },
  {
   "property": "C61",
   "status": "proved",
   "theorems": [
    "C61_moran_moments",
    "C61_ak"
   ],
   "note": "weights with zero diagonal, k < n"
  },
  {
   "property": "C62",
   "status": "partial",
   "theorems": [
    "C62_hausman_refuted"
   ],
   "note": "refuted: the code inverts V_RE - V_FE, so the statistic is minus the textbook one"
  },
  {
   "property": "C63",
   "status": "proved",
   "theorems": [
    "C63_comfac"
   ],
   "note": "vm positive definite"
  },
  {
   "property": "C51",
   "status": "partial",
   "theorems": [
    "C51_reads",
    "C51_stable",
    "C51_override",
    "C51_vm",
    "C51_clear",
    "C51_ols_partial",
    "C51_stale_refuted"
   ],
   "note": "reads, stability, override proved for all histories; refuted for OLS_Regimes with regime_err_sep (residuals replaced without emptying the cache)"
  },
  {
   "property": "C32",
   "status": "proved",
   "theorems": [
    "C32_pieces",
    "C32_tests"
   ],
   "note": "lm_wx/lm_spdurbin values from the fit; \"all\" stands for everything only when alone"
  },
  {
   "property": "C35",
   "status": "proved",
   "theorems": [
    "C35_label",
    "C35_model",
    "C35_ols",
    "C35_nan"
   ],
   "note": "The whole stge_classic tree for all rational p-values, thresholds and estimator outcomes (estimators and tests are oracles returning p-values or raising); a NaN LM p-value leaves the result unbound (C35_nan)."
  },
  {
   "property": "C36",
   "status": "proved",
   "theorems": [
    "C36_label",
    "C36_model",
    "C36_agree"
   ],
   "note": "The whole stge_kb tree with its tie conventions; the branch commented as never reached is reachable (C36_witness)."
  },
  {
   "property": "C37",
   "status": "partial",
   "theorems": [
    "C37_model",
    "C37_label_partial",
    "C37_refuted"
   ],
   "note": "The model is always the tree's; the label is right except when WX was kept, both robust tests reject with the lag p-value not larger, and the lag model or its AK test raises (line 700 uses models[1]): C37_refuted returns an SDM model labelled LAG."
  },
  {
   "property": "C38",
   "status": "proved",
   "theorems": [
    "C38_gns_total",
    "C38_gns",
    "C38_gns_agree",
    "C38_gns_sig",
    "C38_sdm_total",
    "C38_sdm",
    "C38_sdm_agree"
   ],
   "note": "The gets_gns and gets_sdm trees for all finite p-values, label/model agreement and significance of what is returned; gets_sdm spells SLX-Err. Premises: OLS and SLX estimation, outside a try, do not raise; AKtest does not raise."
  },
  {
   "property": "C39",
   "status": "partial",
   "theorems": [
    "C39_fit_partial",
    "C39_cuts",
    "C39_refines",
    "C39_greedy",
    "C39_no_raise_partial",
    "C39_labels_lost_refuted",
    "C39_lost_refuted",
    "C39_islands_refuted"
   ],
   "note": "For every forest, score oracle, quorum and number of clusters: labels, quorum, count and history of a successful fit (C39_fit_partial, C39_cuts, C39_refines), optimality of each cut and absence of exceptions from a connected start (C39_greedy, C39_no_raise_partial). False in the code: labels are None when no cut is possible (C39_labels_lost_refuted, C39_lost_refuted); with islands the scores of the passes are not comparable and fit raises (C39_islands_refuted). Premise: scipy's spanning forest has no cycle."
  },
  {
   "property": "C28",
   "status": "partial",
   "theorems": [
    "C28_error_het",
    "C28_endog_het_partial",
    "C28_endog_het_lag_bound_unreachable",
    "C28_endog_het_error_bound",
    "C28_endog_hom",
    "C28_no_pass_crashes",
    "C28_clamp_refuted"
   ],
   "note": "Het and hom estimators, any W, data, filters, GMM oracle and number of passes. True of the code: C28_error_het, C28_endog_het_partial, C28_endog_hom (coefficients are the OLS/2SLS ones of the filtered model, residuals add up, error bound detected). False: the endogenous het estimator overwrites the last coefficient, whatever variable it belongs to, when it leaves [-0.9, 0.9] (C28_clamp_refuted), so its lag bound check is dead code (C28_endog_het_lag_bound_unreachable). For vm see C87."
  },
  {
   "property": "C47",
   "status": "partial",
   "theorems": [
    "C47_gm_loop",
    "C47_gm_stops_at_first_small_move",
    "C47_gm_no_pass",
    "C47_message",
    "C47_nan_converges_refuted",
    "C47_default_always_maximum",
    "C47_newton",
    "C47_newton_warn_refuted",
    "C47_sur_partial",
    "C47_sur_limit_refuted",
    "C47_random_effects"
   ],
   "note": "The loops of the GMM het/hom estimators, probit Newton, iterated SUR and panel random effects, for every step function. Proved: bounds on the passes, reported count, stop criterion. False: iterated SUR makes maxiter+1 passes (C47_sur_limit_refuted), a NaN estimate counts as convergence (C47_nan_converges_refuted), converging in the last permitted pass is reported as not converged (C47_newton_warn_refuted, C47_default_always_maximum). The SUR error ML loop (sur_error.py:543), which has no limit, is in C85."
  },
  {
   "property": "C52",
   "status": "partial",
   "theorems": [
    "C52_cells",
    "C52_partition_partial",
    "C52_rates",
    "C52_rate_undefined",
    "C52_not_binary_refuted",
    "C52_example"
   ],
   "note": "Every 0/1 response and prediction vector: cells, margins, total, rates (C52_cells, C52_partition_partial, C52_rates, C52_rate_undefined). Probit does not reject other responses, for which the table is wrong (C52_not_binary_refuted)."
  },
  {
   "property": "C64",
   "status": "proved",
   "theorems": [
    "C64_gradient",
    "C64_hessian",
    "C64_score_residuals",
    "C64_normal_exists",
    "C64_hessian_negative",
    "C64_stationary_is_maximum",
    "C64_vm_pd",
    "C64_newton"
   ],
   "note": "Over the real numbers, for any functions with the defining properties of the standard normal cdf and pdf (C64_normal_exists shows there are such functions). Convergence of Newton's method itself is not claimed."
  },
  {
   "property": "C65",
   "status": "partial",
   "theorems": [
    "C65_null_likelihood",
    "C65_lr_partial",
    "C65_df_refuted"
   ],
   "note": "Null likelihood, sign of the statistic and rho proved; the degrees of freedom reported are k, not k - 1 (C65_df_refuted)."
  },
  {
   "property": "C66",
   "status": "partial",
   "theorems": [
    "C66_effects_at_mean_partial",
    "C66_average_effects_refuted"
   ],
   "note": "Exact for scalem='xmean' (C66_effects_at_mean_partial); false for the default scalem='phimean' (C66_average_effects_refuted)."
  },
  {
   "property": "C67",
   "status": "proved",
   "theorems": [
    "C67_values",
    "C67_symmetrised",
    "C67_scale_free",
    "C67_nonneg",
    "C67_equal_probabilities"
   ],
   "note": "All W, probabilities and residuals over any real closed field; chi-square and normal p-values are not modelled."
  },
  {
   "property": "C53",
   "status": "partial",
   "theorems": [
    "C53_exponential_iff",
    "C53_power_partial",
    "C53_power_nan_refuted",
    "C53_exponential_refuted",
    "C53_power_example"
   ],
   "note": "True for the power transformation when every stored weight is positive (C53_power_partial), as for weights passed to BaseNSLX. False in NSLX: the farthest neighbour always gets power weight 0, so the gradient is nan and no covariance matrix is reported (C53_power_nan_refuted); the exponential gradient is the derivative only where alpha d = e (C53_exponential_iff), e.g. it is zero at alpha = 1 for two points (C53_exponential_refuted)."
  },
  {
   "property": "C68",
   "status": "partial",
   "theorems": [
    "C68_fit",
    "C68_vm_gauss_newton_iff",
    "C68_weights",
    "C68_outlier_refuted",
    "C68_names_partial",
    "C68_names_refuted",
    "C68_names_example",
    "C68_weights_example"
   ],
   "note": "Fit, weights and names proved for every optimiser result (C68_fit, C68_weights, C68_names_partial). False: vm omits the covariance between beta and alpha (C68_vm_gauss_newton_iff); NSLX raises when the last observation is nobody's neighbour (C68_outlier_refuted); with one parameter tuple per variable and a mask that keeps one variable the lag is named like the variable (C68_names_refuted). var_flag=0 is not modelled."
  },
  {
   "property": "C40",
   "status": "partial",
   "theorems": [
    "C40_wide_partial",
    "C40_long",
    "C40_rows",
    "C40_names",
    "C40_no_digits",
    "C40_digits",
    "C40_wide_rows_refuted",
    "C40_extra_columns_refuted",
    "C40_constant_period_refuted",
    "C40_names_collide_refuted",
    "C40_example"
   ],
   "note": "The mapping of cells and names is proved (C40_wide_partial, C40_long, C40_rows, C40_names, C40_no_digits). False: prepare_panel removes a column that is constant in one period before reshaping, so periods of different variables are mixed (C40_constant_period_refuted); left over columns are dropped silently (C40_extra_columns_refuted); a wide panel whose rows are a multiple of n is accepted (C40_wide_rows_refuted); names that differ only in digits collide (C40_names_collide_refuted)."
  },
  {
   "property": "C41",
   "status": "proved",
   "theorems": [
    "C41_demean",
    "C41_full_weight",
    "C41_unit_means_zero",
    "C41_idempotent",
    "C41_time_invariant",
    "C41_commutes_with_lag"
   ],
   "note": "All T, n, columns and weights over any real closed field."
  },
  {
   "property": "C42",
   "status": "partial",
   "theorems": [
    "C42_lsdv_partial",
    "C42_reports",
    "C42_df_refuted",
    "C42_integer_refuted"
   ],
   "note": "Proved for float arrays (C42_lsdv_partial, C42_reports). False for integer regressors, whose demeaned values are truncated by np.zeros_like (C42_integer_refuted); the reported error variance divides by NT - N instead of NT - N - k (C42_df_refuted)."
  },
  {
   "property": "C69",
   "status": "proved",
   "theorems": [
    "C69_gls",
    "C69_vm",
    "C69_weight",
    "C69_defined",
    "C69_example"
   ],
   "note": "For se2 > 0 and T > 0; the chi-square p-value of the Hausman test is not modelled."
  },
  {
   "property": "C44",
   "status": "partial",
   "theorems": [
    "C44_rows",
    "C44_complete_partial",
    "C44_spatial_alone_refuted",
    "C44_other_class_refuted",
    "C44_joint"
   ],
   "note": "Rows and joint statistic proved whenever a table is returned (C44_rows, C44_complete_partial, C44_joint). False: the marginal spatial test without the other marginal or the joint test raises UnboundLocalError (C44_spatial_alone_refuted) and for any regression that is not PooledOLS the marginal and joint tests raise TypeError, also with which=\"all\" (C44_other_class_refuted)."
  },
  {
   "property": "C70",
   "status": "partial",
   "theorems": [
    "C70_marginal_effects",
    "C70_marginal_spatial",
    "C70_conditional_spatial",
    "C70_no_clamp",
    "C70_conditional_effects",
    "C70_zero_denominator",
    "C70_joint_p_range",
    "C70_joint_p_partial",
    "C70_joint_p_refuted",
    "C70_example"
   ],
   "note": "Formulas and clamps proved. False: with one marginal statistic not positive the joint p-value leaves out the chi-square(2) part, so equal statistics can have different p-values (C70_joint_p_refuted). The distribution functions are parameters; the regressions estimated inside are given by their residuals."
  },
  {
   "property": "C48",
   "status": "proved",
   "theorems": [
    "C48_errproc",
    "C48_ols",
    "C48_slx",
    "C48_sperror",
    "C48_slxerror",
    "C48_lag",
    "C48_spdurbin",
    "C48_lagerr",
    "C48_gns",
    "C48_mess",
    "C48_defined",
    "C48_power_expansion",
    "C48_witness"
   ],
   "note": "All functions with the exact inverse, and the defect of the default power expansion; scipy's expm enters dgp_mess as a parameter with exp(A) exp(-A) = I."
  },
  {
   "property": "C49",
   "status": "partial",
   "theorems": [
    "C49_rows",
    "C49_weights_partial",
    "C49_weights_refuted",
    "C49_names"
   ],
   "note": "Proved for all functions but two (C49_rows, C49_weights_partial, C49_names). False: dgp_spdurbin and dgp_gns print the error about the weights but go on and raise (C49_weights_refuted)."
  },
  {
   "property": "C71",
   "status": "partial",
   "theorems": [
    "C71_xb",
    "C71_wx",
    "C71_wxg_partial",
    "C71_wxg_single",
    "C71_wxg_refuted",
    "C71_heterror",
    "C71_vmult_linear",
    "C71_vmult_group"
   ],
   "note": "Proved, except that make_wxg with one lagged variable does not check the number of coefficients and returns a matrix (C71_wxg_single, C71_wxg_refuted). Random draws are not modelled."
  },
  {
   "property": "C50",
   "status": "partial",
   "theorems": [
    "C50_adds",
    "C50_method",
    "C50_full",
    "C50_total",
    "C50_power",
    "C50_power_stops",
    "C50_power_error",
    "C50_defined",
    "C50_bounds",
    "C50_power_bound",
    "C50_power_terminates",
    "C50_power_negative",
    "C50_power_refuted",
    "C50_power_witness",
    "C50_effects_add",
    "C50_effects_durbin",
    "C50_effects_durbin_all",
    "C50_effects_lag",
    "C50_effects_regimes_partial",
    "C50_total_effect",
    "C50_direct_effect",
    "C50_direct_effect_refuted",
    "C50_mask_regimes_refuted",
    "C50_fixed_regimes_refuted",
    "C50_noattr_refuted",
    "C50_noattr_raises"
   ],
   "note": "ati = adi + aii for every method; full = average diagonal of the inverse, raises when singular; total = average row sum for row-standardised W; power = truncated series, exact error term, two-sided bound, termination; impacts (Durbin layouts with any mask, regimes) characterised and tied to the matrix of partial effects. Refuted: 'power' is not accurate to the tolerance (stops at the first small term: power 3 for bipartite W or rho < 0); with regimes a slx_vars mask or fixed variables mix up coefficients; panel estimators without the slx_vars attribute broadcast or raise; direct effects leave out the feedback of lagged variables."
  },
  {
   "property": "C72",
   "status": "proved",
   "theorems": [
    "C72_lag",
    "C72_balance",
    "C72_average",
    "C72_slx",
    "C72_kernel"
   ],
   "note": "dense weights; the sparse nonlinear-SLX branch and the ID column are not modelled."
  },
  {
   "property": "C45",
   "status": "proved",
   "theorems": [
    "C45_stack",
    "C45_unstack",
    "C45_stack_unchecked",
    "C45_check_k",
    "C45_decompose",
    "C45_base",
    "C45_corr",
    "C45_bound",
    "C45_lmtest"
   ],
   "note": "stacking both ways (sizes that do not add up are cut silently, C45_stack_unchecked), y = predicted + residual, correlations symmetric with unit diagonal for a positive diagonal, within [-1,1] from residuals; also the LM test on the off-diagonal elements and check_k."
  },
  {
   "property": "C46",
   "status": "proved",
   "theorems": [
    "C46_normal",
    "C46_diagonal",
    "C46_defined",
    "C46_minimum",
    "C46_varb",
    "C46_common"
   ],
   "note": "coefficients for any residual covariance: diagonal Sigma and common regressors; also definedness, unique minimisation, positive definite covariance."
  },
  {
   "property": "C54",
   "status": "partial",
   "theorems": [
    "C54_error",
    "C54_score",
    "C54_lag_partial",
    "C54_single",
    "C54_spec",
    "C54_refuted"
   ],
   "note": "surLMe decouples (C54_error). Refuted for surLMlag: the score of equation j adds the residuals of every equation (C54_score, C54_lag_partial), with a two-equation SUR fit in which the statistic is not the sum of the single-equation ones (C54_refuted). Correct for one equation (C54_single), the specification is tied to lmLag/lmErr (C54_spec)."
  },
  {
   "property": "C73",
   "status": "proved",
   "theorems": [
    "C73_error",
    "C73_lag"
   ],
   "note": "Sigma of the form E0'E0/n for any residuals E0; surLMlag with varb the inverse of X'Sigma^-1 X."
  },
  {
   "property": "C74",
   "status": "proved",
   "theorems": [
    "C74_select",
    "C74_value",
    "C74_test",
    "C74_contrast",
    "C74_chow"
   ],
   "note": "the last coefficient needs every equation to have at least one coefficient; sur_chow for equations of equal size."
  },
  {
   "property": "C75",
   "status": "partial",
   "theorems": [
    "C75_first",
    "C75_2sls",
    "C75_resid",
    "C75_diagonal",
    "C75_minimum",
    "C75_moment",
    "C75_common_partial",
    "C75_refuted"
   ],
   "note": "2SLS start, diagonal case, unique minimisation of the projected criterion and positive definite covariance proved. The moment conditions hold when the instruments of the equations span the same space (C75_common_partial); refuted otherwise: off-diagonal blocks use Zhat_r'Zhat_t instead of Zhat_r'Z_t (C75_moment gives the exact gap, C75_refuted a fit)."
  },
  {
   "property": "C76",
   "status": "partial",
   "theorems": [
    "C76_dedup",
    "C76_breusch_pagan_partial",
    "C76_koenker_bassett_partial",
    "C76_kb_is_nR2",
    "C76_studentized",
    "C76_residual_units",
    "C76_regressor_units",
    "C76_explicit_z_refuted",
    "C76_two_valued_refuted",
    "C76_white_columns",
    "C76_white_partial",
    "C76_white_invariant",
    "C76_white_two_valued_refuted"
   ],
   "note": "proved with the default z; refuted: an explicit z raises ValueError (C76_explicit_z_refuted), and full-rank regressors can make the tests raise LinAlgError when a regressor is two-valued (C76_two_valued_refuted, C76_white_two_valued_refuted). White takes the condition index as an input (above 30 the test is not computed)."
  },
  {
   "property": "C77",
   "status": "proved",
   "theorems": [
    "C77_vif",
    "C77_missing_iff_constant",
    "C77_vif_ge1",
    "C77_vif_variance",
    "C77_vif_invariant",
    "C77_ci_eigenvalues",
    "C77_ci_units",
    "C77_ci_orthogonal"
   ],
   "note": "eigenvalues are the solutions of S v = l v in the field; that all of them are real is not shown."
  },
  {
   "property": "C78",
   "status": "proved",
   "theorems": [
    "C78_f_is_wald",
    "C78_dwh_residual_form",
    "C78_dwh_control_function",
    "C78_dwh_order_condition",
    "C78_dwh_instruments"
   ],
   "note": "classical (non-robust) covariance; p-values not modelled."
  },
  {
   "property": "C79",
   "status": "proved",
   "theorems": [
    "C79_jarque_bera",
    "C79_scale",
    "C79_moments"
   ],
   "note": "p-value not modelled."
  },
  {
   "property": "C80",
   "status": "partial",
   "theorems": [
    "C80_same_moments",
    "C80_within_moments",
    "C80_six_moments",
    "C80_tau_right",
    "C80_tau_refuted",
    "C80_tau_spec_psd",
    "C80_tau_indefinite_refuted",
    "C80_full_weights_refuted",
    "C80_default_weights_partial",
    "C80_residuals",
    "C80_start",
    "C80_gls",
    "C80_vm",
    "C80_same_estimates",
    "C80_defined"
   ],
   "note": "Moment equations, estimates, vm and default weights proved for all panels; the weights claim is false with full_weights=True (C80_tau_refuted, C80_tau_indefinite_refuted, C80_full_weights_refuted: two of the six weights are wrong, and when all units are neighbours the matrix has no Cholesky factor). The optimiser is an argument."
  },
  {
   "property": "C81",
   "status": "partial",
   "theorems": [
    "C81_lag_fit",
    "C81_lag_loglik",
    "C81_lag_global",
    "C81_err_fit",
    "C81_err_loglik",
    "C81_err_global",
    "C81_lag_vm",
    "C81_err_vm",
    "C81_shift",
    "C81_time_invariant",
    "C81_lag_mu_refuted",
    "C81_old_objective_partial",
    "C81_old_lag_loglik_refuted",
    "C81_old_err_loglik_refuted",
    "C81_pooled",
    "C81_lag_defined",
    "C81_err_defined"
   ],
   "note": "All parts proved except two that are false of the code: mu_i of ML_LagFE leaves out the spatial lag (C81_lag_mu_refuted) and the log-likelihood of the deprecated Panel_FE_Lag and Panel_FE_Error is too small by (nT/2) ln(nT) (C81_old_lag_loglik_refuted, C81_old_err_loglik_refuted). The minimiser's result is an argument; that it is a minimum is a hypothesis of the _global theorems."
  },
  {
   "property": "C82",
   "status": "partial",
   "theorems": [
    "C82_fit",
    "C82_loglik",
    "C82_monotone",
    "C82_fixed_point",
    "C82_iterations",
    "C82_old_loglik_refuted",
    "C82_varb_partial",
    "C82_vm_symmetric_refuted",
    "C82_info",
    "C82_phi_variance",
    "C82_negative_variance_refuted"
   ],
   "note": "All parts proved except two that are false of the code: vm (C82_vm_symmetric_refuted: it is not symmetric unless sig2 = 1; C82_phi_variance, C82_negative_variance_refuted: the variance of phi depends on the units of y and is negative for small sig2) and the log-likelihood of the deprecated class, which leaves out (N/2) ln phi^2 (C82_old_loglik_refuted). The minimisers are arguments; that they found minima is a hypothesis. Convergence to the global maximum is not claimed."
  },
  {
   "property": "C83",
   "status": "partial",
   "theorems": [
    "C83_fit_partial",
    "C83_loglik_partial",
    "C83_global_partial",
    "C83_old_loglik_refuted",
    "C83_lam0_refuted",
    "C83_nonsymmetric_refuted",
    "C83_witness",
    "C83_vm_partial"
   ],
   "note": "Coefficients, variances, log-likelihood, its maximality and the coefficient block of vm proved for symmetric weights. False of the code: with non-symmetric weights the objective is not the likelihood (C83_nonsymmetric_refuted: the eigenvectors of la.eig are not orthogonal); the block of vm for lambda and phi uses squares of traces where traces of squares belong and is undefined at lambda = 0 (C83_vm_partial gives its exact form, C83_lam0_refuted); the log-likelihood of the deprecated class is too small by (NT/2) ln(NT) (C83_old_loglik_refuted). The minimiser and the eigendecompositions are arguments."
  },
  {
   "property": "C84",
   "status": "proved",
   "theorems": [
    "C84_clik",
    "C84_pass",
    "C84_sur_llik",
    "C84_sur_monotone",
    "C84_sur_lr"
   ],
   "note": "For every pass count, coefficients and weights; the LU factor of SuperLU is an argument assumed to be a factorisation (is_lu). The reported log-likelihood of BaseSUR uses the covariance matrix of the residuals of the previous pass, so it belongs to the previous coefficients (C84_sur_llik)."
  },
  {
   "property": "C85",
   "status": "proved",
   "theorems": [
    "C85_result",
    "C85_varb",
    "C85_terminates",
    "C85_reports",
    "C85_unbound",
    "C85_gm"
   ],
   "note": "The minimisers are arguments: the theorems assume that the minimiser stays in its box and returns a point that is no worse than its starting point, and that the objective is defined and bounded below on the box (met by the data of C85_witness). The reported sig and varb are those of the lambdas of the pass before (C85_result). If the single-equation objectives add up to less than epsilon the constructor raises because no pass was made (C85_unbound). Not claimed: likrlambda and the LR test of SURerrorML being non-negative."
  },
  {
   "property": "C86",
   "status": "proved",
   "theorems": [
    "C86_info",
    "C86_parameters",
    "C86_vm",
    "C86_joint_test",
    "C86_constancy_test",
    "C86_symmetric",
    "C86_witness"
   ],
   "note": "For every W, lambdas and positive definite Sigma with I - lambda_r W invertible; derivatives are limits of difference quotients entry by entry (MxDerivSpec.mx_deriv). Existence of the inverse under the stated condition, which symmetric weights that are not a multiple of the identity meet (C86_symmetric). p-values are not modelled."
  },
  {
   "property": "C87",
   "status": "partial",
   "theorems": [
    "C87_het_weight",
    "C87_vm_error_het",
    "C87_het_weight_unit",
    "C87_vm_endog_het",
    "C87_het_psd",
    "C87_endog_het_psd",
    "C87_hom_weight",
    "C87_hom_weight_psd",
    "C87_vm_endog_hom",
    "C87_vm_error_hom",
    "C87_vm_error_hom_partial",
    "C87_endog_hom_psd",
    "C87_hom_refuted",
    "C87_witness"
   ],
   "note": "Het estimators: exact for every zero-diagonal W (C87_vm_error_het, C87_vm_endog_het), positive semidefinite. Hom estimators: exact with endogenous variables when the filtered residuals sum to zero (C87_vm_endog_hom). False for GM_Error_Hom: get_omega_hom_ols multiplies the third moment by the unfiltered regressors (psiDL uses reg.x, everything else the filtered x_s), so vm is the covariance matrix plus the error E of C87_vm_error_hom and can fail to be positive semidefinite (C87_hom_refuted: a negative variance for a combination of the estimates, row-standardised W, |lambda| < 1); right when lambda = 0 or the residuals have no skewness (C87_vm_error_hom_partial). Missing: residuals that do not sum to zero in the hom case with endogenous variables; inv_method other than the default and filt=False; lambda and G are arguments."
  },
  {
   "property": "C88",
   "status": "proved",
   "theorems": [
    "C88_pr2_range",
    "C88_pr2_one",
    "C88_pr2_affine",
    "C88_pr2_ols",
    "C88_pr2_best",
    "C88_t_wald",
    "C88_t_units",
    "C88_spatial_intercept",
    "C88_spatial_out_of_bounds",
    "C88_witness"
   ],
   "note": "scipy's pearsonr is written from its documentation (exact arithmetic, constant input gives nan); tail functions of the p-values are arguments. C88_t_units: non-robust OLS. Outside the unit interval for rho the reported prediction is zero and pr2_spatial is nan (C88_spatial_out_of_bounds)."
  },
  {
   "property": "C89",
   "status": "partial",
   "theorems": [
    "C89_result",
    "C89_units",
    "C89_window",
    "C89_backcast",
    "C89_first",
    "C89_shift_refuted",
    "C89_mojena_refuted",
    "C89_witness"
   ],
   "note": "True: range, stopping rule in terms of the band the code computes, units, window (C89_result, C89_units, C89_window). False: the trend is not Mojena's. The slope formula is applied to values from position w - 1 on, not to the window, so that at the first comparison 3/w times the last SSR is added to the mean (C89_first); the one time it is the least squares line of the window, the band is its value one step before the window instead of one step after (C89_backcast); hence adding a constant to all SSR changes the answer (C89_shift_refuted) and SSR falling along a straight line count as significant drops (C89_mojena_refuted). A window larger than the list is returned as the number of regimes (C89_window)."
  },
  {
   "property": "C90",
   "status": "partial",
   "theorems": [
    "C90_equation",
    "C90_names",
    "C90_given_names_ignored",
    "C90_arguments",
    "C90_arguments_changed_refuted",
    "C90_failed_call",
    "C90_second_call",
    "C90_second_call_q",
    "C90_witness"
   ],
   "note": "True: the variables, endogenous variables and instruments of every equation (C90_equation), one name per column and their form (C90_names). False: names given for endogenous variables and instruments are never used (C90_given_names_ignored); the caller's bigyend and bigq are overwritten with the lag of y and the lagged instruments (C90_arguments, C90_arguments_changed_refuted), so a second call with the same dictionaries meets the lag of y twice and the estimation raises (C90_second_call, C90_second_call_q); a lag order of 0 raises only after bigyend has been changed (C90_failed_call). Not modelled: regimes, dictionaries built from data frames."
  },
  {
   "property": "C91",
   "status": "partial",
   "theorems": [
    "C91_slx_flags_refuted",
    "C91_slx_mask_refuted",
    "C91_slx_all_refuted",
    "C91_noslx_partial",
    "C91_slx_one_partial",
    "C91_slx_mask_names",
    "C91_instrument_names_refuted",
    "C91_witness"
   ],
   "note": "True without SLX terms (C91_noslx_partial: accepted, variables, flags, last estimate, truthful names) and with one SLX order of all of at most three variables without further endogenous variables (C91_slx_one_partial). False: with SLX terms every explicit cols2regi list raises (C91_slx_flags_refuted); slx_vars='all', the default, raises with four or more variables because the names are zipped with the three letters of 'all' (C91_slx_all_refuted); two or more SLX orders of selected variables raise (C91_slx_mask_refuted); with a selection, more orders or endogenous variables instruments are reported under the name of another lag order (C91_instrument_names_refuted). Not modelled: regime_lag_sep=True, HAC switches, minimum numbers of observations."
  },
  {
   "property": "C92",
   "status": "proved",
   "theorems": [
    "C92_single",
    "C92_single_iff",
    "C92_multi",
    "C92_regime_text_order"
   ],
   "note": "C92_single: one equation, any order of the identifiers; C92_single_iff: the summary exists exactly when names and coefficients agree in number and there are not more statistics; C92_multi: one model per regime. Regimes are ordered as text, so \"10\" precedes \"2\" (C92_regime_text_order). Not modelled: number formats, LaTeX variant."
  },
  {
   "property": "C93",
   "status": "partial",
   "theorems": [
    "C93_table",
    "C93_flags",
    "C93_order",
    "C93_multi",
    "C93_multi_lambda_refuted",
    "C93_ml_error_all",
    "C93_ml_error_no_table_refuted",
    "C93_ml_error_shift_refuted",
    "C93_ml_error_one_wrong_refuted"
   ],
   "note": "True for every class but ML_Error_Regimes, one equation (C93_table, order: C93_order), for one model per regime when lambda has inference or there is none (C93_multi), and for ML_Error_Regimes when everything varies (C93_ml_error_all). False: ML_Error_Regimes keeps the flag of the constant in reg.cols2regi, so that when something does not vary the tests carry the name of another variable (C93_ml_error_shift_refuted, C93_ml_error_one_wrong_refuted), or an IndexError is swallowed and no table is printed (C93_ml_error_no_table_refuted); GM_Error_Regimes, GM_Endog_Error_Regimes and GM_Combo_Regimes with regime_err_sep show a row lambda without a test (C93_multi_lambda_refuted)."
  },
  {
   "property": "C94",
   "status": "partial",
   "theorems": [
    "C94_ml_types",
    "C94_gm_types_noslx",
    "C94_gm_types_iff",
    "C94_gm_types_many",
    "C94_gm_types_one_refuted",
    "C94_comfac_partial",
    "C94_ml_comfac_raises_iff",
    "C94_ml_comfac_fixed_raises",
    "C94_ml_comfac_mask_raises",
    "C94_ml_single",
    "C94_gm_single",
    "C94_ml_multi_accepts_iff",
    "C94_gm_multi_accepts_iff",
    "C94_ml_multi_iff",
    "C94_gm_multi_iff",
    "C94_comfac_single",
    "C94_comfac_scope",
    "C94_comfac_single_mask",
    "C94_wrong_pairs_refuted",
    "C94_multi_wrong_refuted",
    "C94_gm_one_refuted"
   ],
   "note": "Types: right for ML_Lag, GM_Lag (C94_ml_single, C94_gm_single), for ML_Lag_Regimes with any flags and any selection of lagged variables (C94_ml_types), for GM_Lag_Regimes without SLX terms (C94_gm_types_noslx) and with them exactly when (n-1)/(lags+1), n the number of coefficients per regime, is the number of lagged variables (C94_gm_types_iff): always with all variables lagged and a constant per regime (C94_gm_types_many), never with constant_regi='one' or without a constant (C94_gm_types_one_refuted). One model per regime: accepted exactly when lags+1 divides the number of columns of x and its lags, right exactly when every variable is lagged (C94_ml_multi_accepts_iff, C94_ml_multi_iff, C94_gm_multi_accepts_iff, C94_gm_multi_iff); otherwise an error or the wrong variables are compared (C94_multi_wrong_refuted). Common factor test: right without regimes (C94_comfac_single; none with a selection, more orders or endogenous variables, C94_comfac_single_mask, C94_comfac_scope) and in regimes when all variables are lagged and vary (C94_comfac_partial); with regimes the summary of ML_Lag_Regimes raises a ValueError exactly when numbers of coefficients differ (C94_ml_comfac_raises_iff), so for every selection of lagged variables (C94_ml_comfac_mask_raises) and every fixed variable (C94_ml_comfac_fixed_raises), and otherwise can compare different variables (C94_wrong_pairs_refuted). Not modelled: the test statistic (C63), regimes whose name is _Global."
  },
  {
   "property": "C95",
   "status": "partial",
   "theorems": [
    "C95_class",
    "C95_forwarded",
    "C95_slx_vars_refuted",
    "C95_defaults",
    "C95_accept_iff",
    "C95_missing_iff",
    "C95_no_effect",
    "C95_unknown_ignored",
    "C95_gmm_regimes_class",
    "C95_gmm_regimes_forwarded",
    "C95_gmm_regime_lag_sep_refuted",
    "C95_gmm_class",
    "C95_gmm_forwarded",
    "C95_gmm_lost_refuted",
    "C95_gmm_unknown_estimator",
    "C95_gm_lag_robust_refuted"
   ],
   "note": "The class that runs is right (C95_class, C95_gmm_class, C95_gmm_regimes_class); every argument reaches it (C95_forwarded, C95_gmm_forwarded, C95_gmm_regimes_forwarded) with these exceptions: with regimes slx_vars never does, in none of the six classes (C95_slx_vars_refuted, C95_gmm_lost_refuted, C95_no_effect), nor hard_bound in GMM_Error, nor regime_lag_sep without add_wy (C95_gmm_regime_lag_sep_refuted); vif of OLS and nonspat_diag of TSLS have no effect with regimes (C95_missing_iff, C95_no_effect); an unknown estimator drops slx_vars and every further keyword (C95_gmm_unknown_estimator). Defaults are those of the class called (C95_defaults), so that GM_Lag(regimes=r) and GM_Lag_Regimes(r) differ in robust (C95_gm_lag_robust_refuted). Calls accepted: C95_accept_iff; a misspelled keyword is ignored without regimes, and by OLS always (C95_unknown_ignored). Simplified: arguments by keyword; signatures transcribed."
  },
  {
   "property": "C96",
   "status": "partial",
   "theorems": [
    "C96_names_partial",
    "C96_names_refuted",
    "C96_auto",
    "C96_choice",
    "C96_never_all",
    "C96_two_refuted",
    "C96_no_room",
    "C96_zero_is_none",
    "C96_given",
    "C96_given_number",
    "C96_trace_refuted",
    "C96_arguments_ignored",
    "C96_enough",
    "C96_default_quorum",
    "C96_runs_iff"
   ],
   "note": "Automatic number (C96_auto, C96_choice) and given number (C96_given, C96_given_number) of regimes, whenever the class returns; on a connected map it returns exactly when the search ran and made two attempts at a cut (C96_runs_iff), and the largest number searched for is never used (C96_never_all), so that room for exactly two regimes always ends in an exception (C96_two_refuted); trace=False with n_clusters always raises (C96_trace_refuted). Too little room: C96_no_room; n_clusters=0 is None (C96_zero_is_none); enough observations: C96_enough, C96_default_quorum; switches: C96_arguments_ignored. Names: C96_names_partial; missing: GM_Lag_Endog_Regimes with named variables one of which is constant raises IndexError (C96_names_refuted). The regression is the oracle of C39, the spanning forest is a premise, 0.70 n is exact."
  },
  {
   "property": "C97",
   "status": "partial",
   "theorems": [
    "C97_value",
    "C97_nonneg_partial",
    "C97_defined_partial",
    "C97_runs",
    "C97_units",
    "C97_shift",
    "C97_witness",
    "C97_negative_refuted"
   ],
   "note": "What is compared and when it is nan: C97_value; it never makes PanelRE fail: C97_runs; units of y and a combination of the regressors added to y: C97_units, C97_shift. The two covariance matrices rest on different variance estimates, sigma2_epsilon and sig2: the statistic is non-negative, and zero exactly when the slopes agree, when sig2 <= sigma2_epsilon (C97_nonneg_partial), and always defined when sig2 < sigma2_epsilon (C97_defined_partial; C97_witness); otherwise it can be negative with a p-value of 1 although the slopes differ (C97_negative_refuted). Premises: a column below the threshold of variation does not vary at all; for C97_units the solver of the between regression commutes with a factor, for C97_shift the between regression has full rank. The chi-squared distribution is a parameter."
  },
  {
   "property": "C98",
   "status": "partial",
   "theorems": [
    "C98_value",
    "C98_own",
    "C98_excess",
    "C98_inflated",
    "C98_diagonal",
    "C98_single",
    "C98_multi_raises",
    "C98_multi_wrong",
    "C98_split_iff",
    "C98_hac_joint",
    "C98_unreachable",
    "C98_lag_kept",
    "C98_spelling",
    "C98_white",
    "C98_ogmm_partial",
    "C98_ogmm_refuted",
    "C98_ogmm_spelling_refuted",
    "C98_empty",
    "C98_weighted",
    "C98_case_refuted",
    "C98_white_refuted"
   ],
   "note": "the joint regression with the kernel for robust='hac', the warning, when regressions are split, unreachability of hac_multi, and what it would report, proved; refuted for other spellings of 'hac' (White's matrix of split regressions under the label 'HAC') and for White requests with a kernel given (the kernel's); 'ogmm' is accepted by OLS_Regimes and answered with White's matrix, as are other spellings of it in all three classes"
  }
 ]
}