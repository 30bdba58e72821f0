* **Closed under the global context** (no axiom) — 513 theorems:
  BskTheorems: C44_rows C44_complete_partial C44_spatial_alone_refuted C44_other_class_refuted C44_joint; BskTheorems2: C70_marginal_effects C70_marginal_spatial C70_conditional_spatial; BskTheorems3: C70_no_clamp C70_conditional_effects C70_zero_denominator C70_joint_p_range C70_joint_p_partial C70_joint_p_refuted C70_example; CacheTheorems: C51_reads C51_stable C51_override C51_vm C51_clear C51_ols_partial C51_stale_refuted; CacheTheorems2: C32_pieces C32_tests; ChecksTheorems: C04_check_arrays C04_check_arrays_order C05_check_constant C06_check_robust C06_spat_diag_partial C06_spat_diag_case_refuted C57_check_y C57_check_weights C57_check_regimes C57_check_regi_args; ChoTheorems: C93_table C93_flags C93_order C93_multi C93_multi_lambda_refuted C93_ml_error_all C93_ml_error_no_table_refuted C93_ml_error_shift_refuted C93_ml_error_one_wrong_refuted; DgpTheorems: C48_errproc C48_ols C48_slx C48_sperror C48_slxerror C48_lag C48_spdurbin C48_lagerr C48_gns C48_mess C48_defined C48_power_expansion C48_witness C49_rows C49_weights_partial C49_weights_refuted C49_names C71_xb C71_wx C71_wxg_partial C71_wxg_single C71_wxg_refuted C71_heterror C71_vmult_linear C71_vmult_group; DiagTheorems: C76_dedup C76_breusch_pagan_partial C76_koenker_bassett_partial C76_kb_is_nR2 C76_studentized C76_residual_units C76_regressor_units C76_explicit_z_refuted C76_two_valued_refuted; DiagTheorems2: C76_white_columns C76_white_partial C76_white_invariant C76_white_two_valued_refuted; DiagTheorems3: C77_vif C77_missing_iff_constant C77_vif_ge1 C77_vif_variance C77_vif_invariant C77_ci_eigenvalues C77_ci_units C77_ci_orthogonal; DiagTheorems4: C78_f_is_wald C78_dwh_residual_form C78_dwh_control_function C78_dwh_order_condition C78_dwh_instruments C79_jarque_bera C79_scale C79_moments; EndNTheorems: C96_names_partial C96_names_refuted; EndTheorems: C96_auto C96_choice C96_never_all C96_two_refuted C96_no_room C96_zero_is_none C96_given C96_given_number C96_trace_refuted C96_arguments_ignored C96_enough C96_default_quorum C96_runs_iff; FilterTheorems: C22_truncated_inverse C22_raises_iff C22_accuracy C22_truncated_inverse_post C22_true_inverse C22_contraction_refuted C23_reduced_form C23_out_of_bounds C23_sum_refuted C23_sum C24_filter C24_linear C24_panel; FwdTheorems: C95_class C95_forwarded C95_slx_vars_refuted C95_defaults C95_accept_iff C95_missing_iff C95_no_effect C95_unknown_ignored C95_gmm_regimes_class C95_gmm_regimes_forwarded C95_gmm_regime_lag_sep_refuted C95_gmm_class C95_gmm_forwarded C95_gmm_lost_refuted C95_gmm_unknown_estimator C95_gm_lag_robust_refuted; GlrTheorems: C91_slx_flags_refuted C91_slx_mask_refuted C91_slx_all_refuted C91_noslx_partial C91_slx_one_partial C91_slx_mask_names C91_instrument_names_refuted C91_witness; GvmTheorems: C87_het_weight C87_vm_error_het C87_het_weight_unit C87_vm_endog_het C87_het_psd C87_endog_het_psd; GvmTheorems2: C87_hom_weight C87_hom_weight_psd C87_vm_endog_hom C87_vm_error_hom C87_vm_error_hom_partial C87_endog_hom_psd; HacTheorems: C98_value C98_own C98_excess C98_inflated C98_diagonal C98_single C98_multi_raises; HacTheorems2: C98_multi_wrong; HausTheorems: C97_value C97_nonneg_partial C97_defined_partial C97_runs; HausTheorems2: C97_units C97_shift; HausTheorems3: C97_witness C97_negative_refuted; KkpTheorems: C80_same_moments C80_within_moments C80_six_moments; KkpTheorems2: C80_tau_right C80_tau_refuted C80_tau_spec_psd C80_tau_indefinite_refuted C80_full_weights_refuted C80_default_weights_partial; KkpTheorems3: C80_residuals C80_start C80_gls C80_vm C80_same_estimates C80_defined; LMTheorems: C31_sarma C31_durbin; LMTheorems2: C31_durbin_defined C43_decomposition_partial C43_trace C61_moran_moments C61_ak C62_hausman_refuted C63_comfac; LMTheorems3: C43_refuted; LagsTheorems: C02_slx_names C02_slx_accepts C02_slx_q_names_partial C02_q_names_refuted C20_get_lags C20_get_lags_split C20_get_lags_split_rejects C20_zero_lags_gives_one C21_set_endog_dense C21_sparse_agrees_partial C21_sparse_repeats_refuted; LinRegTheorems: C10_wald_zero_and_sign C10_wald_zero_any_vm C10_wald_invariant C14_ols_fails_iff_dependent C14_ols_normal_equations C14_ols_least_squares C15_ols_recombination C15_ols_shift C15_ols_vm C16_regimes_equal_separate_ols C16_design_entries C17_wls_normal_equations C17_wls_unique C17_weighted_regimes_partial C17_equal_variances_is_ols C17_negative_variance_refuted C18_white_psd C18_white_entries C18_hac_symmetric C18_hac_identity_is_white C18_ols_vm_white_partial C18_white_with_gwk_refuted C19_tsls_moments C19_tsls_just_identified C19_tsls_self_instrument_is_ols C19_tsls_both_or_neither_partial C19_tsls_sparse_both_refuted C33_fit_measures C33_f_stat_last_nonneg; LoopTheorems: C28_error_het C28_endog_het_partial C28_endog_het_lag_bound_unreachable C28_endog_het_error_bound C28_endog_hom C28_no_pass_crashes C28_clamp_refuted C47_gm_loop C47_gm_stops_at_first_small_move C47_gm_no_pass C47_message C47_nan_converges_refuted C47_default_always_maximum C47_newton C47_newton_warn_refuted C47_sur_partial C47_sur_limit_refuted C47_random_effects; MLTheorems3: C60_err_info C60_lag_info; MomentsTheorems: C25_filter_commutes_iff C25_e_filtered_partial C25_x_lag_iff C25_refuted C26_gm_moments C26_zero_iff C27_two_moments C27_A1_het C27_A1_hom C58_objective C58_weighted_objective C58_same_minimisers C58_scale_gm C59_gm_error C59_defined; MultTheorems: C50_adds C50_method C50_full C50_total C50_power C50_power_stops C50_power_error; MultTheorems2: C50_defined C50_bounds C50_power_bound C50_power_terminates C50_power_negative C50_power_refuted C50_power_witness; MultTheorems3: C50_effects_add C50_effects_durbin C50_effects_durbin_all C50_effects_lag C50_effects_regimes_partial; MultTheorems4: C50_total_effect C50_direct_effect C50_direct_effect_refuted C50_mask_regimes_refuted C50_fixed_regimes_refuted C50_noattr_refuted C50_noattr_raises C72_lag C72_balance C72_average C72_slx C72_kernel; NamesTheorems: C01_default_x_names C01_user_x_names C01_yend_names C01_q_names C03_total C03_labels C03_prefix_needed C56_gm_lag_names_partial C56_gm_lag_slx_names_partial C56_yend_slx_refuted C56_mask_two_lags_raises_refuted C56_mask_refuted; NslxTheorems2: C68_names_partial C68_names_refuted C68_names_example; OptkTheorems: C89_result; OptkTheorems2: C89_units C89_window C89_backcast C89_first; OptkTheorems3: C89_shift_refuted C89_mojena_refuted C89_witness; OutTheorems: C92_single C92_single_iff C92_multi C92_regime_text_order; PanelTheorems: C41_demean C41_full_weight C41_unit_means_zero C41_idempotent C41_time_invariant C41_commutes_with_lag C42_lsdv_partial C42_reports C42_df_refuted; PanelTheorems2: C42_integer_refuted C69_gls C69_vm C69_weight C69_defined C69_example; PanelTheorems3: C40_wide_partial C40_long C40_rows C40_names C40_no_digits C40_digits C40_wide_rows_refuted C40_extra_columns_refuted C40_constant_period_refuted C40_names_collide_refuted C40_example; Pr2Theorems: C88_pr2_range C88_pr2_one C88_pr2_affine C88_pr2_ols C88_pr2_best; Pr2Theorems2: C88_t_wald C88_t_units C88_spatial_intercept C88_spatial_out_of_bounds C88_witness; ProbitTheorems: C52_cells C52_partition_partial C52_rates C52_rate_undefined C52_not_binary_refuted C52_example; ProbitTheorems3: C65_df_refuted; ProbitTheorems4: C67_values C67_symmetrised C67_scale_free C67_nonneg C67_equal_probabilities; RegMultiTheorems: C13_betas C13_vm C13_residuals C13_fit_identity C13_names C13_name_y_refuted C13_constant_columns C13_duplicate_names_refuted; RegOptTheorems: C98_split_iff C98_hac_joint C98_unreachable C98_lag_kept C98_spelling C98_white C98_empty C98_weighted C98_case_refuted C98_white_refuted; RegWTheorems: C12_total C12_regime_weights C12_union C12_union_single C12_w_regimes C12_row_sums C12_original_weights_refuted; RegimesTheorems: C07_design C07_fitted_value C08_names C09_chow_one_partial C09_chow_joint_partial C09_chow_exogenous C09_chow_refuted C09_chow_drops_extra C11_check_cols2regi C11_no_constant_error C55_regimes_set C55_regimes_set_float_partial C55_regimes_set_float_refuted; SearchTheorems: C35_label C35_model C35_ols C35_nan C36_label C36_model C36_agree; SearchTheorems2: C37_model C37_label_partial C37_refuted C38_gns_total C38_gns C38_gns_agree C38_gns_sig C38_sdm_total C38_sdm C38_sdm_agree; SkaterTheorems2: C39_fit_partial C39_cuts C39_refines C39_greedy C39_no_raise_partial C39_labels_lost_refuted C39_lost_refuted C39_islands_refuted; SlagTheorems: C90_equation C90_names C90_given_names_ignored C90_arguments C90_arguments_changed_refuted C90_failed_call C90_second_call C90_second_call_q C90_witness; Sur3Theorems: C75_first C75_2sls C75_resid C75_diagonal C75_minimum C75_moment C75_common_partial C75_refuted; SurTheorems: C45_stack C45_unstack C45_stack_unchecked C45_check_k C45_decompose C45_base C46_normal C46_diagonal C46_defined C46_minimum C46_varb C46_common; SurTheorems2: C45_corr C45_bound C45_lmtest; SurTheorems3: C54_error C54_score C54_lag_partial C54_single C54_spec C54_refuted; SurTheorems4: C73_error C73_lag C74_select C74_value C74_test; SurTheorems5: C74_contrast C74_chow; SuvTheorems: C86_parameters; TypTheorems: C94_ml_types C94_gm_types_noslx C94_gm_types_iff C94_gm_types_many C94_gm_types_one_refuted C94_comfac_partial C94_ml_comfac_raises_iff C94_ml_comfac_fixed_raises C94_ml_comfac_mask_raises C94_ml_single C94_gm_single C94_ml_multi_accepts_iff C94_gm_multi_accepts_iff C94_ml_multi_iff C94_gm_multi_iff C94_comfac_single C94_comfac_scope C94_comfac_single_mask C94_wrong_pairs_refuted C94_multi_wrong_refuted C94_gm_one_refuted
* **`ClassicalDedekindReals.sig_forall_dec`, `ClassicalDedekindReals.sig_not_dec`, `ClassicalEpsilon.constructive_indefinite_description`, `Classical_Prop.classic`, `FunctionalExtensionality.functional_extensionality_dep`** — 87 theorems:
  MLTheorems: C29_lag_fit C29_lag_loglik C29_lag_global C29_lag_concentrated_defined C29_err_fit C29_err_loglik C29_err_global; MLTheorems2: C30_jacobian_positive C30_full_lu C30_full_ord C30_full_ord_complex C30_ord_setup C30_ord_objective_partial C30_tr3 C30_vm_refuted C30_vm1_refuted C30_unequal_weights_refuted C30_transform_refuted; MLTheorems4: C60_err_vm C60_lag_vm C60_err_defined C60_lag_defined; NslxTheorems: C53_exponential_iff C53_power_partial C53_power_nan_refuted; NslxTheorems2: C53_exponential_refuted C68_fit C68_vm_gauss_newton_iff C68_outlier_refuted; PfeTheorems: C81_lag_fit C81_lag_loglik C81_lag_global; PfeTheorems2: C81_err_fit C81_err_loglik C81_err_global; PfeTheorems3: C81_lag_vm C81_err_vm; PfeTheorems4: C81_shift C81_time_invariant C81_lag_mu_refuted C81_old_objective_partial C81_old_lag_loglik_refuted C81_old_err_loglik_refuted C81_pooled; PfeTheorems5: C81_lag_defined C81_err_defined; PreTheorems: C82_fit; PreTheorems2: C82_loglik C82_monotone C82_fixed_point C82_iterations C82_old_loglik_refuted; PreTheorems3: C82_varb_partial C82_vm_symmetric_refuted C82_info C82_phi_variance; PreTheorems4: C82_negative_variance_refuted; ProbitTheorems2: C64_gradient; ProbitTheorems3: C64_normal_exists C64_hessian_negative C64_stationary_is_maximum C64_vm_pd C64_newton C65_null_likelihood C65_lr_partial; PrrTheorems: C83_fit_partial; PrrTheorems2: C83_loglik_partial C83_global_partial C83_old_loglik_refuted; PrrTheorems3: C83_lam0_refuted C83_nonsymmetric_refuted; PrrTheorems4: C83_witness; PrrTheorems5: C83_vm_partial; SueTheorems: C84_clik C84_pass; SueTheorems2: C84_sur_llik C84_sur_monotone C84_sur_lr; SueTheorems3: C85_result C85_varb C85_terminates C85_reports C85_unbound; SuvTheorems2: C86_vm C86_joint_test C86_constancy_test; SuvTheorems3: C86_witness
* **`ClassicalDedekindReals.sig_forall_dec`, `ClassicalDedekindReals.sig_not_dec`, `Classical_Prop.classic`, `FunctionalExtensionality.functional_extensionality_dep`** — 3 theorems:
  InfoCritTheorems: C34_akaike C34_schwarz C34_likelihood_decreasing
* **`ClassicalDedekindReals.sig_forall_dec`, `ClassicalEpsilon.constructive_indefinite_description`, `Classical_Prop.classic`, `FunctionalExtensionality.functional_extensionality_dep`** — 12 theorems:
  GvmTheorems3: C87_hom_refuted C87_witness; NslxTheorems2: C53_power_example C68_weights C68_weights_example; ProbitTheorems2: C64_hessian C64_score_residuals; ProbitTheorems3: C66_effects_at_mean_partial C66_average_effects_refuted; SueTheorems4: C85_gm; SuvTheorems: C86_info; SuvTheorems2: C86_symmetric
* **`ClassicalDedekindReals.sig_forall_dec`, `FunctionalExtensionality.functional_extensionality_dep`** — 3 theorems:
  InfoCritTheorems: C34_likratio C34_likratio_symmetric_partial C34_likratio_df_refuted
