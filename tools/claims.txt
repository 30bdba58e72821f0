C01 | proved | names generated / passed through; user lists are not validated by spreg, so the length claim is an equivalence
C02 | partial | regressor names proved truthful for every mask and order; instrument names only when nothing is masked out; the masked case is refuted (flex_wx concatenates the instrument groups in opposite orders)
C03 | proved | total for all names; labels for distinct names that do not start with W_
C20 | proved | for every lag operator on columns
C21 | partial | same set of columns for every order and the same list for w_lags <= 2; from 3 lags on the sparse builder repeats columns (refuted)
C56 | partial | truthful without SLX terms and for one SLX order on all regressors; refuted with yend+SLX, with masks
C04 | proved | exact accept condition; pandas/csr conversion abstracted to (shape, finite)
C05 | proved | entries are exact integers; aliasing modelled with a heap of list objects
C06 | partial | check_robust fully characterised; check_spat_diag proved for the lower-case spelling only: "HAC" keeps the diagnostics on (refuted)
C57 | proved | exact accept conditions
C07 | proved | whole design built by Regimes_Frame: cells and fitted values, any ring
C08 | proved | names and regime tags are the labels of the design's columns
C09 | partial | proved whenever no exogenous variable is global or no endogenous one varies (all OLS/ML models); refuted for a global constant with regime-varying endogenous variables (C09_chow_refuted)
C11 | proved | exact characterisation of the accepted options; constant_regi=False with add_cons is an UnboundLocalError
C55 | partial | proved for non-float identifiers and for integral or colliding floats; refuted for e.g. [1.5, 2.5]
C10 | proved | any real field; wald_test's p-value (scipy) not modelled
C14 | proved | exact arithmetic; failure of the inverse iff the regressors are dependent
C15 | proved | exact arithmetic
C16 | proved | any number of regimes and any assignment
C17 | partial | weighted normal equations, uniqueness, equal-variance case proved for WLS and the group-wise estimator when the estimated variances are positive; with sig2n_k they can be negative (refuted)
C18 | partial | symmetry, PSD, identity kernel proved; robust='white' with gwk returns HAC (refuted)
C19 | partial | moment conditions, just-identified IV, self-instrumented = OLS, argument check for numpy arrays proved; sparse q and h may be passed together (refuted)
C33 | proved | constant in the column space of x; y not constant; exact arithmetic
C34 | partial | criteria and likelihood ratio proved over the reals; degrees of freedom are not symmetric (refuted)
C12 | proved | every cell of the regime weights and of their union, warning, row sums; libpysal's w_subset/w_union are modelled from their documentation, transforms V and D not modelled; the expectation that original weight values survive is refuted
C13 | proved | the assembly loop of all _*_regimes_multi methods with an arbitrary per-regime estimator, and check_const_regi; name_y and duplicate-name expectations refuted; the multiprocessing pool is modelled as a map
C22 | proved | residual, bound on passes, exit condition; convergent series whose first increment exceeds the initial test 10^7 raise (refuted expectation C22_contraction_refuted)
C23 | proved | up to the truncation of the power expansion; outside the bounds prediction and error are both zero
C24 | proved | cross-section and stacked panel filter
C25 | partial | holds for all data exactly when no link crosses regimes (or lambda = 0); refuted otherwise
C26 | proved | all W, u, lambda, sigma2
C27 | proved | get_A1_het, get_A1_hom, get_A2_hom and _moments2eqs
C58 | proved | optimiser abstract; the Cholesky factor is an argument with L L' = inv(vcX)
C59 | proved | the optimiser is an arbitrary function of the moments
C29 | proved | minimiser abstract; the statement about the whole range of rho is for row standardised W; the log-likelihood is also shown to be the Gaussian one
C30 | partial | the Jacobian terms agree for all W (full, LU, ord) and for symmetrised row standardised contiguity weights; refuted: covariance under ord with symmetric contiguity, unequal weights, transform of the caller's weights changed
C60 | proved | all W, x, residuals
C31 | proved | x of full rank, non-exact fit, W not antisymmetric, lag of the fit not in the span of x (otherwise the robust forms divide by zero)
C43 | partial | refuted as stated: LM-lag uses tr*tr where the robust tests use T*tr, so the identity holds only if u'Wy = 0 or tr(WW+W'W) = T; it holds for LM-lag computed with T*tr
C61 | proved | weights with zero diagonal, k < n
C62 | partial | refuted: the code inverts V_RE - V_FE, so the statistic is minus the textbook one
C63 | proved | vm positive definite
C51 | partial | reads, stability, override proved for all histories; refuted for OLS_Regimes with regime_err_sep (residuals replaced without emptying the cache)
C32 | proved | lm_wx/lm_spdurbin values from the fit; "all" stands for everything only when alone
C35 | proved | The whole stge_classic tree for all rational p-values, thresholds and estimator outcomes (estimators and tests are oracles returning p-values or raising); a NaN LM p-value leaves the result unbound (C35_nan).
C36 | proved | The whole stge_kb tree with its tie conventions; the branch commented as never reached is reachable (C36_witness).
C37 | partial | The model is always the tree's; the label is right except when WX was kept, both robust tests reject with the lag p-value not larger, and the lag model or its AK test raises (line 700 uses models[1]): C37_refuted returns an SDM model labelled LAG.
C38 | proved | The gets_gns and gets_sdm trees for all finite p-values, label/model agreement and significance of what is returned; gets_sdm spells SLX-Err. Premises: OLS and SLX estimation, outside a try, do not raise; AKtest does not raise.
C39 | partial | For every forest, score oracle, quorum and number of clusters: labels, quorum, count and history of a successful fit (C39_fit_partial, C39_cuts, C39_refines), optimality of each cut and absence of exceptions from a connected start (C39_greedy, C39_no_raise_partial). False in the code: labels are None when no cut is possible (C39_labels_lost_refuted, C39_lost_refuted); with islands the scores of the passes are not comparable and fit raises (C39_islands_refuted). Premise: scipy's spanning forest has no cycle.
C28 | partial | Het and hom estimators, any W, data, filters, GMM oracle and number of passes. True of the code: C28_error_het, C28_endog_het_partial, C28_endog_hom (coefficients are the OLS/2SLS ones of the filtered model, residuals add up, error bound detected). False: the endogenous het estimator overwrites the last coefficient, whatever variable it belongs to, when it leaves [-0.9, 0.9] (C28_clamp_refuted), so its lag bound check is dead code (C28_endog_het_lag_bound_unreachable). For vm see C87.
C47 | partial | The loops of the GMM het/hom estimators, probit Newton, iterated SUR and panel random effects, for every step function. Proved: bounds on the passes, reported count, stop criterion. False: iterated SUR makes maxiter+1 passes (C47_sur_limit_refuted), a NaN estimate counts as convergence (C47_nan_converges_refuted), converging in the last permitted pass is reported as not converged (C47_newton_warn_refuted, C47_default_always_maximum). The SUR error ML loop (sur_error.py:543), which has no limit, is in C85.
C52 | partial | Every 0/1 response and prediction vector: cells, margins, total, rates (C52_cells, C52_partition_partial, C52_rates, C52_rate_undefined). Probit does not reject other responses, for which the table is wrong (C52_not_binary_refuted).
C64 | proved | Over the real numbers, for any functions with the defining properties of the standard normal cdf and pdf (C64_normal_exists shows there are such functions). Convergence of Newton's method itself is not claimed.
C65 | partial | Null likelihood, sign of the statistic and rho proved; the degrees of freedom reported are k, not k - 1 (C65_df_refuted).
C66 | partial | Exact for scalem='xmean' (C66_effects_at_mean_partial); false for the default scalem='phimean' (C66_average_effects_refuted).
C67 | proved | All W, probabilities and residuals over any real closed field; chi-square and normal p-values are not modelled.
C53 | partial | True for the power transformation when every stored weight is positive (C53_power_partial), as for weights passed to BaseNSLX. False in NSLX: the farthest neighbour always gets power weight 0, so the gradient is nan and no covariance matrix is reported (C53_power_nan_refuted); the exponential gradient is the derivative only where alpha d = e (C53_exponential_iff), e.g. it is zero at alpha = 1 for two points (C53_exponential_refuted).
C68 | partial | Fit, weights and names proved for every optimiser result (C68_fit, C68_weights, C68_names_partial). False: vm omits the covariance between beta and alpha (C68_vm_gauss_newton_iff); NSLX raises when the last observation is nobody's neighbour (C68_outlier_refuted); with one parameter tuple per variable and a mask that keeps one variable the lag is named like the variable (C68_names_refuted). var_flag=0 is not modelled.
C40 | partial | The mapping of cells and names is proved (C40_wide_partial, C40_long, C40_rows, C40_names, C40_no_digits). False: prepare_panel removes a column that is constant in one period before reshaping, so periods of different variables are mixed (C40_constant_period_refuted); left over columns are dropped silently (C40_extra_columns_refuted); a wide panel whose rows are a multiple of n is accepted (C40_wide_rows_refuted); names that differ only in digits collide (C40_names_collide_refuted).
C41 | proved | All T, n, columns and weights over any real closed field.
C42 | partial | Proved for float arrays (C42_lsdv_partial, C42_reports). False for integer regressors, whose demeaned values are truncated by np.zeros_like (C42_integer_refuted); the reported error variance divides by NT - N instead of NT - N - k (C42_df_refuted).
C69 | proved | For se2 > 0 and T > 0; the chi-square p-value of the Hausman test is not modelled.
C44 | partial | Rows and joint statistic proved whenever a table is returned (C44_rows, C44_complete_partial, C44_joint). False: the marginal spatial test without the other marginal or the joint test raises UnboundLocalError (C44_spatial_alone_refuted) and for any regression that is not PooledOLS the marginal and joint tests raise TypeError, also with which="all" (C44_other_class_refuted).
C70 | partial | Formulas and clamps proved. False: with one marginal statistic not positive the joint p-value leaves out the chi-square(2) part, so equal statistics can have different p-values (C70_joint_p_refuted). The distribution functions are parameters; the regressions estimated inside are given by their residuals.
C48 | proved | All functions with the exact inverse, and the defect of the default power expansion; scipy's expm enters dgp_mess as a parameter with exp(A) exp(-A) = I.
C49 | partial | Proved for all functions but two (C49_rows, C49_weights_partial, C49_names). False: dgp_spdurbin and dgp_gns print the error about the weights but go on and raise (C49_weights_refuted).
C71 | partial | Proved, except that make_wxg with one lagged variable does not check the number of coefficients and returns a matrix (C71_wxg_single, C71_wxg_refuted). Random draws are not modelled.
C50 | partial | ati = adi + aii for every method; full = average diagonal of the inverse, raises when singular; total = average row sum for row-standardised W; power = truncated series, exact error term, two-sided bound, termination; impacts (Durbin layouts with any mask, regimes) characterised and tied to the matrix of partial effects. Refuted: 'power' is not accurate to the tolerance (stops at the first small term: power 3 for bipartite W or rho < 0); with regimes a slx_vars mask or fixed variables mix up coefficients; panel estimators without the slx_vars attribute broadcast or raise; direct effects leave out the feedback of lagged variables.
C72 | proved | dense weights; the sparse nonlinear-SLX branch and the ID column are not modelled.
C45 | proved | stacking both ways (sizes that do not add up are cut silently, C45_stack_unchecked), y = predicted + residual, correlations symmetric with unit diagonal for a positive diagonal, within [-1,1] from residuals; also the LM test on the off-diagonal elements and check_k.
C46 | proved | coefficients for any residual covariance: diagonal Sigma and common regressors; also definedness, unique minimisation, positive definite covariance.
C54 | partial | surLMe decouples (C54_error). Refuted for surLMlag: the score of equation j adds the residuals of every equation (C54_score, C54_lag_partial), with a two-equation SUR fit in which the statistic is not the sum of the single-equation ones (C54_refuted). Correct for one equation (C54_single), the specification is tied to lmLag/lmErr (C54_spec).
C73 | proved | Sigma of the form E0'E0/n for any residuals E0; surLMlag with varb the inverse of X'Sigma^-1 X.
C74 | proved | the last coefficient needs every equation to have at least one coefficient; sur_chow for equations of equal size.
C75 | partial | 2SLS start, diagonal case, unique minimisation of the projected criterion and positive definite covariance proved. The moment conditions hold when the instruments of the equations span the same space (C75_common_partial); refuted otherwise: off-diagonal blocks use Zhat_r'Zhat_t instead of Zhat_r'Z_t (C75_moment gives the exact gap, C75_refuted a fit).
C76 | partial | proved with the default z; refuted: an explicit z raises ValueError (C76_explicit_z_refuted), and full-rank regressors can make the tests raise LinAlgError when a regressor is two-valued (C76_two_valued_refuted, C76_white_two_valued_refuted). White takes the condition index as an input (above 30 the test is not computed).
C77 | proved | eigenvalues are the solutions of S v = l v in the field; that all of them are real is not shown.
C78 | proved | classical (non-robust) covariance; p-values not modelled.
C79 | proved | p-value not modelled.
C80 | partial | Moment equations, estimates, vm and default weights proved for all panels; the weights claim is false with full_weights=True (C80_tau_refuted, C80_tau_indefinite_refuted, C80_full_weights_refuted: two of the six weights are wrong, and when all units are neighbours the matrix has no Cholesky factor). The optimiser is an argument.
C81 | partial | All parts proved except two that are false of the code: mu_i of ML_LagFE leaves out the spatial lag (C81_lag_mu_refuted) and the log-likelihood of the deprecated Panel_FE_Lag and Panel_FE_Error is too small by (nT/2) ln(nT) (C81_old_lag_loglik_refuted, C81_old_err_loglik_refuted). The minimiser's result is an argument; that it is a minimum is a hypothesis of the _global theorems.
C82 | partial | All parts proved except two that are false of the code: vm (C82_vm_symmetric_refuted: it is not symmetric unless sig2 = 1; C82_phi_variance, C82_negative_variance_refuted: the variance of phi depends on the units of y and is negative for small sig2) and the log-likelihood of the deprecated class, which leaves out (N/2) ln phi^2 (C82_old_loglik_refuted). The minimisers are arguments; that they found minima is a hypothesis. Convergence to the global maximum is not claimed.
C83 | partial | Coefficients, variances, log-likelihood, its maximality and the coefficient block of vm proved for symmetric weights. False of the code: with non-symmetric weights the objective is not the likelihood (C83_nonsymmetric_refuted: the eigenvectors of la.eig are not orthogonal); the block of vm for lambda and phi uses squares of traces where traces of squares belong and is undefined at lambda = 0 (C83_vm_partial gives its exact form, C83_lam0_refuted); the log-likelihood of the deprecated class is too small by (NT/2) ln(NT) (C83_old_loglik_refuted). The minimiser and the eigendecompositions are arguments.
C84 | proved | For every pass count, coefficients and weights; the LU factor of SuperLU is an argument assumed to be a factorisation (is_lu). The reported log-likelihood of BaseSUR uses the covariance matrix of the residuals of the previous pass, so it belongs to the previous coefficients (C84_sur_llik).
C85 | proved | The minimisers are arguments: the theorems assume that the minimiser stays in its box and returns a point that is no worse than its starting point, and that the objective is defined and bounded below on the box (met by the data of C85_witness). The reported sig and varb are those of the lambdas of the pass before (C85_result). If the single-equation objectives add up to less than epsilon the constructor raises because no pass was made (C85_unbound). Not claimed: likrlambda and the LR test of SURerrorML being non-negative.
C86 | proved | For every W, lambdas and positive definite Sigma with I - lambda_r W invertible; derivatives are limits of difference quotients entry by entry (MxDerivSpec.mx_deriv). Existence of the inverse under the stated condition, which symmetric weights that are not a multiple of the identity meet (C86_symmetric). p-values are not modelled.
C87 | partial | Het estimators: exact for every zero-diagonal W (C87_vm_error_het, C87_vm_endog_het), positive semidefinite. Hom estimators: exact with endogenous variables when the filtered residuals sum to zero (C87_vm_endog_hom). False for GM_Error_Hom: get_omega_hom_ols multiplies the third moment by the unfiltered regressors (psiDL uses reg.x, everything else the filtered x_s), so vm is the covariance matrix plus the error E of C87_vm_error_hom and can fail to be positive semidefinite (C87_hom_refuted: a negative variance for a combination of the estimates, row-standardised W, |lambda| < 1); right when lambda = 0 or the residuals have no skewness (C87_vm_error_hom_partial). Missing: residuals that do not sum to zero in the hom case with endogenous variables; inv_method other than the default and filt=False; lambda and G are arguments.
C88 | proved | scipy's pearsonr is written from its documentation (exact arithmetic, constant input gives nan); tail functions of the p-values are arguments. C88_t_units: non-robust OLS. Outside the unit interval for rho the reported prediction is zero and pr2_spatial is nan (C88_spatial_out_of_bounds).
C89 | partial | True: range, stopping rule in terms of the band the code computes, units, window (C89_result, C89_units, C89_window). False: the trend is not Mojena's. The slope formula is applied to values from position w - 1 on, not to the window, so that at the first comparison 3/w times the last SSR is added to the mean (C89_first); the one time it is the least squares line of the window, the band is its value one step before the window instead of one step after (C89_backcast); hence adding a constant to all SSR changes the answer (C89_shift_refuted) and SSR falling along a straight line count as significant drops (C89_mojena_refuted). A window larger than the list is returned as the number of regimes (C89_window).
C90 | partial | True: the variables, endogenous variables and instruments of every equation (C90_equation), one name per column and their form (C90_names). False: names given for endogenous variables and instruments are never used (C90_given_names_ignored); the caller's bigyend and bigq are overwritten with the lag of y and the lagged instruments (C90_arguments, C90_arguments_changed_refuted), so a second call with the same dictionaries meets the lag of y twice and the estimation raises (C90_second_call, C90_second_call_q); a lag order of 0 raises only after bigyend has been changed (C90_failed_call). Not modelled: regimes, dictionaries built from data frames.
C91 | partial | True without SLX terms (C91_noslx_partial: accepted, variables, flags, last estimate, truthful names) and with one SLX order of all of at most three variables without further endogenous variables (C91_slx_one_partial). False: with SLX terms every explicit cols2regi list raises (C91_slx_flags_refuted); slx_vars='all', the default, raises with four or more variables because the names are zipped with the three letters of 'all' (C91_slx_all_refuted); two or more SLX orders of selected variables raise (C91_slx_mask_refuted); with a selection, more orders or endogenous variables instruments are reported under the name of another lag order (C91_instrument_names_refuted). Not modelled: regime_lag_sep=True, HAC switches, minimum numbers of observations.
C92 | proved | C92_single: one equation, any order of the identifiers; C92_single_iff: the summary exists exactly when names and coefficients agree in number and there are not more statistics; C92_multi: one model per regime. Regimes are ordered as text, so "10" precedes "2" (C92_regime_text_order). Not modelled: number formats, LaTeX variant.
C93 | partial | True for every class but ML_Error_Regimes, one equation (C93_table, order: C93_order), for one model per regime when lambda has inference or there is none (C93_multi), and for ML_Error_Regimes when everything varies (C93_ml_error_all). False: ML_Error_Regimes keeps the flag of the constant in reg.cols2regi, so that when something does not vary the tests carry the name of another variable (C93_ml_error_shift_refuted, C93_ml_error_one_wrong_refuted), or an IndexError is swallowed and no table is printed (C93_ml_error_no_table_refuted); GM_Error_Regimes, GM_Endog_Error_Regimes and GM_Combo_Regimes with regime_err_sep show a row lambda without a test (C93_multi_lambda_refuted).
C94 | partial | Types: right for ML_Lag, GM_Lag (C94_ml_single, C94_gm_single), for ML_Lag_Regimes with any flags and any selection of lagged variables (C94_ml_types), for GM_Lag_Regimes without SLX terms (C94_gm_types_noslx) and with them exactly when (n-1)/(lags+1), n the number of coefficients per regime, is the number of lagged variables (C94_gm_types_iff): always with all variables lagged and a constant per regime (C94_gm_types_many), never with constant_regi='one' or without a constant (C94_gm_types_one_refuted). One model per regime: accepted exactly when lags+1 divides the number of columns of x and its lags, right exactly when every variable is lagged (C94_ml_multi_accepts_iff, C94_ml_multi_iff, C94_gm_multi_accepts_iff, C94_gm_multi_iff); otherwise an error or the wrong variables are compared (C94_multi_wrong_refuted). Common factor test: right without regimes (C94_comfac_single; none with a selection, more orders or endogenous variables, C94_comfac_single_mask, C94_comfac_scope) and in regimes when all variables are lagged and vary (C94_comfac_partial); with regimes the summary of ML_Lag_Regimes raises a ValueError exactly when numbers of coefficients differ (C94_ml_comfac_raises_iff), so for every selection of lagged variables (C94_ml_comfac_mask_raises) and every fixed variable (C94_ml_comfac_fixed_raises), and otherwise can compare different variables (C94_wrong_pairs_refuted). Not modelled: the test statistic (C63), regimes whose name is _Global.
C95 | partial | The class that runs is right (C95_class, C95_gmm_class, C95_gmm_regimes_class); every argument reaches it (C95_forwarded, C95_gmm_forwarded, C95_gmm_regimes_forwarded) with these exceptions: with regimes slx_vars never does, in none of the six classes (C95_slx_vars_refuted, C95_gmm_lost_refuted, C95_no_effect), nor hard_bound in GMM_Error, nor regime_lag_sep without add_wy (C95_gmm_regime_lag_sep_refuted); vif of OLS and nonspat_diag of TSLS have no effect with regimes (C95_missing_iff, C95_no_effect); an unknown estimator drops slx_vars and every further keyword (C95_gmm_unknown_estimator). Defaults are those of the class called (C95_defaults), so that GM_Lag(regimes=r) and GM_Lag_Regimes(r) differ in robust (C95_gm_lag_robust_refuted). Calls accepted: C95_accept_iff; a misspelled keyword is ignored without regimes, and by OLS always (C95_unknown_ignored). Simplified: arguments by keyword; signatures transcribed.
C96 | partial | Automatic number (C96_auto, C96_choice) and given number (C96_given, C96_given_number) of regimes, whenever the class returns; on a connected map it returns exactly when the search ran and made two attempts at a cut (C96_runs_iff), and the largest number searched for is never used (C96_never_all), so that room for exactly two regimes always ends in an exception (C96_two_refuted); trace=False with n_clusters always raises (C96_trace_refuted). Too little room: C96_no_room; n_clusters=0 is None (C96_zero_is_none); enough observations: C96_enough, C96_default_quorum; switches: C96_arguments_ignored. Names: C96_names_partial; missing: GM_Lag_Endog_Regimes with named variables one of which is constant raises IndexError (C96_names_refuted). The regression is the oracle of C39, the spanning forest is a premise, 0.70 n is exact.
C97 | partial | What is compared and when it is nan: C97_value; it never makes PanelRE fail: C97_runs; units of y and a combination of the regressors added to y: C97_units, C97_shift. The two covariance matrices rest on different variance estimates, sigma2_epsilon and sig2: the statistic is non-negative, and zero exactly when the slopes agree, when sig2 <= sigma2_epsilon (C97_nonneg_partial), and always defined when sig2 < sigma2_epsilon (C97_defined_partial; C97_witness); otherwise it can be negative with a p-value of 1 although the slopes differ (C97_negative_refuted). Premises: a column below the threshold of variation does not vary at all; for C97_units the solver of the between regression commutes with a factor, for C97_shift the between regression has full rank. The chi-squared distribution is a parameter.
C98 | partial | the joint regression with the kernel for robust='hac', the warning, when regressions are split, unreachability of hac_multi, and what it would report, proved; refuted for other spellings of 'hac' (White's matrix of split regressions under the label 'HAC') and for White requests with a kernel given (the kernel's); 'ogmm' is accepted by OLS_Regimes and answered with White's matrix, as are other spellings of it in all three classes
