{"id": "C01", "title": "One name per regressor column", "statement": "For every regressor matrix, set_name_x/set_name_yend/set_name_q return exactly one name per column of the matrix the estimator uses (constant first when asked for) when no names are given or when the user gave one per column; user-supplied names are kept verbatim and in order, and generated default names are pairwise distinct.", "quantifier": "every number of columns, every user name list, constant flag on or off", "why_tests_cant": "column counts and name lists are unbounded; a test fixes a few datasets", "anchors": ["spreg/user_output.py:set_name_x", "spreg/user_output.py:set_name_yend", "spreg/user_output.py:set_name_q"]}
{"id": "C02", "title": "SLX names describe the columns they label", "statement": "After asking for SLX terms (flex_wx), the j-th returned name names the j-th returned column: name 'Wm_v' sits on the column W^m v, for every lag order, variable mask and instrument-lag order.", "quantifier": "every x, W, name list, slx_vars mask, slx_lags>=1 and q_lags>=0", "why_tests_cant": "the alignment must hold for every mask and order; a wrong order is invisible in numeric regression tests because estimates do not depend on names", "anchors": ["spreg/user_output.py:flex_wx", "spreg/user_output.py:set_name_spatial_lags", "spreg/utils.py:get_lags", "spreg/utils.py:get_lags_split"]}
{"id": "C03", "title": "Spatial instrument names are complete and unambiguous", "statement": "set_name_q_sp returns w_lags names per instrument variable in lag-major order; for distinct variable names that are not themselves 'W_...' the name of the m-th lag of v is W_v / Wm_v and no two are equal.", "quantifier": "every name list, w_lags and lag_q setting", "why_tests_cant": "quantifies over all name lists, including adversarial prefixes", "anchors": ["spreg/user_output.py:set_name_q_sp"]}
{"id": "C04", "title": "Input arrays are accepted exactly when they are rectangular, finite and conformable", "statement": "check_arrays returns n iff at least one array is given, every given array is an ndarray/csr of at most 2 dimensions, has no more columns than rows, has no NaN/inf and all have n rows; otherwise it raises; None arguments are ignored.", "quantifier": "every finite list of optional arrays", "why_tests_cant": "the accept/reject boundary has to hold for each argument list, not for sampled shapes", "anchors": ["spreg/user_output.py:check_arrays"]}
{"id": "C05", "title": "Constant columns are removed together with their names, and one intercept is added", "statement": "check_constant removes exactly the columns that take a single value, keeps the remaining columns and names in the original order and aligned, never mutates the caller's name list, and prepends one column of ones unless just_rem.", "quantifier": "every matrix x and name list", "why_tests_cant": "positions of constant columns are arbitrary", "anchors": ["spreg/user_output.py:check_constant"]}
{"id": "C06", "title": "Robust and diagnostic options are validated consistently", "statement": "check_robust accepts exactly None/'white'/'ogmm'/'hac' (any letter case), and 'hac' only with a kernel W with unit diagonal and entries in [0,1]; whenever HAC is accepted, spatial diagnostics are switched off.", "quantifier": "every robust string, kernel weights and spat_diag flag", "why_tests_cant": "case variants and weight tables are unbounded", "anchors": ["spreg/user_output.py:check_robust", "spreg/user_output.py:check_spat_diag"]}
{"id": "C07", "title": "Regime design matrix places every observation in its own regime's block", "statement": "In the matrix built for a regimes model, row i holds the regime-varying variables of observation i in the columns of i's regime and zero in all other regimes' columns, and the global variables unchanged after them; X_reg * (stacked betas) equals x_i * beta_{regime(i)} + x_glob,i * beta_glob for each i.", "quantifier": "every x, regime list, mask cols2regi", "why_tests_cant": "block placement is an index calculation over arbitrary k, number of regimes and masks", "anchors": ["spreg/regimes.py:x2xsp", "spreg/regimes.py:regimeX_setup", "spreg/regimes.py:Regimes_Frame"]}
{"id": "C08", "title": "Regime coefficient names match the columns", "statement": "The name list returned for a regimes model has as many entries as the regime design matrix has columns and entry j carries the regime tag and variable name whose data is in column j.", "quantifier": "every name list, regime set and cols2regi mask", "why_tests_cant": "index alignment over unbounded k and number of regimes", "anchors": ["spreg/regimes.py:set_name_x_regimes", "spreg/regimes.py:regimeX_setup"]}
{"id": "C09", "title": "Chow test compares the same variable across regimes", "statement": "For each regime-varying coefficient j, the restriction matrix built for the Chow test annihilates beta exactly when coefficient j is equal in all regimes, never touches other coefficients, and the joint restriction is the conjunction over all regime-varying coefficients.", "quantifier": "every number of regimes, of varying and of global coefficients, and every coefficient vector", "why_tests_cant": "an off-by-one in column placement gives plausible but wrong test values", "anchors": ["spreg/regimes.py:buildR1var", "spreg/regimes.py:buildR", "spreg/regimes.py:_chow_run", "spreg/regimes.py:Chow"]}
{"id": "C10", "title": "Wald statistic is a genuine test statistic", "statement": "wald_test(betas, R, q, vm) is zero when R betas = q, is non-negative for positive-definite vm and independent rows, positive when R betas <> q, and unchanged when (R,q) is replaced by (A R, A q) for invertible A.", "quantifier": "every beta, R, q and vm (exact arithmetic)", "why_tests_cant": "algebraic law over all matrices", "anchors": ["spreg/regimes.py:wald_test", "spreg/regimes.py:Wald"]}
{"id": "C11", "title": "cols2regi and constant_regi options are normalised correctly", "statement": "check_cols2regi returns one boolean per column of [constant, x, yend]; 'all' makes every variable regime-varying; constant_regi 'many'/'one' decide only the constant; wrong lengths raise.", "quantifier": "every option value and number of columns", "why_tests_cant": "option space x dimension", "anchors": ["spreg/regimes.py:check_cols2regi", "spreg/user_output.py:check_regi_args"]}
{"id": "C12", "title": "Regime weights keep within-regime links only", "statement": "The weights for regime r built by w_regime/w_regimes contain exactly the links of w between members of r, relabelled by position in r's id list; every link has equal weight before the transformation of w is applied to the subset (the original values are not kept), and the union of the regime weights has exactly the links of w that do not cross regimes.", "quantifier": "every W, regime assignment", "why_tests_cant": "over all graphs", "anchors": ["spreg/regimes.py:w_regime", "spreg/regimes.py:w_regimes"]}
{"id": "C13", "title": "Per-regime estimation writes each result to its own slot", "statement": "With regime_err_sep the combined object's betas and vm are the regime results in regimes_set order (vm block diagonal), and u[i], predy[i] are those of the regime regression of observation i, for every observation; nothing is left unwritten.", "quantifier": "every regime assignment, number of regimes and regime results", "why_tests_cant": "scatter/gather over arbitrary partitions and completion orders", "anchors": ["spreg/ols_regimes.py:_ols_regimes_multi", "spreg/ml_error_regimes.py:_error_regimes_multi", "spreg/twosls_regimes.py:_tsls_regimes_multi"]}
{"id": "C14", "title": "OLS solves the least-squares problem", "statement": "Whenever x'x is invertible, BaseOLS betas satisfy the normal equations, residuals are orthogonal to every regressor, y = predy + u, and no other coefficient vector attains as small a sum of squared residuals; if x'x is singular construction fails.", "quantifier": "every y, x (exact arithmetic)", "why_tests_cant": "a universally quantified optimality claim", "anchors": ["spreg/ols.py:BaseOLS"]}
{"id": "C15", "title": "OLS is equivariant and its covariance is consistent", "statement": "Rescaling or recombining regressors (x -> xA, A invertible) leaves predy, u, sig2 unchanged and maps betas to A^-1 betas and vm to A^-1 vm A^-T; y -> y + xc shifts betas by c; vm is symmetric with vm = sig2 (x'x)^-1.", "quantifier": "every y, x, invertible A, shift c", "why_tests_cant": "algebraic laws over all inputs", "anchors": ["spreg/ols.py:BaseOLS", "spreg/utils.py:RegressionPropsVM"]}
{"id": "C16", "title": "Fully regime-varying pooled OLS equals separate OLS per regime", "statement": "OLS on the regime design matrix with all coefficients varying yields, block by block, the coefficients OLS would give on each regime's rows alone, and the same residuals.", "quantifier": "every y, x, two-way (hence, by induction, any) row partition", "why_tests_cant": "equivalence over all data and partitions", "anchors": ["spreg/ols_regimes.py:OLS_Regimes", "spreg/regimes.py:x2xsp"]}
{"id": "C17", "title": "Weighted least squares is OLS on transformed data", "statement": "The weighted regimes estimator (regimes-specific variances) has coefficients that solve X'W^2X b = X'W^2 y, where each row is divided by its regime's standard error; with all weights equal it equals plain OLS.", "quantifier": "every y, x, positive weights", "why_tests_cant": "algebra over all inputs", "anchors": ["spreg/regimes.py:_get_weighted_var", "spreg/ols.py:BaseWLS"]}
{"id": "C18", "title": "Robust covariance matrices are well formed and consistent with each other", "statement": "The White and HAC middle matrices are symmetric for symmetric kernels, White is positive semidefinite, HAC with identity kernel equals White without degrees-of-freedom correction, and robust='white' yields White whatever other weights are supplied.", "quantifier": "every x, u, kernel", "why_tests_cant": "holds for all residual patterns", "anchors": ["spreg/robust.py:robust_vm", "spreg/robust.py:get_omega", "spreg/ols.py:BaseOLS"]}
{"id": "C19", "title": "2SLS satisfies its moment conditions", "statement": "BaseTSLS betas make the first-stage-projected regressors orthogonal to u; with as many instruments as endogenous variables the instruments themselves are orthogonal to u (IV estimator); with yend instrumented by itself 2SLS equals OLS; passing both or neither of q and h raises.", "quantifier": "every y, x, yend, q, h (exact arithmetic)", "why_tests_cant": "algebraic law over all inputs", "anchors": ["spreg/twosls.py:BaseTSLS"]}
{"id": "C20", "title": "Spatial lag construction", "statement": "get_lags(w,x,p) returns the blocks W x, W^2 x, ..., W^p x in order, and get_lags_split(w,x,max,split) returns a pair whose concatenation is get_lags(w,x,max) with the first part holding the first split lags; out-of-range split raises.", "quantifier": "every W, x, p, split", "why_tests_cant": "unbounded lag order", "anchors": ["spreg/utils.py:get_lags", "spreg/utils.py:get_lags_split"]}
{"id": "C21", "title": "Dense and sparse spatial-lag instrument builders agree", "statement": "set_endog_sparse builds the same endogenous variables and instruments as set_endog for every lag order and lag_q setting.", "quantifier": "every W, x, yend, q, w_lags>=1, lag_q", "why_tests_cant": "the builders must agree for every lag order; tests use w_lags 1 or 2", "anchors": ["spreg/utils.py:set_endog", "spreg/utils.py:set_endog_sparse"]}
{"id": "C22", "title": "Power expansion computes a truncated inverse with a known residual", "statement": "inverse_prod(power_exp) returns s with (I - rho W) s = v - (rho W)^(m+1) v for the number m of loop passes; it stops within max_iterations passes, never returns after a pass in which the increment norm grew, and at exit either the increment norm is below the threshold or max_iterations was reached.", "quantifier": "every W, v, rho, threshold, iteration limit", "why_tests_cant": "loop invariant over unbounded iterations", "anchors": ["spreg/utils.py:inverse_prod", "spreg/utils.py:power_expansion"]}
{"id": "C23", "title": "Reduced-form prediction of spatial lag models", "statement": "sp_att returns predictions that solve (I - rho W) predy_e = x b up to the truncated term of the power expansion when |rho| < 1, reports zero predictions and zero errors with a warning when |rho| >= 1 and raises instead when hard_bound is set; for |rho| < 1 prediction error plus prediction is y.", "quantifier": "every W, y, x b, rho, hard_bound", "why_tests_cant": "boundary at |rho|=1 and all matrices", "anchors": ["spreg/utils.py:sp_att"]}
{"id": "C24", "title": "Spatial filter", "statement": "get_spFilter(w,lam,x) = (I - lam W) x; it is linear in x, the identity at lam = 0, and acts period by period on stacked panel data.", "quantifier": "every W, lam, x, number of periods", "why_tests_cant": "all matrices and period counts", "anchors": ["spreg/utils.py:get_spFilter"]}
{"id": "C25", "title": "Filtering a regimes model", "statement": "In regimes spatial error models the filtered regressor matrix used for the second step equals (I - lam W) times the regime design matrix, so that the second-step residual equals the reported e_filtered.", "quantifier": "every W, lam, x, regime assignment", "why_tests_cant": "depends on whether any link crosses regimes", "anchors": ["spreg/error_sp_regimes.py:GM_Error_Regimes", "spreg/ml_error.py:get_x_lag", "spreg/regimes.py:Regimes_Frame"]}
{"id": "C26", "title": "GM moment equations", "statement": "The Kelejian-Prucha moment system returned by _momentsGM_Error(w,u) satisfies, for every lambda and sigma2, g - G [lambda, lambda^2, sigma2]' = 1/n ( e'e - n sigma2, (We)'(We) - tr(W'W) sigma2, e'We ) with e = u - lambda W u.", "quantifier": "every W, u, lambda, sigma2", "why_tests_cant": "polynomial identity over all data", "anchors": ["spreg/error_sp.py:_momentsGM_Error"]}
{"id": "C27", "title": "Heteroskedastic/homoskedastic moment weights", "statement": "get_A1_het is symmetric-free of diagonal: diag(A1)=0; get_A1_hom (unscaled) has zero trace; moments built from A1, A2 (_moments2eqs) satisfy g - G [lam, lam^2]' = 1/n (e'A1e, e'A2e) for e = u - lam W u.", "quantifier": "every W, u, lam", "why_tests_cant": "polynomial identity over all data", "anchors": ["spreg/utils.py:get_A1_het", "spreg/utils.py:get_A1_hom", "spreg/utils.py:get_A2_hom", "spreg/utils.py:_moments2eqs"]}
{"id": "C28", "title": "Reported HET/HOM estimates are the estimated ones", "statement": "The coefficients reported by the heteroskedastic-robust endogenous-error estimators are the 2SLS coefficients of the filtered model; only a spatial-lag coefficient may be range-restricted, and a hard_bound request detects out-of-range estimates.", "quantifier": "every estimate produced by the 2SLS step", "why_tests_cant": "the clamp is only visible for large coefficients", "anchors": ["spreg/error_sp_het.py:BaseGM_Endog_Error_Het", "spreg/error_sp_het.py:GM_Endog_Error_Het"]}
{"id": "C29", "title": "ML spatial lag: concentrated estimates solve the full problem", "statement": "For every rho, betas b0 - rho b1 and residual e0 - rho e1 are the OLS coefficients and residual of y - rho W y on x, hence minimise the sum of squares of (I - rho W) y - x b.", "quantifier": "every y, x, W, rho", "why_tests_cant": "algebra over all inputs", "anchors": ["spreg/ml_lag.py:BaseML_Lag"]}
{"id": "C30", "title": "ML Jacobian methods agree", "statement": "method 'full', 'ord' and 'LU' use the same Jacobian term: |det(I - rho W)| = |prod(1 - rho eigenvalue_i)| = |prod diag(U)|; symmetrising the weights (ord with symmetric contiguity) does not change it, and does not change the reported covariance matrix.", "quantifier": "every W with zero diagonal, rho", "why_tests_cant": "for all weights", "anchors": ["spreg/ml_lag.py:lag_c_loglik", "spreg/ml_lag.py:lag_c_loglik_ord", "spreg/ml_lag.py:lag_c_loglik_sp", "spreg/w_utils.py:symmetrize", "spreg/ml_error.py:BaseML_Error"]}
{"id": "C31", "title": "LM test decompositions", "statement": "For every OLS fit: SARMA = LM-lag + robust LM-error = LM-error + robust LM-lag, and the joint spatial Durbin tests decompose as LM-SpDurbin = LM-lag + robust LM-WX = LM-WX + robust LM-lag(SDM).", "quantifier": "every residual vector, W, x for which the statistics are defined", "why_tests_cant": "algebraic identity over all data", "anchors": ["spreg/diagnostics_sp.py:lmSarma", "spreg/diagnostics_sp.py:lmErr", "spreg/diagnostics_sp.py:lmLag", "spreg/diagnostics_sp.py:rlmErr", "spreg/diagnostics_sp.py:rlmLag", "spreg/diagnostics_sp.py:lm_spdurbin"]}
{"id": "C32", "title": "LMtests returns what was asked for and memoises safely", "statement": "LMtests computes every requested test and no stale cached quantity: after any sequence of accesses each cached attribute equals its defining expression.", "quantifier": "every list of test names and access order", "why_tests_cant": "access histories", "anchors": ["spreg/diagnostics_sp.py:LMtests", "spreg/diagnostics_sp.py:spDcache"]}
{"id": "C33", "title": "Goodness of fit measures stay in range", "statement": "With a constant among the regressors, total SS = explained SS + residual SS, 0 <= r2 <= 1, and ar2 <= r2; the F statistic equals (r2/(k-1))/((1-r2)/(n-k)).", "quantifier": "every y, x with constant (y not constant)", "why_tests_cant": "inequalities over all data", "anchors": ["spreg/diagnostics.py:r2", "spreg/diagnostics.py:ar2", "spreg/diagnostics.py:f_stat"]}
{"id": "C34", "title": "Information criteria and likelihood ratio are coherent", "statement": "akaike/schwarz computed from the OLS fit equal 2k - 2 logll and k log n - 2 logll; likratiotest is symmetric in its two models up to sign handling, is non-negative and has at least one degree of freedom.", "quantifier": "every fit", "why_tests_cant": "identities over all data", "anchors": ["spreg/diagnostics.py:akaike", "spreg/diagnostics.py:schwarz", "spreg/diagnostics.py:log_likelihood", "spreg/diagnostics.py:likratiotest"]}
{"id": "C35", "title": "Classic forward specification search follows its decision tree", "statement": "stge_classic selects OLS iff no LM test is significant; otherwise LAG/ERROR/SARSAR according to the documented comparison of LM and robust LM p-values; the returned label always names the model that was estimated.", "quantifier": "every vector of p-values and threshold", "why_tests_cant": "the decision table has to be right in each corner including ties and NaN", "anchors": ["spreg/spsearch.py:stge_classic"]}
{"id": "C36", "title": "Koley-Bera forward search follows its decision tree", "statement": "stge_kb returns the label of the estimated model, in {OLS, LAG, SLX, SDM...}, per the documented rule for every combination of p-values, including ties with the threshold.", "quantifier": "every vector of p-values and threshold", "why_tests_cant": "all corners", "anchors": ["spreg/spsearch.py:stge_kb"]}
{"id": "C37", "title": "Pre-test forward search label matches the model", "statement": "stge_pre's returned label names the estimated model for every combination of test outcomes.", "quantifier": "every vector of p-values, AIC-free decision inputs and threshold", "why_tests_cant": "all corners", "anchors": ["spreg/spsearch.py:stge_pre"]}
{"id": "C38", "title": "General-to-specific searches label the model they return", "statement": "gets_gns and gets_sdm return a label and an estimated model that agree for every pattern of significant coefficients.", "quantifier": "every significance pattern", "why_tests_cant": "all corners", "anchors": ["spreg/spsearch.py:gets_gns", "spreg/spsearch.py:gets_sdm"]}
{"id": "C39", "title": "Skater keeps every cluster legal and labels total", "statement": "After any number of cuts in Skater_reg.fit every cluster has at least quorum members, clusters partition the observations, the number of clusters grows by exactly one per accepted cut, and the labels always reflect the last accepted cut.", "quantifier": "every tree, scores, quorum, number of clusters", "why_tests_cant": "unbounded sequences of cuts", "anchors": ["spreg/skater_reg.py:fit", "spreg/skater_reg.py:find_cut", "spreg/skater_reg.py:score_spreg"]}
{"id": "C40", "title": "Wide panels become long panels without mixing cells", "statement": "check_panel maps cell (unit i, period t, variable v) of a wide-format panel to row t*n+i, column v of the long panel, for x and y alike, names each variable by its digit-free name, leaves long panels untouched, and rejects row counts that are not multiples of n.", "quantifier": "every n, T, k and data", "why_tests_cant": "index arithmetic over unbounded sizes", "anchors": ["spreg/panel_utils.py:check_panel", "spreg/panel_utils.py:prepare_panel"]}
{"id": "C41", "title": "Within transformation", "statement": "demean_panel with phi=0 subtracts each unit's own time mean (so unit means become zero, the operation is idempotent and time-invariant regressors vanish) and with phi=1 is the identity; it commutes with the period-wise spatial lag.", "quantifier": "every n, t, data, W", "why_tests_cant": "all sizes", "anchors": ["spreg/panel_utils.py:demean_panel"]}
{"id": "C42", "title": "Fixed effects coefficients are the LSDV coefficients", "statement": "PanelFE's slope coefficients solve the least squares problem with one dummy per unit, and the reported fixed effects are the corresponding dummy coefficients.", "quantifier": "every panel", "why_tests_cant": "Frisch-Waugh-Lovell over all data", "anchors": ["spreg/panel.py:PanelFE"]}
{"id": "C43", "title": "Panel LM tests decompose", "statement": "panel_LMlag + panel_rLMerror = panel_LMerror + panel_rLMlag for every panel.", "quantifier": "every panel", "why_tests_cant": "algebraic identity", "anchors": ["spreg/diagnostics_panel.py:panel_LMlag", "spreg/diagnostics_panel.py:panel_rLMerror"]}
{"id": "C44", "title": "BSK tests return exactly the requested tests", "statement": "BSK_tests(which) returns one row per requested test, for every subset, and the joint test statistic is the sum of squares of the positive marginal statistics.", "quantifier": "every subset of test names and every marginal statistic", "why_tests_cant": "subsets x orders", "anchors": ["spreg/diagnostics_panel.py:BSK_tests"]}
{"id": "C45", "title": "SUR stacking round trip", "statement": "sur_mat2dict and sur_dict2mat are mutually inverse, sur_resids/sur_predict satisfy y = predicted + residual per equation, and sur_corr has unit diagonal and is symmetric.", "quantifier": "every number of equations and sizes", "why_tests_cant": "unbounded dictionaries", "anchors": ["spreg/sur_utils.py:sur_mat2dict", "spreg/sur_utils.py:sur_dict2mat", "spreg/sur_utils.py:sur_resids", "spreg/sur_utils.py:sur_corr"]}
{"id": "C46", "title": "SUR reduces to OLS in the textbook cases", "statement": "The SUR coefficients equal equation-by-equation OLS when Sigma is diagonal and when all equations share the same regressors.", "quantifier": "every data set of two (or more) equations", "why_tests_cant": "algebra over all data", "anchors": ["spreg/sur_utils.py:sur_est", "spreg/sur.py:BaseSUR"]}
{"id": "C47", "title": "Iteration limits are honoured and reported", "statement": "Iterative estimators run at most the requested maximum number of iterations, report the number actually run, and claim convergence only if the criterion is met.", "quantifier": "every sequence of parameter values and limit", "why_tests_cant": "unbounded iteration histories", "anchors": ["spreg/sur.py:BaseSUR", "spreg/error_sp_het.py:BaseGM_Error_Het", "spreg/utils.py:iter_msg", "spreg/probit.py:newton"]}
{"id": "C48", "title": "Generated data satisfy the structural equation", "statement": "With the true inverse, dgp_lag/dgp_sperror/dgp_spdurbin/dgp_lagerr/dgp_gns return y with y = rho W y + x b + W x g + u for the model's own error process.", "quantifier": "every W, rho, lambda, x, errors", "why_tests_cant": "algebra over all inputs", "anchors": ["spreg/dgp.py:dgp_lag", "spreg/dgp.py:dgp_sperror", "spreg/dgp.py:dgp_spdurbin", "spreg/dgp.py:dgp_gns", "spreg/dgp.py:dgp_errproc"]}
{"id": "C49", "title": "Data generation rejects non-conformable inputs", "statement": "Every dgp function returns None (after printing an error) when the number of rows of its inputs disagrees or disagrees with the weights, and data otherwise.", "quantifier": "every combination of sizes", "why_tests_cant": "all size combinations", "anchors": ["spreg/dgp.py:dgp_ols", "spreg/dgp.py:dgp_spdurbin", "spreg/dgp.py:dgp_gns"]}
{"id": "C50", "title": "Spatial multipliers add up", "statement": "For every supported method spmultiplier returns ati = adi + aii; total impacts equal direct plus indirect; 'full' gives adi = trace((I-rho W)^-1)/n; 'power' approximates the same quantity to the tolerance.", "quantifier": "every W, rho, method", "why_tests_cant": "series over unbounded powers", "anchors": ["spreg/sputils.py:spmultiplier", "spreg/sputils.py:_sp_effects"]}
{"id": "C51", "title": "Lazily cached regression properties never go stale", "statement": "utu, sig2n, sig2n_k, vm, mean_y, std_y are computed from the current fit at first access, later accesses return the same value, and an explicit assignment overrides the computed value.", "quantifier": "every interleaving of reads and writes", "why_tests_cant": "access histories", "anchors": ["spreg/utils.py:RegressionPropsY", "spreg/utils.py:RegressionPropsVM"]}
{"id": "C52", "title": "Probit prediction table is a partition", "statement": "For 0/1 responses: truepos+falseneg = actual positives, trueneg+falsepos = actual negatives, truepos+falsepos = predicted positives, the four cells add to n and the reported hit rate is between 0 and 100.", "quantifier": "every response and prediction vector", "why_tests_cant": "all vectors", "anchors": ["spreg/diagnostics_probit.py:pred_table", "spreg/diagnostics_probit.py:probit_fit"]}
{"id": "C53", "title": "NSLX gradient is the derivative of its transformation", "statement": "The gradient used for the NSLX variance equals the derivative with respect to alpha of the transformed weight, for the power and the exponential transformation.", "quantifier": "every distance>0 and alpha>0", "why_tests_cant": "real analysis", "anchors": ["spreg/nslx.py:_nltransform"]}
{"id": "C54", "title": "SUR spatial lag LM statistic decouples", "statement": "When Sigma is diagonal the score used by surLMlag for equation j only involves equation j, as in surLMe.", "quantifier": "every residual cross product and Sigma", "why_tests_cant": "algebra over all data", "anchors": ["spreg/diagnostics_sur.py:surLMlag", "spreg/diagnostics_sur.py:surLMe"]}
{"id": "C55", "title": "Regime identifiers are preserved", "statement": "_get_regimes_set returns the distinct regime identifiers in sorted order, and every observation belongs to one of them.", "quantifier": "every regimes list", "why_tests_cant": "identifier types/values unbounded", "anchors": ["spreg/regimes.py:_get_regimes_set"]}
{"id": "C56", "title": "Spatial 2SLS reports truthful instrument names", "statement": "In GM_Lag / GM_Combo the j-th reported instrument name describes the j-th instrument column: the label of order m of v sits on W^m v, with and without SLX terms, extra endogenous variables, slx_vars masks and lag_q.", "quantifier": "every x, yend, q, W, names, w_lags, slx_lags, slx_vars, lag_q", "why_tests_cant": "alignment over all option combinations; estimates do not depend on names", "anchors": ["spreg/twosls_sp.py:GM_Lag", "spreg/twosls_sp.py:BaseGM_Lag", "spreg/utils.py:set_endog", "spreg/user_output.py:set_name_q_sp"]}
{"id": "C57", "title": "y, weights and regimes are accepted exactly when usable", "statement": "check_y accepts y exactly when it is numeric, finite and has n rows in one column (reshaping a 1-d vector); check_weights accepts w exactly when it is n x n with zero diagonal and not a kernel (kernels only for first-order SLX where allowed, with the diagonal zeroed); check_reg_list/check_regimes accept a regime list exactly when it has n entries, at least two regimes and N/regimes >= K+1; check_regi_args warns exactly off the supported combination.", "quantifier": "every shape, dtype, weights object, option value", "why_tests_cant": "accept/reject boundary", "anchors": ["spreg/user_output.py:check_y", "spreg/user_output.py:check_weights", "spreg/user_output.py:check_reg_list", "spreg/user_output.py:check_regimes", "spreg/user_output.py:check_regi_args"]}
{"id": "C58", "title": "Objective of the GM optimisation", "statement": "optim_moments minimises, up to a positive factor that does not depend on the parameters, the squared length of g - G p (or its quadratic form in the inverse of vcX), so the preferred parameters are those of the unscaled moments; the scale is non-zero for the GM error moments unless the residuals have no spatial lag.", "quantifier": "every moment system, weight matrix and parameter vector", "why_tests_cant": "all moment systems", "anchors": ["spreg/utils.py:optim_moments", "spreg/utils.py:foptim_par"]}
{"id": "C59", "title": "Two-step GM error estimation", "statement": "GM_Error reports y = predy + u, e_filtered = (I - lambda W) u, sig2 = e_filtered'e_filtered/n, e_filtered orthogonal to (I - lambda W) x, the slopes minimise its sum of squares at the reported lambda, and vm is sig2 ((I-lambda W)x)'((I-lambda W)x) inverse.", "quantifier": "every y, x, W and every result of the optimiser", "why_tests_cant": "all data and all optimiser results", "anchors": ["spreg/error_sp.py:BaseGM_Error", "spreg/utils.py:get_spFilter"]}
{"id": "C60", "title": "ML covariance matrices are positive definite", "statement": "The information matrix built by ML_Lag and ML_Error is positive semi-definite; it is invertible exactly when (error model) / whenever (lag model, x of full column rank) the symmetric part of W(I - rho W)^-1 is not a multiple of the identity; every covariance matrix reported by a returning fit with a non-zero residual is symmetric positive definite, so every reported variance is positive.", "quantifier": "every y, x, W, rho", "why_tests_cant": "all data", "anchors": ["spreg/ml_lag.py:BaseML_Lag", "spreg/ml_error.py:BaseML_Error"]}
{"id": "C61", "title": "Moran's I moments and the Anselin-Kelejian test", "statement": "For OLS residuals and weights with zero diagonal the expectation and variance used for Moran's I are n/s0 tr(MW)/(n-k) and the Cliff-Ord variance in the annihilator M of x, and the variance is never negative; the AK statistic is (u'Wu/s2)^2 / (tr(WW+W'W) + 4/s2 u'WZ varb Z'W'u), never negative, and reduces to LM-error when u'WZ = 0.", "quantifier": "every x, residual vector and W", "why_tests_cant": "all data", "anchors": ["spreg/diagnostics_sp.py:MoranRes", "spreg/diagnostics_sp.py:get_vI", "spreg/diagnostics_sp.py:get_eI", "spreg/diagnostics_sp.py:akTest"]}
{"id": "C62", "title": "Hausman statistic is a Wald statistic", "statement": "panel_Hausman returns a non-negative quadratic form of the difference of the fixed and random effects coefficients whenever random effects are efficient (V_FE - V_RE positive definite), and rejects for large differences.", "quantifier": "every pair of fits", "why_tests_cant": "all data", "anchors": ["spreg/diagnostics_panel.py:panel_Hausman"]}
{"id": "C63", "title": "Common factor test", "statement": "comfac_test is the Wald statistic of gamma + rho beta = 0 with the correct gradient of the restriction; with a positive definite vm it is defined, non-negative, and zero exactly when gamma = - rho beta.", "quantifier": "every rho, beta, gamma, vm", "why_tests_cant": "all coefficient values", "anchors": ["spreg/diagnostics_sp.py:comfac_test"]}
{"id": "C64", "title": "Probit maximum likelihood", "statement": "For 0/1 responses the gradient and Hessian of Probit are the first and second derivatives of its log likelihood, which is concave; coefficients with zero gradient maximise it globally; the reported covariance matrix is symmetric positive definite; the quantity compared with the tolerance by Newton's method is the slope along the step, never negative, and zero only at a maximum.", "quantifier": "every 0/1 response vector, design and coefficient vector", "why_tests_cant": "real analysis over all data", "anchors": ["spreg/probit.py:BaseProbit.ll", "spreg/probit.py:BaseProbit.gradient", "spreg/probit.py:BaseProbit.hessian", "spreg/probit.py:newton"]}
{"id": "C65", "title": "Probit likelihood ratio test", "statement": "The null log likelihood of the probit LR test is that of the model with only a constant; at a maximum the statistic is not negative and McFadden's rho is between 0 and 1; the degrees of freedom are the number of restricted slopes.", "quantifier": "every 0/1 response vector with both outcomes and every design with a constant", "why_tests_cant": "all data", "anchors": ["spreg/diagnostics_probit.py:probit_lrtest", "spreg/diagnostics_probit.py:mcfad_rho"]}
{"id": "C66", "title": "Probit partial effects", "statement": "The variance of the average partial effects of Probit is the delta method variance of the effects that are reported, for both choices of scale.", "quantifier": "every design and coefficient vector", "why_tests_cant": "real analysis over all data", "anchors": ["spreg/diagnostics_probit.py:probit_ape"]}
{"id": "C67", "title": "Probit tests for spatial dependence", "statement": "The Pinkse, Pinkse-Slade and Kelejian-Prucha statistics of Probit are the quadratic form of the residuals over the spread computed from the symmetrised weights; they depend only on the symmetric part of W, not on its scale, the first two are never negative, and with equal probabilities the square of the third is the second.", "quantifier": "every W, probabilities, densities and residuals", "why_tests_cant": "all data", "anchors": ["spreg/diagnostics_probit.py:sp_tests", "spreg/diagnostics_probit.py:moran_KP"]}
{"id": "C68", "title": "Nonlinear SLX estimation", "statement": "NSLX: predictions and residuals add up to y, utu is the sum of squared residuals and sig2 = utu/n; vm is the Gauss-Newton covariance matrix sig2 (J'J)^-1 of the parameters; the weights are between 0 and 1 and monotone in distance; every set of coordinates with enough neighbours gives n by n weights; each lagged column is named W, the letter of its transformation and its variable.", "quantifier": "every data set, weights, KDTree answer, result of the optimiser, mask and parameter list", "why_tests_cant": "all data and all optimiser results", "anchors": ["spreg/nslx.py:BaseNSLX", "spreg/nslx.py:NSLX", "spreg/nslx.py:nlmod", "spreg/utils.py:make_wnslx"]}
{"id": "C69", "title": "Random effects estimation", "statement": "PanelRE's coefficients are generalised least squares for errors with covariance sigma_e^2 I + sigma_mu^2 (11' x I) at its estimated variances, vm is (sig2 / sigma_e^2)(X'V^-1 X)^-1, the quasi-demeaning weight theta is in [0,1), and with a zero unit variance the coefficients are pooled OLS.", "quantifier": "every long panel and every answer of the solver for the between regression", "why_tests_cant": "all data", "anchors": ["spreg/panel.py:PanelRE"]}
{"id": "C70", "title": "Baltagi-Song-Koh statistics", "statement": "The five statistics of BSK_tests equal the Kronecker product formulas documented in their comments; the two numbers that are set to zero when negative are never negative and a zero denominator only occurs with a zero numerator; the p-value of the joint test is a probability and a function of the statistic.", "quantifier": "every residual vector, W, lambda, N and T", "why_tests_cant": "all data and weights", "anchors": ["spreg/diagnostics_panel.py:BSK_tests"]}
{"id": "C71", "title": "Building blocks of generated data", "statement": "make_xb adds the constant and multiplies by beta, make_wx returns the lags of order 1 to o, make_wxg the n by 1 product with gamma or None for a wrong number of coefficients, make_heterror multiplies the variance, make_vmult interpolates linearly from vlow to vup or repeats group multipliers; wrong lengths give None.", "quantifier": "every x, weights, coefficients, order and group sizes", "why_tests_cant": "all sizes", "anchors": ["spreg/dgp.py:make_xb", "spreg/dgp.py:make_wx", "spreg/dgp.py:make_wxg", "spreg/dgp.py:make_heterror", "spreg/dgp.py:make_vmult"]}
{"id": "C72", "title": "Observation-level spatial multipliers", "statement": "i_multipliers for a lag model returns, for every observation, the diagonal entry, the off-diagonal row sum and the off-diagonal column sum of (I - rho W)^-1; effects received and sent have the same total; for row-standardised W their averages are the adi and aii of spmultiplier(method='full').", "quantifier": "every W and rho with I - rho W invertible", "why_tests_cant": "matrix identities for every W and rho", "anchors": ["spreg/sputils.py:i_multipliers", "spreg/sputils.py:spmultiplier"]}
{"id": "C73", "title": "SUR spatial LM statistics are always defined", "statement": "With the error covariance estimated from residuals and non-singular, full rank regressors and weights that are not skew-symmetric, surLMe and surLMlag succeed and return a non-negative number; surLMe is zero only when all its scores are zero.", "quantifier": "every residual matrix, weights, number of equations and regressors", "why_tests_cant": "positive definiteness for all data", "anchors": ["spreg/diagnostics_sur.py:surLMe", "spreg/diagnostics_sur.py:surLMlag"]}
{"id": "C74", "title": "SUR Wald tests test what they say", "statement": "sur_joinrho is the Wald statistic of the last coefficient of every equation with their covariances; sur_chow for coefficient i compares that coefficient across equations; with a positive definite covariance both are defined, non-negative, and zero exactly when the restriction holds in the estimates.", "quantifier": "every number of equations and coefficients", "why_tests_cant": "index arithmetic for all sizes", "anchors": ["spreg/diagnostics_sur.py:sur_joinrho", "spreg/diagnostics_sur.py:sur_chow"]}
{"id": "C75", "title": "Three-stage least squares", "statement": "BaseThreeSLS starts from the two-stage least squares estimates of the equations; with a diagonal Sigma it returns them; its residuals satisfy the Sigma-weighted moment conditions with the projected regressors; its covariance is positive definite.", "quantifier": "every number of equations, regressors and instruments", "why_tests_cant": "algebra over all data", "anchors": ["spreg/sur.py:BaseThreeSLS", "spreg/sur.py:_get_bigZhat", "spreg/sur.py:_sur_2sls"]}
{"id": "C76", "title": "Heteroskedasticity tests", "statement": "breusch_pagan is half the explained sum of squares of the standardised squared residuals on the squared regressors with duplicate columns dropped, koenker_bassett n times the R2 of the squared residuals on the same columns, white n times the R2 on the regressors, squares and cross-products; statistics are non-negative (the last two at most n), have one degree of freedom per non-constant column, do not depend on the units of residuals or regressors, accept another matrix z, and fail only when the regressors are collinear.", "quantifier": "every regressor matrix and residual vector", "why_tests_cant": "must hold for all data, including duplicated and two-valued columns", "anchors": ["spreg/diagnostics.py:breusch_pagan", "spreg/diagnostics.py:koenker_bassett", "spreg/diagnostics.py:white", "spreg/diagnostics.py:constant_check"]}
{"id": "C77", "title": "Variance inflation factors and condition index", "statement": "vif returns for every non-constant regressor the factor by which collinearity multiplies the variance of its coefficient, at least 1, and its inverse, the tolerance, and the missing marker exactly for constants; it does not depend on units and origin; the condition index compares eigenvalues that are positive, at most k, and independent of the units.", "quantifier": "every full-rank regressor matrix", "why_tests_cant": "all data", "anchors": ["spreg/diagnostics.py:vif", "spreg/diagnostics.py:condition_index"]}
{"id": "C78", "title": "F test of a block and Durbin-Wu-Hausman", "statement": "f_stat with df=d is the Wald test of the last d coefficients divided by d; dwh is the F test of the first-stage fitted values or residuals added to the structural regression, whose other coefficients are then the 2SLS estimates; it depends only on the space of the instruments and is not computable when the order condition fails.", "quantifier": "every y, regressors, endogenous variables and instruments", "why_tests_cant": "all data and dimensions", "anchors": ["spreg/diagnostics.py:f_stat", "spreg/diagnostics.py:dwh"]}
{"id": "C79", "title": "Jarque-Bera", "statement": "jarque_bera has two degrees of freedom, is non-negative, zero exactly for zero skewness and kurtosis three, and independent of the unit and sign of the residuals; the kurtosis it uses is at least one plus the squared skewness.", "quantifier": "every non-zero residual vector", "why_tests_cant": "all residual vectors", "anchors": ["spreg/diagnostics.py:jarque_bera"]}
{"id": "C80", "title": "Spatial random effects panel (KKP)", "statement": "GM_KKP and GM_ErrorRE solve the same moment equations, which are the conditions of Kapoor, Kelejian and Prucha on the within and between variation of the filtered residuals and their lag; the weights of the moments are the covariances of the quadratic forms and so have a Cholesky factor; the coefficients are generalised least squares for the estimated covariance of the disturbances, vm is its covariance matrix, and residuals, fit and filtered residuals are consistent.", "quantifier": "every panel, weights matrix, lambda and variances", "why_tests_cant": "all panels, weights and parameter values", "anchors": ["spreg/sp_panels.py:BaseGM_KKP", "spreg/sp_panels.py:_moments_kkp", "spreg/sp_panels.py:_get_Tau", "spreg/panel.py:BaseGM_ErrorRE"]}
{"id": "C81", "title": "Maximum likelihood panels with fixed effects", "statement": "ML_LagFE, ML_ErrorFE (and the deprecated Panel_FE_Lag, Panel_FE_Error): coefficients, residuals and variance are the maximum likelihood estimates of the spatial lag or error panel with one effect per unit at the reported spatial parameter, over all values the minimiser searched if it found the minimum; the reported log-likelihood is the Gaussian log-likelihood at the estimates; mu_i are the estimated effects; vm inverts the expected information and is positive definite; adding a constant to any unit's y or regressors changes only that unit's effect; a time-invariant regressor cannot be estimated. ML_ErrorPooled maximises the likelihood of independent periods.", "quantifier": "every panel, weights matrix, result of the minimiser and LU factorisation", "why_tests_cant": "all panels, all parameter values of the likelihood", "anchors": ["spreg/panel.py:BaseML_LagFE", "spreg/panel.py:ML_LagFE", "spreg/panel.py:BaseML_ErrorFE", "spreg/panel.py:ML_ErrorFE", "spreg/panel.py:BaseML_ErrorPooled", "spreg/panel_fe.py:BasePanel_FE_Lag", "spreg/panel_fe.py:BasePanel_FE_Error"]}
{"id": "C82", "title": "Maximum likelihood spatial lag panel with random effects", "statement": "ML_LagRE (and the deprecated Panel_RE_Lag): at the reported rho and phi the coefficients are generalised least squares for errors with a common unit component, whose variance ratio s2/(s2 + T smu2) is phi^2, and sig2 is the matching variance; the log-likelihood is the Gaussian log-likelihood of that model at the estimates and the largest at that phi over all coefficients, variances and searched rho; no iteration lowers the likelihood, there are between one and 100 iterations, and when phi no longer changes no coordinate can be improved; varb is the covariance matrix of the coefficients and rho given the variances and vm one of coefficients, rho and phi.", "quantifier": "every panel, weights matrix, minimiser result and iteration history", "why_tests_cant": "all panels, all parameter values, all iteration histories", "anchors": ["spreg/panel.py:BaseML_LagRE", "spreg/panel.py:ML_LagRE", "spreg/panel_re.py:BasePanel_RE_Lag", "spreg/panel_re.py:phi_c_loglik"]}
{"id": "C83", "title": "Maximum likelihood spatial error panel with random effects", "statement": "ML_ErrorRE (and the deprecated Panel_RE_Error): at the reported lambda and variance ratio phi the coefficients are generalised least squares for the covariance smu2 (J x I) + s2 I x (B'B)^-1, B = I - lambda W, sig2 and sig2_u are the matching variances; the log-likelihood is the Gaussian log-likelihood of that model at the estimates and the largest over all coefficients, variances and searched parameters if the minimiser found the minimum; vm holds the covariance matrix of the coefficients and of the other parameters.", "quantifier": "every panel, weights matrix, minimiser result and eigendecomposition", "why_tests_cant": "all panels, all parameter values of the likelihood", "anchors": ["spreg/panel.py:BaseML_ErrorRE", "spreg/panel.py:ML_ErrorRE", "spreg/panel.py:err_c_loglik_ord", "spreg/panel_re.py:BasePanel_RE_Error"]}
{"id": "C84", "title": "Likelihood of seemingly unrelated regressions", "statement": "The log-likelihood of SUR is the Gaussian log-likelihood of the system maximised over the error covariance matrix, at the coefficients of the pass before the reported ones, and no larger than that at the reported ones; more passes never lower it; the likelihood-ratio test of a diagonal covariance matrix is twice its distance to the largest likelihood with a diagonal covariance matrix, is never negative and has G(G-1)/2 degrees of freedom. The objective of the SUR error model is minus the Gaussian log-likelihood of the system with one spatial error coefficient per equation, maximised over the covariance matrix.", "quantifier": "every number of equations, data, weights, number of passes and spatial coefficients", "why_tests_cant": "likelihood identities and inequalities over all data, coefficients and covariance matrices", "anchors": ["spreg/sur.py:BaseSUR", "spreg/diagnostics_sur.py:sur_lrtest", "spreg/sur_error.py:clik", "spreg/sur_error.py:jacob"]}
{"id": "C85", "title": "Seemingly unrelated regressions with spatial errors", "statement": "SURerrorML: the reported log-likelihood is the Gaussian log-likelihood at the reported coefficients and lambdas (with Sigma from the reported residuals) and at least that of the starting values if the minimiser never returns a worse point; the coefficients are generalised least squares for the lambdas and Sigma of the pass before; the loop, which has no limit on its passes, ends whenever the likelihood is bounded. SURerrorGM: every equation has the lambda GM_Error gives it alone, the coefficients are generalised least squares on the filtered data, and with uncorrelated filtered residuals they are those of GM_Error.", "quantifier": "every number of equations, data, weights, starting values, tolerance and minimiser", "why_tests_cant": "unbounded loop, arbitrary minimiser, all data", "anchors": ["spreg/sur_error.py:BaseSURerrorML", "spreg/sur_error.py:BaseSURerrorGM", "spreg/sur_error.py:_momentsGM_sur_Error"]}
{"id": "C86", "title": "Variance of the spatial coefficients in SURerrorML", "statement": "vm of SURerrorML inverts the expected information of the spatial coefficients and of the error covariances of the Gaussian SUR spatial error model: every entry of the inverted matrix is half the trace of V^-1 V_p V^-1 V_q with V_p the derivative of the covariance matrix of the stacked disturbances with respect to the p-th parameter; parameters are the lambdas followed by every covariance once. vm exists and is positive definite unless some D + D', D = W (I - lambda W)^-1, is a multiple of the identity. The tests of joint significance and of equality of the lambdas are then defined, non-negative and zero exactly when all lambdas are zero, or equal.", "quantifier": "every number of equations and observations, weights, lambdas and positive definite Sigma", "why_tests_cant": "matrix calculus identities over all sizes and parameters", "anchors": ["spreg/sur_error.py:surerrvm", "spreg/sur_error.py:SURerrorML"]}
{"id": "C87", "title": "Covariance matrices of the GM spatial error estimators", "statement": "vm of GM_Error_Het and GM_Endog_Error_Het (GM_Combo_Het) is the exact covariance matrix of the errors of the coefficients and of lambda (weighted least squares of the moments on their slope, moments linearised in the coefficients) when every filtered residual gets an independent random sign; vm of GM_Error_Hom and GM_Endog_Error_Hom is that covariance when the disturbances are independent draws from the filtered residuals. It is positive semidefinite with a positive variance of lambda, and exists exactly when the regressors, the instruments and the moments are not degenerate.", "quantifier": "every zero-diagonal W, residual vector, lambda, regressors, instruments and moment slope, all sizes", "why_tests_cant": "the property holds for all data; it is an identity of averages over exponentially many outcomes", "anchors": ["spreg/error_sp_het.py:get_psi_sigma", "spreg/error_sp_het.py:get_vc_het", "spreg/error_sp_het.py:get_vm_het", "spreg/error_sp_het.py:get_P_hat", "spreg/error_sp_het.py:get_a1a2", "spreg/error_sp_het.py:get_vc_het_tsls", "spreg/error_sp_het.py:get_Omega_GS2SLS", "spreg/error_sp_hom.py:get_vc_hom", "spreg/error_sp_hom.py:get_omega_hom", "spreg/error_sp_hom.py:get_omega_hom_ols"]}
{"id": "C88", "title": "Pseudo R2 and t statistics", "statement": "pr2_aspatial and pr2_spatial are squared correlations: nan exactly when y or the prediction is constant, in [0, 1], one exactly when the prediction is a linear function of y, independent of units and origin; with a constant, pr2_aspatial of OLS is its R2 and that of any other estimator with the same regressors (2SLS) is not larger; with row-standardised weights pr2_spatial does not depend on the intercept. t_stat gives for each coefficient a number whose square is the Wald statistic of that coefficient, with its sign, and that depends on the units of the regressors only through its sign.", "quantifier": "every y, prediction, regressors, coefficient vector and covariance matrix with positive variances", "why_tests_cant": "inequalities and invariances over all data", "anchors": ["spreg/diagnostics_tsls.py:pr2_aspatial", "spreg/diagnostics_tsls.py:pr2_spatial", "spreg/diagnostics_tsls.py:t_stat", "spreg/diagnostics.py:r2"]}
{"id": "C89", "title": "Number of regimes chosen from the SSR trace", "statement": "optim_k returns a number between the window and the number of SSR values: the first whose SSR is not significantly (2.75 standard deviations of the window) below the value the trend of the window before it predicts (Mojena's second rule), or the last; it does not depend on the units of the SSR nor on adding a constant to all of them.", "quantifier": "every list of SSR values and window", "why_tests_cant": "a search over lists of any length", "anchors": ["spreg/utils.py:optim_k"]}
{"id": "C90", "title": "Spatial lag SUR: equations, names and arguments", "statement": "SURlagIV estimates equation r by three-stage least squares with the exogenous variables given, the endogenous ones given and the spatial lag of y_r, and as instruments the ones given, the lags of order 1 to w_lags of the exogenous variables without the constant and (lag_q) those of the instruments; there is one name per column in the same order, names given are used, a lag of order o of v is named by o times W, underscore, v; the caller's dictionaries are not changed, so that a second call with the same arguments gives the same result.", "quantifier": "every number of equations, variables, lag order, with and without additional endogenous variables and instruments", "why_tests_cant": "the loops build lists of any length; the effects of a call on its arguments are seen by later calls only", "anchors": ["spreg/sur_lag.py:SURlagIV", "spreg/sur_lag.py:_get_spatial_lag"]}
{"id": "C91", "title": "Spatial lag with regimes: variables, flags and names", "statement": "GM_Lag_Regimes accepts every combination of slx_lags, slx_vars (all or one boolean per variable), extra endogenous variables and cols2regi (all or one boolean per variable): the regressors are the variables given and their spatial lags up to order slx_lags, the endogenous ones those given and the lag of y, whose coefficient is the last one and is the same in all regimes; every regressor and instrument is reported under the name of the variable and lag order it is.", "quantifier": "every number of variables, lag orders, selections, flags and regimes, for regime_lag_sep=False", "why_tests_cant": "argument combinations and list lengths are unbounded", "anchors": ["spreg/twosls_sp_regimes.py:GM_Lag_Regimes", "spreg/utils.py:set_endog", "spreg/user_output.py:set_name_spatial_lags", "spreg/user_output.py:set_name_q_sp", "spreg/regimes.py:check_cols2regi", "spreg/twosls_regimes.py:TSLS_Regimes"]}
{"id": "C92", "title": "Coefficient table of the summary", "statement": "The summary and the data frame reg.output show each coefficient once, beside the name, standard error, statistic and probability of that coefficient (a spatial parameter without inference with its value only), ordered by regime and, within a regime, as in betas; with one model per regime there is one table per regime, in order of appearance, with the results of that regime's model. The summary of a model is written whenever it has as many coefficients as names, and never more statistics.", "quantifier": "every number of coefficients, equations, regimes, variable names and results", "why_tests_cant": "the frame is filled by labels, sorted and filtered: alignment must hold for every list", "anchors": ["spreg/output.py:output", "spreg/output.py:output_start", "spreg/output.py:out_part_middle"]}
{"id": "C93", "title": "Table of Chow tests", "statement": "In a summary with regimes every Chow test is printed with the name of the variable whose coefficients it compares (the constant first when it varies), with number-of-regimes-minus-one degrees of freedom, followed by the global test, and there is no row without a test; for every class and every choice of varying coefficients.", "quantifier": "every class with regimes, cols2regi, constant_regi, number of variables and regimes", "why_tests_cant": "the row names are derived again from the flags: alignment must hold for all flag lists", "anchors": ["spreg/output.py:_summary_chow", "spreg/regimes.py:check_cols2regi", "spreg/ml_error_regimes.py:ML_Error_Regimes", "spreg/error_sp_regimes.py:GM_Error_Regimes", "spreg/error_sp_regimes.py:GM_Combo_Regimes"]}
{"id": "C94", "title": "Types of coefficients and common factor test", "statement": "In reg.output the column var_type says of every coefficient of a spatial lag or spatial Durbin model what it belongs to: the constant, an exogenous variable, a spatial lag of an exogenous variable, an endogenous variable or the spatial lag of y; and the common factor test of the summary of a spatial Durbin model compares the coefficient of every variable with that of the spatial lag of the same variable in the same regime; for one model, models with regimes, and one model per regime, with all or some variables lagged and with fixed or varying coefficients.", "quantifier": "every number of variables, lag orders, selected variables, flags, endogenous variables and regimes", "why_tests_cant": "the types are derived again from counts of rows, and the test selects rows by type: alignment must hold for all lists", "anchors": ["spreg/output.py:_spat_diag_out", "spreg/ml_lag.py:ML_Lag", "spreg/ml_lag_regimes.py:ML_Lag_Regimes", "spreg/ml_lag_regimes.py:ML_Lag_Regimes_Multi", "spreg/twosls_sp.py:GM_Lag", "spreg/twosls_sp_regimes.py:GM_Lag_Regimes", "spreg/twosls_sp_regimes.py:GM_Lag_Regimes_Multi", "spreg/regimes.py:set_name_x_regimes"]}
{"id": "C95", "title": "Arguments reach the class that does the work", "statement": "Giving regimes to OLS, TSLS, GM_Lag, ML_Lag or ML_Error runs the class for regimes, and GMM_Error and GMM_Error_Regimes run the class that estimator, yend and add_wy (and regimes) ask for, with every argument that was given under its own name and the defaults for the others; a keyword that no class knows is rejected.", "quantifier": "every set of keyword arguments and values", "why_tests_cant": "combinations of arguments and values are unbounded; a dropped or swapped argument raises nothing", "anchors": ["spreg/ols.py:OLS", "spreg/twosls.py:TSLS", "spreg/twosls_sp.py:GM_Lag", "spreg/ml_lag.py:ML_Lag", "spreg/ml_error.py:ML_Error", "spreg/error_sp.py:GMM_Error", "spreg/error_sp_regimes.py:GMM_Error_Regimes"]}
{"id": "C96", "title": "Endogenous regimes", "statement": "OLS_Endog_Regimes, TSLS_Endog_Regimes and GM_Lag_Endog_Regimes either raise or estimate on regimes that are the connected clusters left by a sequence of legal cuts of the spanning forest, every one with at least quorum observations: n_clusters of them (plus one per island) when n_clusters is given, and otherwise the number optim_k chooses from SSR, never more than the search looked for; SSR and score are those of these cuts; with the default quorum no regime has fewer observations than the regression needs; the other regime switches do not change the result; the variables reported are the varying columns of x with their own names.", "quantifier": "every map, number of observations, scores, n_clusters, quorum and switches", "why_tests_cant": "searches of unbounded length over all forests and scores", "anchors": ["spreg/ols_regimes.py:OLS_Endog_Regimes", "spreg/twosls_regimes.py:TSLS_Endog_Regimes", "spreg/twosls_sp_regimes.py:GM_Lag_Endog_Regimes", "spreg/user_output.py:check_regi_args", "spreg/user_output.py:check_regimes"]}
{"id": "C97", "title": "Hausman test of PanelRE", "statement": "The hausman_stat reported by PanelRE compares the slopes of the columns that vary over time with those of the within regression of these columns, weighted by the inverse of the difference of the two reported covariance matrices; it is never negative, is zero exactly when the slopes agree, does not depend on the units of y nor on a combination of the regressors added to y, is nan only when no column varies or that difference is singular, and never makes the estimation fail.", "quantifier": "every balanced panel, every selection of columns that vary, every y", "why_tests_cant": "a positive statistic on the test data says nothing about panels where the variance of the quasi-demeaned regression exceeds the within variance", "anchors": ["spreg/panel.py:PanelRE"]}
{"id": "C98", "title": "HAC requests in the regimes classes", "statement": "In OLS_Regimes, TSLS_Regimes and GM_Lag_Regimes a HAC request, in any spelling which is accepted, is answered with the kernel covariance matrix of one joint regression: separate regressions by regime are disabled and the user is warned, exactly when they were asked for. No other request is answered with the kernel's covariance matrix, and an accepted optimal GMM request is answered with the optimal GMM one. The covariance code for separate regressions (robust.hac_multi) is never reached; reached, it would raise for two of the classes, and for the third report, for every regime, the kernel sum over the observations of all regimes, which for a positive semidefinite kernel without links across regimes is never below the regime's own.", "quantifier": "all combinations of regime_err_sep, regime_lag_sep, robust strings, gwk, cols2regi and constant_regi; for hac_multi all data, regimes and kernels", "why_tests_cant": "tests fix a few option combinations; which combination reaches which estimator, and that none reaches a given branch, is a statement about all of them, as is the excess of the covariance about all data", "anchors": ["spreg/ols_regimes.py: OLS_Regimes, _work", "spreg/twosls_regimes.py: TSLS_Regimes, _work", "spreg/twosls_sp_regimes.py: GM_Lag_Regimes, GM_Lag_Regimes_Multi, _work", "spreg/robust.py: hac_multi, robust_vm", "spreg/user_output.py: check_robust"]}
