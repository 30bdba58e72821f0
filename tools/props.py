import json
P=[]
def p(title, statement, quantifier, why, anchors):
    P.append(dict(id="C%02d"%(len(P)+1), title=title, statement=statement, quantifier=quantifier, why_tests_cant=why, anchors=anchors))
U="spreg/user_output.py"
p("One name per regressor column",
  "For every regressor matrix, set_name_x/set_name_yend/set_name_q return exactly one name per column of the matrix the estimator uses (constant first when asked for) when no names are given or when the user gave one per column; user-supplied names are kept verbatim and in order, and generated default names are pairwise distinct.",
  "every number of columns, every user name list, constant flag on or off","column counts and name lists are unbounded; a test fixes a few datasets",
  [U+":set_name_x",U+":set_name_yend",U+":set_name_q"])
p("SLX names describe the columns they label",
  "After asking for SLX terms (flex_wx), the j-th returned name names the j-th returned column: name 'Wm_v' sits on the column W^m v, for every lag order, variable mask and instrument-lag order.",
  "every x, W, name list, slx_vars mask, slx_lags>=1 and q_lags>=0","the alignment must hold for every mask and order; a wrong order is invisible in numeric regression tests because estimates do not depend on names",
  [U+":flex_wx",U+":set_name_spatial_lags","spreg/utils.py:get_lags","spreg/utils.py:get_lags_split"])
p("Spatial instrument names are complete and unambiguous",
  "set_name_q_sp returns w_lags names per instrument variable in lag-major order; for distinct variable names that are not themselves 'W_...' the name of the m-th lag of v is W_v / Wm_v and no two are equal.",
  "every name list, w_lags and lag_q setting","quantifies over all name lists, including adversarial prefixes",
  [U+":set_name_q_sp"])
p("Input arrays are accepted exactly when they are rectangular, finite and conformable",
  "check_arrays returns n iff at least one array is given, every given array is an ndarray/csr of at most 2 dimensions, has no more columns than rows, has no NaN/inf and all have n rows; otherwise it raises; None arguments are ignored.",
  "every finite list of optional arrays","the accept/reject boundary has to hold for each argument list, not for sampled shapes",
  [U+":check_arrays"])
p("Constant columns are removed together with their names, and one intercept is added",
  "check_constant removes exactly the columns that take a single value, keeps the remaining columns and names in the original order and aligned, never mutates the caller's name list, and prepends one column of ones unless just_rem.",
  "every matrix x and name list","positions of constant columns are arbitrary",
  [U+":check_constant"])
p("Robust and diagnostic options are validated consistently",
  "check_robust accepts exactly None/'white'/'ogmm'/'hac' (any letter case), and 'hac' only with a kernel W with unit diagonal and entries in [0,1]; whenever HAC is accepted, spatial diagnostics are switched off.",
  "every robust string, kernel weights and spat_diag flag","case variants and weight tables are unbounded",
  [U+":check_robust",U+":check_spat_diag"])
R="spreg/regimes.py"
p("Regime design matrix places every observation in its own regime's block",
  "In the matrix built for a regimes model, row i holds the regime-varying variables of observation i in the columns of i's regime and zero in all other regimes' columns, and the global variables unchanged after them; X_reg * (stacked betas) equals x_i * beta_{regime(i)} + x_glob,i * beta_glob for each i.",
  "every x, regime list, mask cols2regi","block placement is an index calculation over arbitrary k, number of regimes and masks",
  [R+":x2xsp",R+":regimeX_setup",R+":Regimes_Frame"])
p("Regime coefficient names match the columns",
  "The name list returned for a regimes model has as many entries as the regime design matrix has columns and entry j carries the regime tag and variable name whose data is in column j.",
  "every name list, regime set and cols2regi mask","index alignment over unbounded k and number of regimes",
  [R+":set_name_x_regimes",R+":regimeX_setup"])
p("Chow test compares the same variable across regimes",
  "For each regime-varying coefficient j, the restriction matrix built for the Chow test annihilates beta exactly when coefficient j is equal in all regimes, never touches other coefficients, and the joint restriction is the conjunction over all regime-varying coefficients.",
  "every number of regimes, of varying and of global coefficients, and every coefficient vector","an off-by-one in column placement gives plausible but wrong test values",
  [R+":buildR1var",R+":buildR",R+":_chow_run",R+":Chow"])
p("Wald statistic is a genuine test statistic",
  "wald_test(betas, R, q, vm) is zero when R betas = q, is non-negative for positive-definite vm and independent rows, positive when R betas <> q, and unchanged when (R,q) is replaced by (A R, A q) for invertible A.",
  "every beta, R, q and vm (exact arithmetic)","algebraic law over all matrices",
  [R+":wald_test",R+":Wald"])
p("cols2regi and constant_regi options are normalised correctly",
  "check_cols2regi returns one boolean per column of [constant, x, yend]; 'all' makes every variable regime-varying; constant_regi 'many'/'one' decide only the constant; wrong lengths raise.",
  "every option value and number of columns","option space x dimension",
  [R+":check_cols2regi",U+":check_regi_args"])
p("Regime weights keep within-regime links only",
  "The weights for regime r built by w_regime/w_regimes contain exactly the links of w between members of r, relabelled by position in r's id list; every link has equal weight before the transformation of w is applied to the subset (the original values are not kept), and the union of the regime weights has exactly the links of w that do not cross regimes.",
  "every W, regime assignment","over all graphs",
  [R+":w_regime",R+":w_regimes"])
p("Per-regime estimation writes each result to its own slot",
  "With regime_err_sep the combined object's betas and vm are the regime results in regimes_set order (vm block diagonal), and u[i], predy[i] are those of the regime regression of observation i, for every observation; nothing is left unwritten.",
  "every regime assignment, number of regimes and regime results","scatter/gather over arbitrary partitions and completion orders",
  ["spreg/ols_regimes.py:_ols_regimes_multi","spreg/ml_error_regimes.py:_error_regimes_multi","spreg/twosls_regimes.py:_tsls_regimes_multi"])
p("OLS solves the least-squares problem",
  "Whenever x'x is invertible, BaseOLS betas satisfy the normal equations, residuals are orthogonal to every regressor, y = predy + u, and no other coefficient vector attains as small a sum of squared residuals; if x'x is singular construction fails.",
  "every y, x (exact arithmetic)","a universally quantified optimality claim",
  ["spreg/ols.py:BaseOLS"])
p("OLS is equivariant and its covariance is consistent",
  "Rescaling or recombining regressors (x -> xA, A invertible) leaves predy, u, sig2 unchanged and maps betas to A^-1 betas and vm to A^-1 vm A^-T; y -> y + xc shifts betas by c; vm is symmetric with vm = sig2 (x'x)^-1.",
  "every y, x, invertible A, shift c","algebraic laws over all inputs",
  ["spreg/ols.py:BaseOLS","spreg/utils.py:RegressionPropsVM"])
p("Fully regime-varying pooled OLS equals separate OLS per regime",
  "OLS on the regime design matrix with all coefficients varying yields, block by block, the coefficients OLS would give on each regime's rows alone, and the same residuals.",
  "every y, x, two-way (hence, by induction, any) row partition","equivalence over all data and partitions",
  ["spreg/ols_regimes.py:OLS_Regimes",R+":x2xsp"])
p("Weighted least squares is OLS on transformed data",
  "The weighted regimes estimator (regimes-specific variances) has coefficients that solve X'W^2X b = X'W^2 y, where each row is divided by its regime's standard error; with all weights equal it equals plain OLS.",
  "every y, x, positive weights","algebra over all inputs",
  [R+":_get_weighted_var","spreg/ols.py:BaseWLS"])
p("Robust covariance matrices are well formed and consistent with each other",
  "The White and HAC middle matrices are symmetric for symmetric kernels, White is positive semidefinite, HAC with identity kernel equals White without degrees-of-freedom correction, and robust='white' yields White whatever other weights are supplied.",
  "every x, u, kernel","holds for all residual patterns",
  ["spreg/robust.py:robust_vm","spreg/robust.py:get_omega","spreg/ols.py:BaseOLS"])
p("2SLS satisfies its moment conditions",
  "BaseTSLS betas make the first-stage-projected regressors orthogonal to u; with as many instruments as endogenous variables the instruments themselves are orthogonal to u (IV estimator); with yend instrumented by itself 2SLS equals OLS; passing both or neither of q and h raises.",
  "every y, x, yend, q, h (exact arithmetic)","algebraic law over all inputs",
  ["spreg/twosls.py:BaseTSLS"])
p("Spatial lag construction",
  "get_lags(w,x,p) returns the blocks W x, W^2 x, ..., W^p x in order, and get_lags_split(w,x,max,split) returns a pair whose concatenation is get_lags(w,x,max) with the first part holding the first split lags; out-of-range split raises.",
  "every W, x, p, split","unbounded lag order",
  ["spreg/utils.py:get_lags","spreg/utils.py:get_lags_split"])
p("Dense and sparse spatial-lag instrument builders agree",
  "set_endog_sparse builds the same endogenous variables and instruments as set_endog for every lag order and lag_q setting.",
  "every W, x, yend, q, w_lags>=1, lag_q","the builders must agree for every lag order; tests use w_lags 1 or 2",
  ["spreg/utils.py:set_endog","spreg/utils.py:set_endog_sparse"])
p("Power expansion computes a truncated inverse with a known residual",
  "inverse_prod(power_exp) returns s with (I - rho W) s = v - (rho W)^(m+1) v for the number m of loop passes; it stops within max_iterations passes, never returns after a pass in which the increment norm grew, and at exit either the increment norm is below the threshold or max_iterations was reached.",
  "every W, v, rho, threshold, iteration limit","loop invariant over unbounded iterations",
  ["spreg/utils.py:inverse_prod","spreg/utils.py:power_expansion"])
p("Reduced-form prediction of spatial lag models",
  "sp_att returns predictions that solve (I - rho W) predy_e = x b up to the truncated term of the power expansion when |rho| < 1, reports zero predictions and zero errors with a warning when |rho| >= 1 and raises instead when hard_bound is set; for |rho| < 1 prediction error plus prediction is y.",
  "every W, y, x b, rho, hard_bound","boundary at |rho|=1 and all matrices",
  ["spreg/utils.py:sp_att"])
p("Spatial filter",
  "get_spFilter(w,lam,x) = (I - lam W) x; it is linear in x, the identity at lam = 0, and acts period by period on stacked panel data.",
  "every W, lam, x, number of periods","all matrices and period counts",
  ["spreg/utils.py:get_spFilter"])
p("Filtering a regimes model",
  "In regimes spatial error models the filtered regressor matrix used for the second step equals (I - lam W) times the regime design matrix, so that the second-step residual equals the reported e_filtered.",
  "every W, lam, x, regime assignment","depends on whether any link crosses regimes",
  ["spreg/error_sp_regimes.py:GM_Error_Regimes","spreg/ml_error.py:get_x_lag",R+":Regimes_Frame"])
p("GM moment equations",
  "The Kelejian-Prucha moment system returned by _momentsGM_Error(w,u) satisfies, for every lambda and sigma2, g - G [lambda, lambda^2, sigma2]' = 1/n ( e'e - n sigma2, (We)'(We) - tr(W'W) sigma2, e'We ) with e = u - lambda W u.",
  "every W, u, lambda, sigma2","polynomial identity over all data",
  ["spreg/error_sp.py:_momentsGM_Error"])
p("Heteroskedastic/homoskedastic moment weights",
  "get_A1_het is symmetric-free of diagonal: diag(A1)=0; get_A1_hom (unscaled) has zero trace; moments built from A1, A2 (_moments2eqs) satisfy g - G [lam, lam^2]' = 1/n (e'A1e, e'A2e) for e = u - lam W u.",
  "every W, u, lam","polynomial identity over all data",
  ["spreg/utils.py:get_A1_het","spreg/utils.py:get_A1_hom","spreg/utils.py:get_A2_hom","spreg/utils.py:_moments2eqs"])
p("Reported HET/HOM estimates are the estimated ones",
  "The coefficients reported by the heteroskedastic-robust endogenous-error estimators are the 2SLS coefficients of the filtered model; only a spatial-lag coefficient may be range-restricted, and a hard_bound request detects out-of-range estimates.",
  "every estimate produced by the 2SLS step","the clamp is only visible for large coefficients",
  ["spreg/error_sp_het.py:BaseGM_Endog_Error_Het","spreg/error_sp_het.py:GM_Endog_Error_Het"])
p("ML spatial lag: concentrated estimates solve the full problem",
  "For every rho, betas b0 - rho b1 and residual e0 - rho e1 are the OLS coefficients and residual of y - rho W y on x, hence minimise the sum of squares of (I - rho W) y - x b.",
  "every y, x, W, rho","algebra over all inputs",
  ["spreg/ml_lag.py:BaseML_Lag"])
p("ML Jacobian methods agree",
  "method 'full', 'ord' and 'LU' use the same Jacobian term: |det(I - rho W)| = |prod(1 - rho eigenvalue_i)| = |prod diag(U)|; symmetrising the weights (ord with symmetric contiguity) does not change it, and does not change the reported covariance matrix.",
  "every W with zero diagonal, rho","for all weights",
  ["spreg/ml_lag.py:lag_c_loglik","spreg/ml_lag.py:lag_c_loglik_ord","spreg/ml_lag.py:lag_c_loglik_sp","spreg/w_utils.py:symmetrize","spreg/ml_error.py:BaseML_Error"])
D="spreg/diagnostics_sp.py"
p("LM test decompositions",
  "For every OLS fit: SARMA = LM-lag + robust LM-error = LM-error + robust LM-lag, and the joint spatial Durbin tests decompose as LM-SpDurbin = LM-lag + robust LM-WX = LM-WX + robust LM-lag(SDM).",
  "every residual vector, W, x for which the statistics are defined","algebraic identity over all data",
  [D+":lmSarma",D+":lmErr",D+":lmLag",D+":rlmErr",D+":rlmLag",D+":lm_spdurbin"])
p("LMtests returns what was asked for and memoises safely",
  "LMtests computes every requested test and no stale cached quantity: after any sequence of accesses each cached attribute equals its defining expression.",
  "every list of test names and access order","access histories",
  [D+":LMtests",D+":spDcache"])
p("Goodness of fit measures stay in range",
  "With a constant among the regressors, total SS = explained SS + residual SS, 0 <= r2 <= 1, and ar2 <= r2; the F statistic equals (r2/(k-1))/((1-r2)/(n-k)).",
  "every y, x with constant (y not constant)","inequalities over all data",
  ["spreg/diagnostics.py:r2","spreg/diagnostics.py:ar2","spreg/diagnostics.py:f_stat"])
p("Information criteria and likelihood ratio are coherent",
  "akaike/schwarz computed from the OLS fit equal 2k - 2 logll and k log n - 2 logll; likratiotest is symmetric in its two models up to sign handling, is non-negative and has at least one degree of freedom.",
  "every fit","identities over all data",
  ["spreg/diagnostics.py:akaike","spreg/diagnostics.py:schwarz","spreg/diagnostics.py:log_likelihood","spreg/diagnostics.py:likratiotest"])
S="spreg/spsearch.py"
p("Classic forward specification search follows its decision tree",
  "stge_classic selects OLS iff no LM test is significant; otherwise LAG/ERROR/SARSAR according to the documented comparison of LM and robust LM p-values; the returned label always names the model that was estimated.",
  "every vector of p-values and threshold","the decision table has to be right in each corner including ties and NaN",
  [S+":stge_classic"])
p("Koley-Bera forward search follows its decision tree",
  "stge_kb returns the label of the estimated model, in {OLS, LAG, SLX, SDM...}, per the documented rule for every combination of p-values, including ties with the threshold.",
  "every vector of p-values and threshold","all corners",
  [S+":stge_kb"])
p("Pre-test forward search label matches the model",
  "stge_pre's returned label names the estimated model for every combination of test outcomes.",
  "every vector of p-values, AIC-free decision inputs and threshold","all corners",
  [S+":stge_pre"])
p("General-to-specific searches label the model they return",
  "gets_gns and gets_sdm return a label and an estimated model that agree for every pattern of significant coefficients.",
  "every significance pattern","all corners",
  [S+":gets_gns",S+":gets_sdm"])
p("Skater keeps every cluster legal and labels total",
  "After any number of cuts in Skater_reg.fit every cluster has at least quorum members, clusters partition the observations, the number of clusters grows by exactly one per accepted cut, and the labels always reflect the last accepted cut.",
  "every tree, scores, quorum, number of clusters","unbounded sequences of cuts",
  ["spreg/skater_reg.py:fit","spreg/skater_reg.py:find_cut","spreg/skater_reg.py:score_spreg"])
p("Wide panels become long panels without mixing cells",
  "check_panel maps cell (unit i, period t, variable v) of a wide-format panel to row t*n+i, column v of the long panel, for x and y alike, names each variable by its digit-free name, leaves long panels untouched, and rejects row counts that are not multiples of n.",
  "every n, T, k and data","index arithmetic over unbounded sizes",
  ["spreg/panel_utils.py:check_panel","spreg/panel_utils.py:prepare_panel"])
p("Within transformation",
  "demean_panel with phi=0 subtracts each unit's own time mean (so unit means become zero, the operation is idempotent and time-invariant regressors vanish) and with phi=1 is the identity; it commutes with the period-wise spatial lag.",
  "every n, t, data, W","all sizes",
  ["spreg/panel_utils.py:demean_panel"])
p("Fixed effects coefficients are the LSDV coefficients",
  "PanelFE's slope coefficients solve the least squares problem with one dummy per unit, and the reported fixed effects are the corresponding dummy coefficients.",
  "every panel","Frisch-Waugh-Lovell over all data",
  ["spreg/panel.py:PanelFE"])
p("Panel LM tests decompose",
  "panel_LMlag + panel_rLMerror = panel_LMerror + panel_rLMlag for every panel.",
  "every panel","algebraic identity",
  ["spreg/diagnostics_panel.py:panel_LMlag","spreg/diagnostics_panel.py:panel_rLMerror"])
p("BSK tests return exactly the requested tests",
  "BSK_tests(which) returns one row per requested test, for every subset, and the joint test statistic is the sum of squares of the positive marginal statistics.",
  "every subset of test names and every marginal statistic","subsets x orders",
  ["spreg/diagnostics_panel.py:BSK_tests"])
p("SUR stacking round trip",
  "sur_mat2dict and sur_dict2mat are mutually inverse, sur_resids/sur_predict satisfy y = predicted + residual per equation, and sur_corr has unit diagonal and is symmetric.",
  "every number of equations and sizes","unbounded dictionaries",
  ["spreg/sur_utils.py:sur_mat2dict","spreg/sur_utils.py:sur_dict2mat","spreg/sur_utils.py:sur_resids","spreg/sur_utils.py:sur_corr"])
p("SUR reduces to OLS in the textbook cases",
  "The SUR coefficients equal equation-by-equation OLS when Sigma is diagonal and when all equations share the same regressors.",
  "every data set of two (or more) equations","algebra over all data",
  ["spreg/sur_utils.py:sur_est","spreg/sur.py:BaseSUR"])
p("Iteration limits are honoured and reported",
  "Iterative estimators run at most the requested maximum number of iterations, report the number actually run, and claim convergence only if the criterion is met.",
  "every sequence of parameter values and limit","unbounded iteration histories",
  ["spreg/sur.py:BaseSUR","spreg/error_sp_het.py:BaseGM_Error_Het","spreg/utils.py:iter_msg","spreg/probit.py:newton"])
G="spreg/dgp.py"
p("Generated data satisfy the structural equation",
  "With the true inverse, dgp_lag/dgp_sperror/dgp_spdurbin/dgp_lagerr/dgp_gns return y with y = rho W y + x b + W x g + u for the model's own error process.",
  "every W, rho, lambda, x, errors","algebra over all inputs",
  [G+":dgp_lag",G+":dgp_sperror",G+":dgp_spdurbin",G+":dgp_gns",G+":dgp_errproc"])
p("Data generation rejects non-conformable inputs",
  "Every dgp function returns None (after printing an error) when the number of rows of its inputs disagrees or disagrees with the weights, and data otherwise.",
  "every combination of sizes","all size combinations",
  [G+":dgp_ols",G+":dgp_spdurbin",G+":dgp_gns"])
p("Spatial multipliers add up",
  "For every supported method spmultiplier returns ati = adi + aii; total impacts equal direct plus indirect; 'full' gives adi = trace((I-rho W)^-1)/n; 'power' approximates the same quantity to the tolerance.",
  "every W, rho, method","series over unbounded powers",
  ["spreg/sputils.py:spmultiplier","spreg/sputils.py:_sp_effects"])
p("Lazily cached regression properties never go stale",
  "utu, sig2n, sig2n_k, vm, mean_y, std_y are computed from the current fit at first access, later accesses return the same value, and an explicit assignment overrides the computed value.",
  "every interleaving of reads and writes","access histories",
  ["spreg/utils.py:RegressionPropsY","spreg/utils.py:RegressionPropsVM"])
p("Probit prediction table is a partition",
  "For 0/1 responses: truepos+falseneg = actual positives, trueneg+falsepos = actual negatives, truepos+falsepos = predicted positives, the four cells add to n and the reported hit rate is between 0 and 100.",
  "every response and prediction vector","all vectors",
  ["spreg/diagnostics_probit.py:pred_table","spreg/diagnostics_probit.py:probit_fit"])
p("NSLX gradient is the derivative of its transformation",
  "The gradient used for the NSLX variance equals the derivative with respect to alpha of the transformed weight, for the power and the exponential transformation.",
  "every distance>0 and alpha>0","real analysis",
  ["spreg/nslx.py:_nltransform"])
p("SUR spatial lag LM statistic decouples",
  "When Sigma is diagonal the score used by surLMlag for equation j only involves equation j, as in surLMe.",
  "every residual cross product and Sigma","algebra over all data",
  ["spreg/diagnostics_sur.py:surLMlag","spreg/diagnostics_sur.py:surLMe"])
p("Regime identifiers are preserved",
  "_get_regimes_set returns the distinct regime identifiers in sorted order, and every observation belongs to one of them.",
  "every regimes list","identifier types/values unbounded",
  [R+":_get_regimes_set"])
p("Spatial 2SLS reports truthful instrument names",
  "In GM_Lag / GM_Combo the j-th reported instrument name describes the j-th instrument column: the label of order m of v sits on W^m v, with and without SLX terms, extra endogenous variables, slx_vars masks and lag_q.",
  "every x, yend, q, W, names, w_lags, slx_lags, slx_vars, lag_q","alignment over all option combinations; estimates do not depend on names",
  ["spreg/twosls_sp.py:GM_Lag","spreg/twosls_sp.py:BaseGM_Lag","spreg/utils.py:set_endog","spreg/user_output.py:set_name_q_sp"])
p("y, weights and regimes are accepted exactly when usable",
  "check_y accepts y exactly when it is numeric, finite and has n rows in one column (reshaping a 1-d vector); check_weights accepts w exactly when it is n x n with zero diagonal and not a kernel (kernels only for first-order SLX where allowed, with the diagonal zeroed); check_reg_list/check_regimes accept a regime list exactly when it has n entries, at least two regimes and N/regimes >= K+1; check_regi_args warns exactly off the supported combination.",
  "every shape, dtype, weights object, option value","accept/reject boundary",
  ["spreg/user_output.py:check_y","spreg/user_output.py:check_weights","spreg/user_output.py:check_reg_list","spreg/user_output.py:check_regimes","spreg/user_output.py:check_regi_args"])
p("Objective of the GM optimisation",
  "optim_moments minimises, up to a positive factor that does not depend on the parameters, the squared length of g - G p (or its quadratic form in the inverse of vcX), so the preferred parameters are those of the unscaled moments; the scale is non-zero for the GM error moments unless the residuals have no spatial lag.",
  "every moment system, weight matrix and parameter vector","all moment systems",
  ["spreg/utils.py:optim_moments","spreg/utils.py:foptim_par"])
p("Two-step GM error estimation",
  "GM_Error reports y = predy + u, e_filtered = (I - lambda W) u, sig2 = e_filtered'e_filtered/n, e_filtered orthogonal to (I - lambda W) x, the slopes minimise its sum of squares at the reported lambda, and vm is sig2 ((I-lambda W)x)'((I-lambda W)x) inverse.",
  "every y, x, W and every result of the optimiser","all data and all optimiser results",
  ["spreg/error_sp.py:BaseGM_Error","spreg/utils.py:get_spFilter"])
p("ML covariance matrices are positive definite",
  "The information matrix built by ML_Lag and ML_Error is positive semi-definite; it is invertible exactly when (error model) / whenever (lag model, x of full column rank) the symmetric part of W(I - rho W)^-1 is not a multiple of the identity; every covariance matrix reported by a returning fit with a non-zero residual is symmetric positive definite, so every reported variance is positive.",
  "every y, x, W, rho","all data",
  ["spreg/ml_lag.py:BaseML_Lag","spreg/ml_error.py:BaseML_Error"])
p("Moran's I moments and the Anselin-Kelejian test",
  "For OLS residuals and weights with zero diagonal the expectation and variance used for Moran's I are n/s0 tr(MW)/(n-k) and the Cliff-Ord variance in the annihilator M of x, and the variance is never negative; the AK statistic is (u'Wu/s2)^2 / (tr(WW+W'W) + 4/s2 u'WZ varb Z'W'u), never negative, and reduces to LM-error when u'WZ = 0.",
  "every x, residual vector and W","all data",
  ["spreg/diagnostics_sp.py:MoranRes","spreg/diagnostics_sp.py:get_vI","spreg/diagnostics_sp.py:get_eI","spreg/diagnostics_sp.py:akTest"])
p("Hausman statistic is a Wald statistic",
  "panel_Hausman returns a non-negative quadratic form of the difference of the fixed and random effects coefficients whenever random effects are efficient (V_FE - V_RE positive definite), and rejects for large differences.",
  "every pair of fits","all data",
  ["spreg/diagnostics_panel.py:panel_Hausman"])
p("Common factor test",
  "comfac_test is the Wald statistic of gamma + rho beta = 0 with the correct gradient of the restriction; with a positive definite vm it is defined, non-negative, and zero exactly when gamma = - rho beta.",
  "every rho, beta, gamma, vm","all coefficient values",
  ["spreg/diagnostics_sp.py:comfac_test"])
D="spreg/diagnostics_probit.py";PB="spreg/probit.py"
p("Probit maximum likelihood",
  "For 0/1 responses the gradient and Hessian of Probit are the first and second derivatives of its log likelihood, which is concave; coefficients with zero gradient maximise it globally; the reported covariance matrix is symmetric positive definite; the quantity compared with the tolerance by Newton's method is the slope along the step, never negative, and zero only at a maximum.",
  "every 0/1 response vector, design and coefficient vector","real analysis over all data",
  [PB+":BaseProbit.ll",PB+":BaseProbit.gradient",PB+":BaseProbit.hessian",PB+":newton"])
p("Probit likelihood ratio test",
  "The null log likelihood of the probit LR test is that of the model with only a constant; at a maximum the statistic is not negative and McFadden's rho is between 0 and 1; the degrees of freedom are the number of restricted slopes.",
  "every 0/1 response vector with both outcomes and every design with a constant","all data",
  [D+":probit_lrtest",D+":mcfad_rho"])
p("Probit partial effects",
  "The variance of the average partial effects of Probit is the delta method variance of the effects that are reported, for both choices of scale.",
  "every design and coefficient vector","real analysis over all data",
  [D+":probit_ape"])
p("Probit tests for spatial dependence",
  "The Pinkse, Pinkse-Slade and Kelejian-Prucha statistics of Probit are the quadratic form of the residuals over the spread computed from the symmetrised weights; they depend only on the symmetric part of W, not on its scale, the first two are never negative, and with equal probabilities the square of the third is the second.",
  "every W, probabilities, densities and residuals","all data",
  [D+":sp_tests",D+":moran_KP"])
p("Nonlinear SLX estimation",
  "NSLX: predictions and residuals add up to y, utu is the sum of squared residuals and sig2 = utu/n; vm is the Gauss-Newton covariance matrix sig2 (J'J)^-1 of the parameters; the weights are between 0 and 1 and monotone in distance; every set of coordinates with enough neighbours gives n by n weights; each lagged column is named W, the letter of its transformation and its variable.",
  "every data set, weights, KDTree answer, result of the optimiser, mask and parameter list","all data and all optimiser results",
  ["spreg/nslx.py:BaseNSLX","spreg/nslx.py:NSLX","spreg/nslx.py:nlmod","spreg/utils.py:make_wnslx"])
p("Random effects estimation",
  "PanelRE's coefficients are generalised least squares for errors with covariance sigma_e^2 I + sigma_mu^2 (11' x I) at its estimated variances, vm is (sig2 / sigma_e^2)(X'V^-1 X)^-1, the quasi-demeaning weight theta is in [0,1), and with a zero unit variance the coefficients are pooled OLS.",
  "every long panel and every answer of the solver for the between regression","all data",
  ["spreg/panel.py:PanelRE"])
p("Baltagi-Song-Koh statistics",
  "The five statistics of BSK_tests equal the Kronecker product formulas documented in their comments; the two numbers that are set to zero when negative are never negative and a zero denominator only occurs with a zero numerator; the p-value of the joint test is a probability and a function of the statistic.",
  "every residual vector, W, lambda, N and T","all data and weights",
  ["spreg/diagnostics_panel.py:BSK_tests"])
p("Building blocks of generated data",
  "make_xb adds the constant and multiplies by beta, make_wx returns the lags of order 1 to o, make_wxg the n by 1 product with gamma or None for a wrong number of coefficients, make_heterror multiplies the variance, make_vmult interpolates linearly from vlow to vup or repeats group multipliers; wrong lengths give None.",
  "every x, weights, coefficients, order and group sizes","all sizes",
  ["spreg/dgp.py:make_xb","spreg/dgp.py:make_wx","spreg/dgp.py:make_wxg","spreg/dgp.py:make_heterror","spreg/dgp.py:make_vmult"])
p("Observation-level spatial multipliers", "i_multipliers for a lag model returns, for every observation, the diagonal entry, the off-diagonal row sum and the off-diagonal column sum of (I - rho W)^-1; effects received and sent have the same total; for row-standardised W their averages are the adi and aii of spmultiplier(method='full').", "every W and rho with I - rho W invertible", "matrix identities for every W and rho", ["spreg/sputils.py:i_multipliers", "spreg/sputils.py:spmultiplier"])
p("SUR spatial LM statistics are always defined", "With the error covariance estimated from residuals and non-singular, full rank regressors and weights that are not skew-symmetric, surLMe and surLMlag succeed and return a non-negative number; surLMe is zero only when all its scores are zero.", "every residual matrix, weights, number of equations and regressors", "positive definiteness for all data", ["spreg/diagnostics_sur.py:surLMe", "spreg/diagnostics_sur.py:surLMlag"])
p("SUR Wald tests test what they say", "sur_joinrho is the Wald statistic of the last coefficient of every equation with their covariances; sur_chow for coefficient i compares that coefficient across equations; with a positive definite covariance both are defined, non-negative, and zero exactly when the restriction holds in the estimates.", "every number of equations and coefficients", "index arithmetic for all sizes", ["spreg/diagnostics_sur.py:sur_joinrho", "spreg/diagnostics_sur.py:sur_chow"])
p("Three-stage least squares", "BaseThreeSLS starts from the two-stage least squares estimates of the equations; with a diagonal Sigma it returns them; its residuals satisfy the Sigma-weighted moment conditions with the projected regressors; its covariance is positive definite.", "every number of equations, regressors and instruments", "algebra over all data", ["spreg/sur.py:BaseThreeSLS", "spreg/sur.py:_get_bigZhat", "spreg/sur.py:_sur_2sls"])
p("Heteroskedasticity tests", "breusch_pagan is half the explained sum of squares of the standardised squared residuals on the squared regressors with duplicate columns dropped, koenker_bassett n times the R2 of the squared residuals on the same columns, white n times the R2 on the regressors, squares and cross-products; statistics are non-negative (the last two at most n), have one degree of freedom per non-constant column, do not depend on the units of residuals or regressors, accept another matrix z, and fail only when the regressors are collinear.", "every regressor matrix and residual vector", "must hold for all data, including duplicated and two-valued columns", ["spreg/diagnostics.py:breusch_pagan","spreg/diagnostics.py:koenker_bassett","spreg/diagnostics.py:white","spreg/diagnostics.py:constant_check"])
p("Variance inflation factors and condition index", "vif returns for every non-constant regressor the factor by which collinearity multiplies the variance of its coefficient, at least 1, and its inverse, the tolerance, and the missing marker exactly for constants; it does not depend on units and origin; the condition index compares eigenvalues that are positive, at most k, and independent of the units.", "every full-rank regressor matrix", "all data", ["spreg/diagnostics.py:vif","spreg/diagnostics.py:condition_index"])
p("F test of a block and Durbin-Wu-Hausman", "f_stat with df=d is the Wald test of the last d coefficients divided by d; dwh is the F test of the first-stage fitted values or residuals added to the structural regression, whose other coefficients are then the 2SLS estimates; it depends only on the space of the instruments and is not computable when the order condition fails.", "every y, regressors, endogenous variables and instruments", "all data and dimensions", ["spreg/diagnostics.py:f_stat","spreg/diagnostics.py:dwh"])
p("Jarque-Bera", "jarque_bera has two degrees of freedom, is non-negative, zero exactly for zero skewness and kurtosis three, and independent of the unit and sign of the residuals; the kurtosis it uses is at least one plus the squared skewness.", "every non-zero residual vector", "all residual vectors", ["spreg/diagnostics.py:jarque_bera"])
p("Spatial random effects panel (KKP)", "GM_KKP and GM_ErrorRE solve the same moment equations, which are the conditions of Kapoor, Kelejian and Prucha on the within and between variation of the filtered residuals and their lag; the weights of the moments are the covariances of the quadratic forms and so have a Cholesky factor; the coefficients are generalised least squares for the estimated covariance of the disturbances, vm is its covariance matrix, and residuals, fit and filtered residuals are consistent.", "every panel, weights matrix, lambda and variances", "all panels, weights and parameter values", ["spreg/sp_panels.py:BaseGM_KKP","spreg/sp_panels.py:_moments_kkp","spreg/sp_panels.py:_get_Tau","spreg/panel.py:BaseGM_ErrorRE"])
p("Maximum likelihood panels with fixed effects", "ML_LagFE, ML_ErrorFE (and the deprecated Panel_FE_Lag, Panel_FE_Error): coefficients, residuals and variance are the maximum likelihood estimates of the spatial lag or error panel with one effect per unit at the reported spatial parameter, over all values the minimiser searched if it found the minimum; the reported log-likelihood is the Gaussian log-likelihood at the estimates; mu_i are the estimated effects; vm inverts the expected information and is positive definite; adding a constant to any unit's y or regressors changes only that unit's effect; a time-invariant regressor cannot be estimated. ML_ErrorPooled maximises the likelihood of independent periods.", "every panel, weights matrix, result of the minimiser and LU factorisation", "all panels, all parameter values of the likelihood", ["spreg/panel.py:BaseML_LagFE","spreg/panel.py:ML_LagFE","spreg/panel.py:BaseML_ErrorFE","spreg/panel.py:ML_ErrorFE","spreg/panel.py:BaseML_ErrorPooled","spreg/panel_fe.py:BasePanel_FE_Lag","spreg/panel_fe.py:BasePanel_FE_Error"])
p("Maximum likelihood spatial lag panel with random effects", "ML_LagRE (and the deprecated Panel_RE_Lag): at the reported rho and phi the coefficients are generalised least squares for errors with a common unit component, whose variance ratio s2/(s2 + T smu2) is phi^2, and sig2 is the matching variance; the log-likelihood is the Gaussian log-likelihood of that model at the estimates and the largest at that phi over all coefficients, variances and searched rho; no iteration lowers the likelihood, there are between one and 100 iterations, and when phi no longer changes no coordinate can be improved; varb is the covariance matrix of the coefficients and rho given the variances and vm one of coefficients, rho and phi.", "every panel, weights matrix, minimiser result and iteration history", "all panels, all parameter values, all iteration histories", ["spreg/panel.py:BaseML_LagRE","spreg/panel.py:ML_LagRE","spreg/panel_re.py:BasePanel_RE_Lag","spreg/panel_re.py:phi_c_loglik"])
p("Maximum likelihood spatial error panel with random effects", "ML_ErrorRE (and the deprecated Panel_RE_Error): at the reported lambda and variance ratio phi the coefficients are generalised least squares for the covariance smu2 (J x I) + s2 I x (B'B)^-1, B = I - lambda W, sig2 and sig2_u are the matching variances; the log-likelihood is the Gaussian log-likelihood of that model at the estimates and the largest over all coefficients, variances and searched parameters if the minimiser found the minimum; vm holds the covariance matrix of the coefficients and of the other parameters.", "every panel, weights matrix, minimiser result and eigendecomposition", "all panels, all parameter values of the likelihood", ["spreg/panel.py:BaseML_ErrorRE","spreg/panel.py:ML_ErrorRE","spreg/panel.py:err_c_loglik_ord","spreg/panel_re.py:BasePanel_RE_Error"])
p("Likelihood of seemingly unrelated regressions", "The log-likelihood of SUR is the Gaussian log-likelihood of the system maximised over the error covariance matrix, at the coefficients of the pass before the reported ones, and no larger than that at the reported ones; more passes never lower it; the likelihood-ratio test of a diagonal covariance matrix is twice its distance to the largest likelihood with a diagonal covariance matrix, is never negative and has G(G-1)/2 degrees of freedom. The objective of the SUR error model is minus the Gaussian log-likelihood of the system with one spatial error coefficient per equation, maximised over the covariance matrix.", "every number of equations, data, weights, number of passes and spatial coefficients", "likelihood identities and inequalities over all data, coefficients and covariance matrices", ["spreg/sur.py:BaseSUR","spreg/diagnostics_sur.py:sur_lrtest","spreg/sur_error.py:clik","spreg/sur_error.py:jacob"])
p("Seemingly unrelated regressions with spatial errors", "SURerrorML: the reported log-likelihood is the Gaussian log-likelihood at the reported coefficients and lambdas (with Sigma from the reported residuals) and at least that of the starting values if the minimiser never returns a worse point; the coefficients are generalised least squares for the lambdas and Sigma of the pass before; the loop, which has no limit on its passes, ends whenever the likelihood is bounded. SURerrorGM: every equation has the lambda GM_Error gives it alone, the coefficients are generalised least squares on the filtered data, and with uncorrelated filtered residuals they are those of GM_Error.", "every number of equations, data, weights, starting values, tolerance and minimiser", "unbounded loop, arbitrary minimiser, all data", ["spreg/sur_error.py:BaseSURerrorML","spreg/sur_error.py:BaseSURerrorGM","spreg/sur_error.py:_momentsGM_sur_Error"])
p("Variance of the spatial coefficients in SURerrorML", "vm of SURerrorML inverts the expected information of the spatial coefficients and of the error covariances of the Gaussian SUR spatial error model: every entry of the inverted matrix is half the trace of V^-1 V_p V^-1 V_q with V_p the derivative of the covariance matrix of the stacked disturbances with respect to the p-th parameter; parameters are the lambdas followed by every covariance once. vm exists and is positive definite unless some D + D', D = W (I - lambda W)^-1, is a multiple of the identity. The tests of joint significance and of equality of the lambdas are then defined, non-negative and zero exactly when all lambdas are zero, or equal.", "every number of equations and observations, weights, lambdas and positive definite Sigma", "matrix calculus identities over all sizes and parameters", ["spreg/sur_error.py:surerrvm","spreg/sur_error.py:SURerrorML"])
p("Covariance matrices of the GM spatial error estimators", "vm of GM_Error_Het and GM_Endog_Error_Het (GM_Combo_Het) is the exact covariance matrix of the errors of the coefficients and of lambda (weighted least squares of the moments on their slope, moments linearised in the coefficients) when every filtered residual gets an independent random sign; vm of GM_Error_Hom and GM_Endog_Error_Hom is that covariance when the disturbances are independent draws from the filtered residuals. It is positive semidefinite with a positive variance of lambda, and exists exactly when the regressors, the instruments and the moments are not degenerate.", "every zero-diagonal W, residual vector, lambda, regressors, instruments and moment slope, all sizes", "the property holds for all data; it is an identity of averages over exponentially many outcomes", ["spreg/error_sp_het.py:get_psi_sigma","spreg/error_sp_het.py:get_vc_het","spreg/error_sp_het.py:get_vm_het","spreg/error_sp_het.py:get_P_hat","spreg/error_sp_het.py:get_a1a2","spreg/error_sp_het.py:get_vc_het_tsls","spreg/error_sp_het.py:get_Omega_GS2SLS","spreg/error_sp_hom.py:get_vc_hom","spreg/error_sp_hom.py:get_omega_hom","spreg/error_sp_hom.py:get_omega_hom_ols"])
p("Pseudo R2 and t statistics", "pr2_aspatial and pr2_spatial are squared correlations: nan exactly when y or the prediction is constant, in [0, 1], one exactly when the prediction is a linear function of y, independent of units and origin; with a constant, pr2_aspatial of OLS is its R2 and that of any other estimator with the same regressors (2SLS) is not larger; with row-standardised weights pr2_spatial does not depend on the intercept. t_stat gives for each coefficient a number whose square is the Wald statistic of that coefficient, with its sign, and that depends on the units of the regressors only through its sign.", "every y, prediction, regressors, coefficient vector and covariance matrix with positive variances", "inequalities and invariances over all data", ["spreg/diagnostics_tsls.py:pr2_aspatial","spreg/diagnostics_tsls.py:pr2_spatial","spreg/diagnostics_tsls.py:t_stat","spreg/diagnostics.py:r2"])
p("Number of regimes chosen from the SSR trace", "optim_k returns a number between the window and the number of SSR values: the first whose SSR is not significantly (2.75 standard deviations of the window) below the value the trend of the window before it predicts (Mojena's second rule), or the last; it does not depend on the units of the SSR nor on adding a constant to all of them.", "every list of SSR values and window", "a search over lists of any length", ["spreg/utils.py:optim_k"])
p("Spatial lag SUR: equations, names and arguments", "SURlagIV estimates equation r by three-stage least squares with the exogenous variables given, the endogenous ones given and the spatial lag of y_r, and as instruments the ones given, the lags of order 1 to w_lags of the exogenous variables without the constant and (lag_q) those of the instruments; there is one name per column in the same order, names given are used, a lag of order o of v is named by o times W, underscore, v; the caller's dictionaries are not changed, so that a second call with the same arguments gives the same result.", "every number of equations, variables, lag order, with and without additional endogenous variables and instruments", "the loops build lists of any length; the effects of a call on its arguments are seen by later calls only", ["spreg/sur_lag.py:SURlagIV","spreg/sur_lag.py:_get_spatial_lag"])
p("Spatial lag with regimes: variables, flags and names", "GM_Lag_Regimes accepts every combination of slx_lags, slx_vars (all or one boolean per variable), extra endogenous variables and cols2regi (all or one boolean per variable): the regressors are the variables given and their spatial lags up to order slx_lags, the endogenous ones those given and the lag of y, whose coefficient is the last one and is the same in all regimes; every regressor and instrument is reported under the name of the variable and lag order it is.", "every number of variables, lag orders, selections, flags and regimes, for regime_lag_sep=False", "argument combinations and list lengths are unbounded", ["spreg/twosls_sp_regimes.py:GM_Lag_Regimes","spreg/utils.py:set_endog","spreg/user_output.py:set_name_spatial_lags","spreg/user_output.py:set_name_q_sp","spreg/regimes.py:check_cols2regi","spreg/twosls_regimes.py:TSLS_Regimes"])
p("Coefficient table of the summary", "The summary and the data frame reg.output show each coefficient once, beside the name, standard error, statistic and probability of that coefficient (a spatial parameter without inference with its value only), ordered by regime and, within a regime, as in betas; with one model per regime there is one table per regime, in order of appearance, with the results of that regime's model. The summary of a model is written whenever it has as many coefficients as names, and never more statistics.", "every number of coefficients, equations, regimes, variable names and results", "the frame is filled by labels, sorted and filtered: alignment must hold for every list", ["spreg/output.py:output","spreg/output.py:output_start","spreg/output.py:out_part_middle"])
p("Table of Chow tests", "In a summary with regimes every Chow test is printed with the name of the variable whose coefficients it compares (the constant first when it varies), with number-of-regimes-minus-one degrees of freedom, followed by the global test, and there is no row without a test; for every class and every choice of varying coefficients.", "every class with regimes, cols2regi, constant_regi, number of variables and regimes", "the row names are derived again from the flags: alignment must hold for all flag lists", ["spreg/output.py:_summary_chow","spreg/regimes.py:check_cols2regi","spreg/ml_error_regimes.py:ML_Error_Regimes","spreg/error_sp_regimes.py:GM_Error_Regimes","spreg/error_sp_regimes.py:GM_Combo_Regimes"])
p("Types of coefficients and common factor test", "In reg.output the column var_type says of every coefficient of a spatial lag or spatial Durbin model what it belongs to: the constant, an exogenous variable, a spatial lag of an exogenous variable, an endogenous variable or the spatial lag of y; and the common factor test of the summary of a spatial Durbin model compares the coefficient of every variable with that of the spatial lag of the same variable in the same regime; for one model, models with regimes, and one model per regime, with all or some variables lagged and with fixed or varying coefficients.", "every number of variables, lag orders, selected variables, flags, endogenous variables and regimes", "the types are derived again from counts of rows, and the test selects rows by type: alignment must hold for all lists", ["spreg/output.py:_spat_diag_out","spreg/ml_lag.py:ML_Lag","spreg/ml_lag_regimes.py:ML_Lag_Regimes","spreg/ml_lag_regimes.py:ML_Lag_Regimes_Multi","spreg/twosls_sp.py:GM_Lag","spreg/twosls_sp_regimes.py:GM_Lag_Regimes","spreg/twosls_sp_regimes.py:GM_Lag_Regimes_Multi","spreg/regimes.py:set_name_x_regimes"])
p("Arguments reach the class that does the work", "Giving regimes to OLS, TSLS, GM_Lag, ML_Lag or ML_Error runs the class for regimes, and GMM_Error and GMM_Error_Regimes run the class that estimator, yend and add_wy (and regimes) ask for, with every argument that was given under its own name and the defaults for the others; a keyword that no class knows is rejected.", "every set of keyword arguments and values", "combinations of arguments and values are unbounded; a dropped or swapped argument raises nothing", ["spreg/ols.py:OLS","spreg/twosls.py:TSLS","spreg/twosls_sp.py:GM_Lag","spreg/ml_lag.py:ML_Lag","spreg/ml_error.py:ML_Error","spreg/error_sp.py:GMM_Error","spreg/error_sp_regimes.py:GMM_Error_Regimes"])
p("Endogenous regimes", "OLS_Endog_Regimes, TSLS_Endog_Regimes and GM_Lag_Endog_Regimes either raise or estimate on regimes that are the connected clusters left by a sequence of legal cuts of the spanning forest, every one with at least quorum observations: n_clusters of them (plus one per island) when n_clusters is given, and otherwise the number optim_k chooses from SSR, never more than the search looked for; SSR and score are those of these cuts; with the default quorum no regime has fewer observations than the regression needs; the other regime switches do not change the result; the variables reported are the varying columns of x with their own names.", "every map, number of observations, scores, n_clusters, quorum and switches", "searches of unbounded length over all forests and scores", ["spreg/ols_regimes.py:OLS_Endog_Regimes","spreg/twosls_regimes.py:TSLS_Endog_Regimes","spreg/twosls_sp_regimes.py:GM_Lag_Endog_Regimes","spreg/user_output.py:check_regi_args","spreg/user_output.py:check_regimes"])
p("Hausman test of PanelRE", "The hausman_stat reported by PanelRE compares the slopes of the columns that vary over time with those of the within regression of these columns, weighted by the inverse of the difference of the two reported covariance matrices; it is never negative, is zero exactly when the slopes agree, does not depend on the units of y nor on a combination of the regressors added to y, is nan only when no column varies or that difference is singular, and never makes the estimation fail.", "every balanced panel, every selection of columns that vary, every y", "a positive statistic on the test data says nothing about panels where the variance of the quasi-demeaned regression exceeds the within variance", ["spreg/panel.py:PanelRE"])
p("HAC requests in the regimes classes",
  "In OLS_Regimes, TSLS_Regimes and GM_Lag_Regimes a HAC request, in any spelling which is accepted, is answered with the kernel covariance matrix of one joint regression: separate regressions by regime are disabled and the user is warned, exactly when they were asked for. No other request is answered with the kernel's covariance matrix, and an accepted optimal GMM request is answered with the optimal GMM one. The covariance code for separate regressions (robust.hac_multi) is never reached; reached, it would raise for two of the classes, and for the third report, for every regime, the kernel sum over the observations of all regimes, which for a positive semidefinite kernel without links across regimes is never below the regime's own.",
  "all combinations of regime_err_sep, regime_lag_sep, robust strings, gwk, cols2regi and constant_regi; for hac_multi all data, regimes and kernels",
  "tests fix a few option combinations; which combination reaches which estimator, and that none reaches a given branch, is a statement about all of them, as is the excess of the covariance about all data",
  ["spreg/ols_regimes.py: OLS_Regimes, _work", "spreg/twosls_regimes.py: TSLS_Regimes, _work", "spreg/twosls_sp_regimes.py: GM_Lag_Regimes, GM_Lag_Regimes_Multi, _work", "spreg/robust.py: hac_multi, robust_vm", "spreg/user_output.py: check_robust"])

open("/verif/properties.jsonl","w").write("".join(json.dumps(x)+"\n" for x in P))
print(len(P))
