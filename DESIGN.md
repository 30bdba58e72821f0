# Formal model of pysal/spreg in Rocq (Coq 8.16.1)

## Method

* Two styles of model, each kept in its own files:
  * **list models** (stdlib `list`, `string`, `nat`, `Z`, `Q`): names, option checks, regime indices, lags,
    search decision trees, skater loop, panel reshaping, SUR dictionaries, caches, iteration loops. They are
    executable; Python exceptions are values (`Err ...`), unbound variables are errors.
  * **matrix models** (MathComp `'M[F]_(m,n)` over an arbitrary field / real field): everything that numpy does
    with `dot`, `inv`, `T`, sums. `la.inv` on a singular matrix raises, so it is modelled by an option or a
    `\in unitmx` guard.
* File naming: `XModel.v` = definitions only, each citing `/repo` file:lines; `XProofs.v` = lemmas;
  `XTheorems.v` = the property theorems (`Proof. exact lemma. Qed.`), non-vacuity `Example`s and
  `Print Assumptions`.
* A property false of the code is kept in full in `properties.jsonl`; the theorem about the part that holds is named
  `*_partial`, the counterexample `*_refuted`.

## Plan per property

| id | property | model and proof |
|----|----------|-----------------|
| C01 | one name per column | Names: `set_name_x/yend/q`; length, order, NoDup (decimal printing injective) |
| C02 | SLX names vs columns | Lags: `flex_wx` on symbolic columns (lag order, variable); pairing theorem; q-name order refuted by witness |
| C03 | spatial instrument names | Names: `set_name_q_sp` with counter dictionary; loop invariant |
| C04 | check_arrays | Checks: arrays as records; exact accept characterisation |
| C05 | check_constant | Checks: columns as lists of Z |
| C06 | robust / spat_diag | Checks: ASCII case folding |
| C07 | regime design matrix | Regimes: `x2xsp`, `regimeX_setup` on lists; dot product theorem |
| C08 | regime names | Regimes: nth-wise alignment |
| C09 | Chow restrictions | Regimes: `buildR1var`, `buildR` as Z matrices, meaning of `R beta = 0` |
| C10 | Wald statistic | LinReg: MathComp real field |
| C11 | cols2regi | Regimes |
| C12 | regime weights | Regimes: weights as adjacency lists |
| C13 | regime result scatter | Regimes: fold of slot writes |
| C14-C17, C19 | OLS, WLS, 2SLS algebra | LinReg: MathComp |
| C18 | robust vm | LinReg |
| C20, C21 | lag builders | Lags: abstract lag operator on lists of columns |
| C22, C23 | power expansion, sp_att | PowerExp: fuelled loop, matrices, norm as oracle |
| C24, C25 | spatial filter | Filter: MathComp |
| C26, C27 | GM moments | Moments: matrix identities |
| C28 | HET/HOM reported estimates | HetLoop: control-flow model, 2SLS and optimiser as oracles |
| C29, C30 | ML lag/error | MLAlg: determinants, char_poly; rational star-graph witness |
| C31, C43 | LM decompositions | LMAlg: field identities |
| C32, C51 | caches | CacheModel: state machine |
| C33, C34 | fit measures, information criteria | LinReg / DiagAlg (log is an oracle) |
| C35-C38 | specification searches | Search: decision functions over Q p-values with NaN |
| C39 | skater | Skater: component labelling and scores as oracles, invariant over cuts |
| C40-C42 | panels | Panel (lists) and PanelAlg (MathComp) |
| C44 | BSK | Bsk: control flow with unbound variables as errors |
| C45, C46, C54 | SUR | SurLists, SurAlg |
| C47 | iteration limits | Loops |
| C48, C49 | data generation | Dgp |
| C50 | multipliers | Multipliers |
| C52 | probit table | Probit |
| C53 | NSLX gradient | Nslx: stdlib Reals |
| C55 | regime identifiers | Regimes |
| C56 | instrument names | Names: `gm_lag` name assembly against symbolic columns of Lags |
| C57 | check_y, weights, regimes | Checks: exact accept conditions |
| C58, C59 | GM objective, two-step GM | Filter: sum of squares of the moment equations; optimiser abstract |
| C60 | ML covariance | ML: information as Gram matrix, Schur complements |
| C61, C63 | Moran, AK, common factor | LM: moments of ratios of quadratic forms, Wald |
| C62 | Hausman | LM: algebra, refuted sign |
| C64-C67 | probit | Probit over Coq's reals: derivatives (Coquelicot-free), concavity, stationarity; normal distribution characterised in NormalDist |
| C68 | NSLX estimation | Nslx |
| C69 | random effects | Panel: GLS transformation with Kron |
| C70 | BSK statistics | Bsk: trace identities with Kron |
| C71 | data generation blocks | Dgp |
| C72 | observation multipliers | Mult |
| C73, C74 | SUR LM and Wald tests | Sur: Schur product (Fiedler) inequality, block indices |
| C75 | 3SLS | Sur3 |
| C76-C79 | heteroskedasticity, VIF, F, DWH, Jarque-Bera | Diag: lists of columns, Frisch-Waugh, Cauchy-Schwarz |
| C80 | KKP panel | Kkp: quadratic form moments, Kron |
| C81 | ML fixed effects panels | Pfe: profile likelihood, Kron |
| C82 | ML random effects lag panel | Pre: coordinate ascent, iteration histories |
| C83 | ML random effects error panel | Prr: whitening, block determinants |
| C84 | likelihood of SUR and of the SUR error model | Sue: whitening, ln det + trace inequality (Schur complements), Hadamard |
| C85 | SUR error ML loop, SUR error GM | Sue: descent of each pass, Archimedean termination |
| C86 | information matrix and tests of the lambdas in SURerrorML | Suv, MxDeriv: derivative of matrix inverses, Kronecker traces, Frobenius norm |
| C87 | covariance matrices of the GM het/hom estimators | Gvm: exact covariances over finite sets of outcomes, moments of independent signs/draws, block matrices |
| C88 | pseudo R2, t statistics | Pr2: Cauchy-Schwarz, least squares projection |
| C89 | optim_k | Optk: loop invariant, least squares line in closed form |
| C90 | spatial lag SUR | Slag: induction on the lag loops; effect on the caller's dictionaries as part of the outcome |
| C91 | spatial lag with regimes, preparation | Glr: composition of the Lags, Names and Regimes models; name and column counts |
| C92 | coefficient table of the summary | Out: lists with labels, stable sort, filtering; permutation and alignment lemmas |
| C93 | table of Chow tests | Out, Cho: the attributes each class sets composed with the table; positions of the flags |
| C94 | types of coefficients, common factor test | Typ: rows labelled by position against a specification that labels coefficients; induction over regimes, counting |
| C95 | arguments reach the class that does the work | Fwd: Python's binding of keyword arguments, signatures and forwarded lists; lookup lemmas for any arguments, a boolean check per class |
| C96 | endogenous regimes | End, EndN: composition of the Skater search (C39), optim_k (C89) and the checks of the regimes class; cut histories split at the chosen cut, counting of observations |
| C97 | Hausman test of PanelRE | Haus: block of the inverse Gram matrix against the inverse of the within Gram matrix (within and between are orthogonal), hence the difference is positive semidefinite; two panels computed in the integers |
| C98 | HAC requests in the regimes classes | RegOptModel, RegOptTheorems, HacModel, HacTheorems, HacTheorems2: the option rules of the three classes as functions, by case analysis; hac_multi on matrices, split sums and a psd kernel |

Not expressible: floating-point rounding, convergence of scipy optimisers, p-value numerics, formatting of the text
summary, multiprocessing scheduling (only the gather step is modelled).

## Trusted base

* Coq 8.16.1's kernel (and `coqc`'s parsing and printing of the statements); no kernel check is switched off, no plugin of our own, no functor or module type.
* MathComp (all_ssreflect, all_algebra, fingroup) and Coq's standard library; the axioms they bring in are listed under Print Assumptions below.
* The reading of the Python source recorded in the comments of the `*Model.v` files. Exact arithmetic stands for float64.
* The specifications: the `*Spec.v` files (LagsSpec, RegimesSpec, RegWSpec, MLSpec, LMSpec, ProbitSpec, PfeSpec, PreSpec, PrrSpec, ...) and definitions placed beside theorems.

## Files

`X` below stands for `XModel.v` (definitions), `XSpec.v` (what the property means), `XProofs*.v` (lemmas), `XTheorems*.v` (theorems and examples).

* lists: PyBase, Lags, Names, Checks, Regimes, RegW, RegMulti, Cache, Search, Skater, Loop
* matrices: LinReg (OLS, 2SLS, robust, Wald, fit), Mring (ring tactic), Filter (filter, power expansion, moments; theorems in MomentsTheorems), LM, Kron, Panel, Bsk, Dgp,
  Mult, Sur, Sur3, Diag, Kkp
* real numbers: Rinst (Coq's reals as a MathComp real closed field), InfoCrit, ML, Probit, NormalDist, Nslx, Pfe, Pre, Prr, Sue

The arguments `robust` and `sig2n_k` of the specification searches are ignored by the code, and therefore by Search.

Wrong programs tried against the theorems are in seeded/LOG.jsonl (tools/mutate.py edits a definition in a scratch copy, rebuilds and records what fails).

## What is modelled: source lines cited by the model

Generated from the comments of the definitions (a range is the code one definition stands for).

| source file | model file: lines |
|---|---|
| dgp.py | DgpModel: 163-206, 210-246, 249-293, 296-341, 344-381, 383-431, 433-489, 491-556, 558-608, 610-666, 668-729, 731-798, 800-849, 851-892, 894-928, 931-955, 957-1009 |
| diagnostics.py | DiagModel: 609-621, 690-707, 792-858, 803-816, 820-829, 831-840, 932-1014, 1098-1170, 1132-1141, 1233-1268, 1271-1336, 1400-1432; InfoCritModel: 371-426, 429-490, 493-554, 1318-1398; LinRegModel: 41-117, 193-252, 255-310 |
| diagnostics_panel.py | BskModel: 224-501; LMModel: 30-222, 195-222 |
| diagnostics_probit.py | ProbitModel: 29-76, 79-106, 132-143, 162-208, 211-320 |
| diagnostics_sp.py | CacheModel: 162-188, 443-544; LMModel: 483-528, 530-544, 547-569, 572-594, 597-625, 628-650, 653-678, 680-722, 724-794, 796-865, 867-924, 927-960, 963-1001; TypModel: 994-1001 |
| diagnostics_sur.py | SueModel: 83-109; SurModel: 107-135, 138-190, 193-265, 268-308, 311-343 |
| diagnostics_tsls.py | Pr2Model: 107-122, 219-223 |
| error_sp.py | FilterModel: 92-120, 1380-1410; FwdModel: 296-299, 652-671, 953-974, 1320-1323, 1320-1377, 1324-1330, 1332-1377; NamesModel: 1040-1062 |
| error_sp_het.py | FwdModel: 356-374, 884-907, 1395-1420; GvmModel: 142-167, 642-646, 1540-1769, 1540-1557, 1560-1598, 1601-1646, 1649-1657, 1660-1692, 1695-1713, 1716-1768; LoopModel: 113-167, 135-151, 526-660 |
| error_sp_het_regimes.py | FwdModel: 306-331, 913-944, 1686-1716 |
| error_sp_hom.py | FwdModel: 352-369, 832-853, 1344-1367; GvmModel: 1545-1719, 1545-1625, 1580-1600, 1625, 1628-1674, 1677-1719; LoopModel: 143-158, 537-597 |
| error_sp_hom_regimes.py | FwdModel: 317-342, 931-961, 1686-1716 |
| error_sp_regimes.py | FilterModel: 350-368; FwdModel: 278-299, 796-822, 1472-1497, 1908-1912, 1908-1971, 1913-1971; OutModel: 313-325, 342-351, 838-854, 890-908, 1531, 1547-1570 |
| ml_error.py | FilterModel: 283-296; FwdModel: 475-492, 493-511; MLModel: 163-280, 204-213, 255-266, 268-271, 548-566, 550-558, 569-613 |
| ml_error_regimes.py | FwdModel: 283-306; OutModel: 328-331, 364-372 |
| ml_lag.py | FwdModel: 600-619, 620-640; MLModel: 199-217, 237-300, 244-252, 264-277, 283-297, 703-713, 716-728, 731-742; TypModel: 649-660, 668-676 |
| ml_lag_regimes.py | FwdModel: 314-338; OutModel: 356-366, 393, 421-429; TypModel: 383, 386-395, 439-457, 452-454, 608-615 |
| nslx.py | NslxModel: 74-143, 118-123, 331-358, 395-436, 439-491, 494-552 |
| ols.py | CacheModel: 102-127; FwdModel: 441-465, 466-490; LinRegModel: 102-127, 575-586; OutModel: 532-534; RegOptModel: 124-125 |
| ols_regimes.py | CacheModel: 500-512, 506-512; EndModel: 1044-1086, 1059-1060; EndNModel: 1052; FwdModel: 390-419; HacModel: 673-675; LinRegModel: (see the file's header); OutModel: 452-465, 497-499, 501-505, 572, 613, 632-664; RegMultiModel: 542-681, 604-664, 632-660; RegOptModel: 420-516, 422 |
| output.py | MultModel: 613-616; OutModel: 19-33, 19-28, 32, 35-41, 107-166, 115-122, 115-120, 136, 150, 150-165, 187-191, 225-267, 240-249, 252-258; TypModel: 285-308 |
| panel.py | HausModel: 530-631, 555-562, 564-566, 611-631; KkpModel: 1229-1255, 1276-1278; LoopModel: 2778-2815; PanelModel: 325-395, 342-346, 530-620, 565-574, 587-590; PfeModel: 889-905, 1559-1643, 1645-1666, 1661-1662, 1853-1854, 2362-2466, 2431-2456, 2468-2480, 2477-2478, 2678-2679; PreModel: 2766-2779, 2782-2820, 2822-2895, 2848-2893, 3104-3117; PrrModel: 1967-2069, 1970-1973, 1987-2001, 2022-2066, 2071-2115, 2076-2077, 2079-2092, 2094-2100 |
| panel_fe.py | PfeModel: 99-201, 168-193, 413-497, 644-657, 653-654, 659-681, 677-678 |
| panel_re.py | LoopModel: 133-172; PreModel: 137-175, 177-243, 792-804; PrrModel: 524-527, 806-838 |
| panel_utils.py | PanelModel: 15-28, 44-131, 81-97, 110-117, 118-129, 133-161 |
| probit.py | LoopModel: 521-554; ProbitModel: 105, 119-121, 124-132, 170-175, 177-183, 185-192, 540-549 |
| regimes.py | GlrModel: 219-273; LinRegModel: 276-307, 610-643, 704-733; RegMultiModel: 673-690; RegWModel: 500-530, 500-607, 533-574, 577-607; RegimesModel: 97-105, 219-273, 301, 310-336, 339-381, 383-438, 441-497, 610-643, 646-670, 693-701; SurModel: 339-381; TypModel: 219-239, 471-497 |
| robust.py | HacModel: 124-165; LinRegModel: 103-112, 113-119; RegOptModel: 103-112 |
| skater_reg.py | EndModel: 277-279; SkaterModel: (see the file's header) |
| sp_panels.py | KkpModel: 80-125, 96-101, 103-104, 413-450, 416-419, 426-447, 453-474 |
| spsearch.py | SearchModel: 20-302, 305-493, 496-780, 783-1115, 1118-1413 |
| sputils.py | HacModel: 124-159; LinRegModel: (see the file's header); MLModel: 219-239; MultModel: 280-335, 319-332, 337-397, 363-372, 384-390, 398-485 |
| sur.py | LoopModel: 136-155; SueModel: 128-157; Sur3Model: 608-640, 614-616, 622-624, 628-638, 982-993; SurModel: 109-158, 139-150, 161-184 |
| sur_error.py | SueModel: 86-132, 122-123, 486-569, 543-563, 547-553, 549-550, 831-834, 909-937, 940-973, 967-968; SuvModel: 840-866, 851-866, 852-856, 976-1087, 1012-1036, 1038-1039, 1044, 1045-1053, 1055-1085, 1060-1077 |
| sur_lag.py | SlagModel: 206-500, 259-260, 270-276, 386-395, 427-429, 481-500 |
| sur_utils.py | SurModel: 250-278, 280-301, 304-324, 327-358, 361-410, 413-437, 468-497, 500-520 |
| twosls.py | FwdModel: 456-481, 482-507; LinRegModel: 125-199, 129-144; RegOptModel: 193-194 |
| twosls_regimes.py | EndModel: 1062-1104, 1079-1080; EndNModel: 1071; FwdModel: 314-344; GlrModel: 357-438; HacModel: 613-615; OutModel: 367-382, 418-434; RegOptModel: 345-456, 347; TypModel: 418-434 |
| twosls_sp.py | FwdModel: 510-538, 539-568; NamesModel: 188-205, 583-651; TypModel: 583-597, 620-652 |
| twosls_sp_regimes.py | EndModel: 1315-1357, 1330-1331; EndNModel: 1323; FwdModel: 450-484; GlrModel: 500-600, 520-521; HacModel: 815-817, 833-872, 928-989; OutModel: 531-536, 550-562, 570-605; RegOptModel: 485-640, 489; TypModel: 855-862 |
| user_output.py | ChecksModel: 365-384, 422-443, 447-520, 549-628, 631-704, 749-778, 780-815, 841-865, 868-943; EndModel: 801-838, 841-865; GlrModel: 161-194; HacModel: 868-938; LagsModel: 161-195, 945-1016; NamesModel: 63-89, 92-112, 115-142, 145-158, 196-242, 245-263 |
| utils.py | CacheModel: 23-186, 791-815; DgpModel: 551-552, 611-634; DiagModel: (see the file's header); EndModel: 851-868; FilterModel: 189-214, 217-253, 256-276, 279-319, 353-361, 362-375, 398-420, 423-468, 618-632, 636-677, 661, 664-677, 757-777; GlrModel: 709-716; KkpModel: 377-383, 423-468; LMModel: 129-143; LagsModel: 471-505, 507-542, 680-720, 723-746; LinRegModel: 42-51, 109-117, 129-159, 171-180; LoopModel: 749-754; NslxModel: 871-951, 945; OptkModel: 817-870, 851-868, 852-855, 857, 858-867, 861-863, 864-865 |
| w_utils.py | MLModel: 5-26 |

## What is not modelled

* Floating point: all numbers are exact (integers, rationals, an arbitrary real field, or Coq's reals). NaN and infinity are values only where a
  property is about them (`option`, `None`).
* Optimisers (`scipy.optimize.minimize`, `minimize_scalar`), eigenvalue routines (`la.eig`, `la.eigh`), LU factorisation and `KDTree`: their answers are
  arguments of the model. What a theorem needs of them (the value is the objective's, the argument is a minimum, the factors multiply to the
  matrix) is an explicit hypothesis or an explicit definition in a `*Spec.v` file.
* p-values: chi-square, normal, t and F distribution functions of scipy, except that C64-C66 characterise the standard normal.
* libpysal weights objects: a weights object is its dense matrix (or adjacency list, RegWModel), with transform and ids only where used;
  `w_subset`, `w_union` are written from their documentation.
* The text summary except the coefficient table, the table of Chow tests and the choice of rows of the common factor test (OutModel, TypModel),
  the pandas `output` tables except the columns modelled there, file input, `opt.py`
  (optional imports), plotting, timing, random number generation, multiprocessing (a pool is a map).
* Not modelled file by file: error_sp_het_regimes.py and error_sp_hom_regimes.py (bodies; their assembly loop is RegMultiModel), twosls_regimes.py and
  twosls_sp_regimes.py (beyond names, frame and assembly), ml_lag_regimes.py and ml_error_regimes.py (assembly only), sur_lag.py with regimes, dictionaries built from data
  frames (sur_dictxy, sur_dictZ), hac_multi.
* Python semantics used by the model: integer slices beyond the end are cut short, `zip` stops at the shorter list, unbound local variables raise, default
  arguments, aliasing of lists where it matters (C05), truthiness of arrays. Exceptions are values (`None`, `Err`, `Raise`).

## Where the code does not have the property

Each is a theorem `*_refuted` (a concrete input) or an exact characterisation; from tools/claims.txt, the notes of the claims that are partial.

* **C02**: regressor names proved truthful for every mask and order; instrument names only when nothing is masked out; the masked case is refuted (flex_wx concatenates the instrument groups in opposite orders)
* **C21**: same set of columns for every order and the same list for w_lags <= 2; from 3 lags on the sparse builder repeats columns (refuted)
* **C56**: truthful without SLX terms and for one SLX order on all regressors; refuted with yend+SLX, with masks
* **C06**: check_robust fully characterised; check_spat_diag proved for the lower-case spelling only: "HAC" keeps the diagnostics on (refuted)
* **C09**: proved whenever no exogenous variable is global or no endogenous one varies (all OLS/ML models); refuted for a global constant with regime-varying endogenous variables (C09_chow_refuted)
* **C55**: proved for non-float identifiers and for integral or colliding floats; refuted for e.g. [1.5, 2.5]
* **C17**: weighted normal equations, uniqueness, equal-variance case proved for WLS and the group-wise estimator when the estimated variances are positive; with sig2n_k they can be negative (refuted)
* **C18**: symmetry, PSD, identity kernel proved; robust='white' with gwk returns HAC (refuted)
* **C19**: moment conditions, just-identified IV, self-instrumented = OLS, argument check for numpy arrays proved; sparse q and h may be passed together (refuted)
* **C34**: criteria and likelihood ratio proved over the reals; degrees of freedom are not symmetric (refuted)
* **C25**: holds for all data exactly when no link crosses regimes (or lambda = 0); refuted otherwise
* **C30**: the Jacobian terms agree for all W (full, LU, ord) and for symmetrised row standardised contiguity weights; refuted: covariance under ord with symmetric contiguity, unequal weights, transform of the caller's weights changed
* **C43**: refuted as stated: LM-lag uses tr*tr where the robust tests use T*tr, so the identity holds only if u'Wy = 0 or tr(WW+W'W) = T; it holds for LM-lag computed with T*tr
* **C62**: refuted: the code inverts V_RE - V_FE, so the statistic is minus the textbook one
* **C51**: reads, stability, override proved for all histories; refuted for OLS_Regimes with regime_err_sep (residuals replaced without emptying the cache)
* **C37**: The model is always the tree's; the label is right except when WX was kept, both robust tests reject with the lag p-value not larger, and the lag model or its AK test raises (line 700 uses models[1]): C37_refuted returns an SDM model labelled LAG.
* **C39**: For every forest, score oracle, quorum and number of clusters: labels, quorum, count and history of a successful fit (C39_fit_partial, C39_cuts, C39_refines), optimality of each cut and absence of exceptions from a connected start (C39_greedy, C39_no_raise_partial). False in the code: labels are None when no cut is possible (C39_labels_lost_refuted, C39_lost_refuted); with islands the scores of the passes are not comparable and fit raises (C39_islands_refuted). Premise: scipy's spanning forest has no cycle.
* **C28**: Het and hom estimators, any W, data, filters, GMM oracle and number of passes. True of the code: C28_error_het, C28_endog_het_partial, C28_endog_hom (coefficients are the OLS/2SLS ones of the filtered model, residuals add up, error bound detected). False: the endogenous het estimator overwrites the last coefficient, whatever variable it belongs to, when it leaves [-0.9, 0.9] (C28_clamp_refuted), so its lag bound check is dead code (C28_endog_het_lag_bound_unreachable). For vm see C87.
* **C47**: The loops of the GMM het/hom estimators, probit Newton, iterated SUR and panel random effects, for every step function. Proved: bounds on the passes, reported count, stop criterion. False: iterated SUR makes maxiter+1 passes (C47_sur_limit_refuted), a NaN estimate counts as convergence (C47_nan_converges_refuted), converging in the last permitted pass is reported as not converged (C47_newton_warn_refuted, C47_default_always_maximum). The SUR error ML loop (sur_error.py:543), which has no limit, is in C85.
* **C52**: Every 0/1 response and prediction vector: cells, margins, total, rates (C52_cells, C52_partition_partial, C52_rates, C52_rate_undefined). Probit does not reject other responses, for which the table is wrong (C52_not_binary_refuted).
* **C65**: Null likelihood, sign of the statistic and rho proved; the degrees of freedom reported are k, not k - 1 (C65_df_refuted).
* **C66**: Exact for scalem='xmean' (C66_effects_at_mean_partial); false for the default scalem='phimean' (C66_average_effects_refuted).
* **C53**: True for the power transformation when every stored weight is positive (C53_power_partial), as for weights passed to BaseNSLX. False in NSLX: the farthest neighbour always gets power weight 0, so the gradient is nan and no covariance matrix is reported (C53_power_nan_refuted); the exponential gradient is the derivative only where alpha d = e (C53_exponential_iff), e.g. it is zero at alpha = 1 for two points (C53_exponential_refuted).
* **C68**: Fit, weights and names proved for every optimiser result (C68_fit, C68_weights, C68_names_partial). False: vm omits the covariance between beta and alpha (C68_vm_gauss_newton_iff); NSLX raises when the last observation is nobody's neighbour (C68_outlier_refuted); with one parameter tuple per variable and a mask that keeps one variable the lag is named like the variable (C68_names_refuted). var_flag=0 is not modelled.
* **C40**: The mapping of cells and names is proved (C40_wide_partial, C40_long, C40_rows, C40_names, C40_no_digits). False: prepare_panel removes a column that is constant in one period before reshaping, so periods of different variables are mixed (C40_constant_period_refuted); left over columns are dropped silently (C40_extra_columns_refuted); a wide panel whose rows are a multiple of n is accepted (C40_wide_rows_refuted); names that differ only in digits collide (C40_names_collide_refuted).
* **C42**: Proved for float arrays (C42_lsdv_partial, C42_reports). False for integer regressors, whose demeaned values are truncated by np.zeros_like (C42_integer_refuted); the reported error variance divides by NT - N instead of NT - N - k (C42_df_refuted).
* **C44**: Rows and joint statistic proved whenever a table is returned (C44_rows, C44_complete_partial, C44_joint). False: the marginal spatial test without the other marginal or the joint test raises UnboundLocalError (C44_spatial_alone_refuted) and for any regression that is not PooledOLS the marginal and joint tests raise TypeError, also with which="all" (C44_other_class_refuted).
* **C70**: Formulas and clamps proved. False: with one marginal statistic not positive the joint p-value leaves out the chi-square(2) part, so equal statistics can have different p-values (C70_joint_p_refuted). The distribution functions are parameters; the regressions estimated inside are given by their residuals.
* **C49**: Proved for all functions but two (C49_rows, C49_weights_partial, C49_names). False: dgp_spdurbin and dgp_gns print the error about the weights but go on and raise (C49_weights_refuted).
* **C71**: Proved, except that make_wxg with one lagged variable does not check the number of coefficients and returns a matrix (C71_wxg_single, C71_wxg_refuted). Random draws are not modelled.
* **C50**: ati = adi + aii for every method; full = average diagonal of the inverse, raises when singular; total = average row sum for row-standardised W; power = truncated series, exact error term, two-sided bound, termination; impacts (Durbin layouts with any mask, regimes) characterised and tied to the matrix of partial effects. Refuted: 'power' is not accurate to the tolerance (stops at the first small term: power 3 for bipartite W or rho < 0); with regimes a slx_vars mask or fixed variables mix up coefficients; panel estimators without the slx_vars attribute broadcast or raise; direct effects leave out the feedback of lagged variables.
* **C54**: surLMe decouples (C54_error). Refuted for surLMlag: the score of equation j adds the residuals of every equation (C54_score, C54_lag_partial), with a two-equation SUR fit in which the statistic is not the sum of the single-equation ones (C54_refuted). Correct for one equation (C54_single), the specification is tied to lmLag/lmErr (C54_spec).
* **C75**: 2SLS start, diagonal case, unique minimisation of the projected criterion and positive definite covariance proved. The moment conditions hold when the instruments of the equations span the same space (C75_common_partial); refuted otherwise: off-diagonal blocks use Zhat_r'Zhat_t instead of Zhat_r'Z_t (C75_moment gives the exact gap, C75_refuted a fit).
* **C76**: proved with the default z; refuted: an explicit z raises ValueError (C76_explicit_z_refuted), and full-rank regressors can make the tests raise LinAlgError when a regressor is two-valued (C76_two_valued_refuted, C76_white_two_valued_refuted). White takes the condition index as an input (above 30 the test is not computed).
* **C80**: Moment equations, estimates, vm and default weights proved for all panels; the weights claim is false with full_weights=True (C80_tau_refuted, C80_tau_indefinite_refuted, C80_full_weights_refuted: two of the six weights are wrong, and when all units are neighbours the matrix has no Cholesky factor). The optimiser is an argument.
* **C81**: All parts proved except two that are false of the code: mu_i of ML_LagFE leaves out the spatial lag (C81_lag_mu_refuted) and the log-likelihood of the deprecated Panel_FE_Lag and Panel_FE_Error is too small by (nT/2) ln(nT) (C81_old_lag_loglik_refuted, C81_old_err_loglik_refuted). The minimiser's result is an argument; that it is a minimum is a hypothesis of the _global theorems.
* **C82**: All parts proved except two that are false of the code: vm (C82_vm_symmetric_refuted: it is not symmetric unless sig2 = 1; C82_phi_variance, C82_negative_variance_refuted: the variance of phi depends on the units of y and is negative for small sig2) and the log-likelihood of the deprecated class, which leaves out (N/2) ln phi^2 (C82_old_loglik_refuted). The minimisers are arguments; that they found minima is a hypothesis. Convergence to the global maximum is not claimed.
* **C83**: Coefficients, variances, log-likelihood, its maximality and the coefficient block of vm proved for symmetric weights. False of the code: with non-symmetric weights the objective is not the likelihood (C83_nonsymmetric_refuted: the eigenvectors of la.eig are not orthogonal); the block of vm for lambda and phi uses squares of traces where traces of squares belong and is undefined at lambda = 0 (C83_vm_partial gives its exact form, C83_lam0_refuted); the log-likelihood of the deprecated class is too small by (NT/2) ln(NT) (C83_old_loglik_refuted). The minimiser and the eigendecompositions are arguments.
* **C87**: Het estimators: exact for every zero-diagonal W (C87_vm_error_het, C87_vm_endog_het), positive semidefinite. Hom estimators: exact with endogenous variables when the filtered residuals sum to zero (C87_vm_endog_hom). False for GM_Error_Hom: get_omega_hom_ols multiplies the third moment by the unfiltered regressors (psiDL uses reg.x, everything else the filtered x_s), so vm is the covariance matrix plus the error E of C87_vm_error_hom and can fail to be positive semidefinite (C87_hom_refuted: a negative variance for a combination of the estimates, row-standardised W, |lambda| < 1); right when lambda = 0 or the residuals have no skewness (C87_vm_error_hom_partial). Missing: residuals that do not sum to zero in the hom case with endogenous variables; inv_method other than the default and filt=False; lambda and G are arguments.
* **C89**: True: range, stopping rule in terms of the band the code computes, units, window (C89_result, C89_units, C89_window). False: the trend is not Mojena's. The slope formula is applied to values from position w - 1 on, not to the window, so that at the first comparison 3/w times the last SSR is added to the mean (C89_first); the one time it is the least squares line of the window, the band is its value one step before the window instead of one step after (C89_backcast); hence adding a constant to all SSR changes the answer (C89_shift_refuted) and SSR falling along a straight line count as significant drops (C89_mojena_refuted). A window larger than the list is returned as the number of regimes (C89_window).
* **C90**: True: the variables, endogenous variables and instruments of every equation (C90_equation), one name per column and their form (C90_names). False: names given for endogenous variables and instruments are never used (C90_given_names_ignored); the caller's bigyend and bigq are overwritten with the lag of y and the lagged instruments (C90_arguments, C90_arguments_changed_refuted), so a second call with the same dictionaries meets the lag of y twice and the estimation raises (C90_second_call, C90_second_call_q); a lag order of 0 raises only after bigyend has been changed (C90_failed_call). Not modelled: regimes, dictionaries built from data frames.
* **C91**: True without SLX terms (C91_noslx_partial: accepted, variables, flags, last estimate, truthful names) and with one SLX order of all of at most three variables without further endogenous variables (C91_slx_one_partial). False: with SLX terms every explicit cols2regi list raises (C91_slx_flags_refuted); slx_vars='all', the default, raises with four or more variables because the names are zipped with the three letters of 'all' (C91_slx_all_refuted); two or more SLX orders of selected variables raise (C91_slx_mask_refuted); with a selection, more orders or endogenous variables instruments are reported under the name of another lag order (C91_instrument_names_refuted). Not modelled: regime_lag_sep=True, HAC switches, minimum numbers of observations.
* **C93**: True for every class but ML_Error_Regimes, one equation (C93_table, order: C93_order), for one model per regime when lambda has inference or there is none (C93_multi), and for ML_Error_Regimes when everything varies (C93_ml_error_all). False: ML_Error_Regimes keeps the flag of the constant in reg.cols2regi, so that when something does not vary the tests carry the name of another variable (C93_ml_error_shift_refuted, C93_ml_error_one_wrong_refuted), or an IndexError is swallowed and no table is printed (C93_ml_error_no_table_refuted); GM_Error_Regimes, GM_Endog_Error_Regimes and GM_Combo_Regimes with regime_err_sep show a row lambda without a test (C93_multi_lambda_refuted).
* **C94**: Types: right for ML_Lag, GM_Lag (C94_ml_single, C94_gm_single), for ML_Lag_Regimes with any flags and any selection of lagged variables (C94_ml_types), for GM_Lag_Regimes without SLX terms (C94_gm_types_noslx) and with them exactly when (n-1)/(lags+1), n the number of coefficients per regime, is the number of lagged variables (C94_gm_types_iff): always with all variables lagged and a constant per regime (C94_gm_types_many), never with constant_regi='one' or without a constant (C94_gm_types_one_refuted). One model per regime: accepted exactly when lags+1 divides the number of columns of x and its lags, right exactly when every variable is lagged (C94_ml_multi_accepts_iff, C94_ml_multi_iff, C94_gm_multi_accepts_iff, C94_gm_multi_iff); otherwise an error or the wrong variables are compared (C94_multi_wrong_refuted). Common factor test: right without regimes (C94_comfac_single; none with a selection, more orders or endogenous variables, C94_comfac_single_mask, C94_comfac_scope) and in regimes when all variables are lagged and vary (C94_comfac_partial); with regimes the summary of ML_Lag_Regimes raises a ValueError exactly when numbers of coefficients differ (C94_ml_comfac_raises_iff), so for every selection of lagged variables (C94_ml_comfac_mask_raises) and every fixed variable (C94_ml_comfac_fixed_raises), and otherwise can compare different variables (C94_wrong_pairs_refuted). Not modelled: the test statistic (C63), regimes whose name is _Global.
* **C95**: The class that runs is right (C95_class, C95_gmm_class, C95_gmm_regimes_class); every argument reaches it (C95_forwarded, C95_gmm_forwarded, C95_gmm_regimes_forwarded) with these exceptions: with regimes slx_vars never does, in none of the six classes (C95_slx_vars_refuted, C95_gmm_lost_refuted, C95_no_effect), nor hard_bound in GMM_Error, nor regime_lag_sep without add_wy (C95_gmm_regime_lag_sep_refuted); vif of OLS and nonspat_diag of TSLS have no effect with regimes (C95_missing_iff, C95_no_effect); an unknown estimator drops slx_vars and every further keyword (C95_gmm_unknown_estimator). Defaults are those of the class called (C95_defaults), so that GM_Lag(regimes=r) and GM_Lag_Regimes(r) differ in robust (C95_gm_lag_robust_refuted). Calls accepted: C95_accept_iff; a misspelled keyword is ignored without regimes, and by OLS always (C95_unknown_ignored). Simplified: arguments by keyword; signatures transcribed.
* **C96**: Automatic number (C96_auto, C96_choice) and given number (C96_given, C96_given_number) of regimes, whenever the class returns; on a connected map it returns exactly when the search ran and made two attempts at a cut (C96_runs_iff), and the largest number searched for is never used (C96_never_all), so that room for exactly two regimes always ends in an exception (C96_two_refuted); trace=False with n_clusters always raises (C96_trace_refuted). Too little room: C96_no_room; n_clusters=0 is None (C96_zero_is_none); enough observations: C96_enough, C96_default_quorum; switches: C96_arguments_ignored. Names: C96_names_partial; missing: GM_Lag_Endog_Regimes with named variables one of which is constant raises IndexError (C96_names_refuted). The regression is the oracle of C39, the spanning forest is a premise, 0.70 n is exact.
* **C97**: What is compared and when it is nan: C97_value; it never makes PanelRE fail: C97_runs; units of y and a combination of the regressors added to y: C97_units, C97_shift. The two covariance matrices rest on different variance estimates, sigma2_epsilon and sig2: the statistic is non-negative, and zero exactly when the slopes agree, when sig2 <= sigma2_epsilon (C97_nonneg_partial), and always defined when sig2 < sigma2_epsilon (C97_defined_partial; C97_witness); otherwise it can be negative with a p-value of 1 although the slopes differ (C97_negative_refuted). Premises: a column below the threshold of variation does not vary at all; for C97_units the solver of the between regression commutes with a factor, for C97_shift the between regression has full rank. The chi-squared distribution is a parameter.
* **C98**: the joint regression with the kernel for robust='hac', the warning, when regressions are split, unreachability of hac_multi, and what it would report, proved; refuted for other spellings of 'hac' (White's matrix of split regressions under the label 'HAC') and for White requests with a kernel given (the kernel's); 'ogmm' is accepted by OLS_Regimes and answered with White's matrix, as are other spellings of it in all three classes

## Print Assumptions

Generated by tools/assumptions.py, which runs `Print Assumptions` on every theorem of MANIFEST.json. The axioms are those of Coq's standard library for the real numbers and classical logic; nothing else is assumed.

* **Closed under the global context** (no axiom) — 513 theorems:
  BskTheorems: C44_rows C44_complete_partial C44_spatial_alone_refuted C44_other_class_refuted C44_joint; BskTheorems2: C70_marginal_effects C70_marginal_spatial C70_conditional_spatial; BskTheorems3: C70_no_clamp C70_conditional_effects C70_zero_denominator C70_joint_p_range C70_joint_p_partial C70_joint_p_refuted C70_example; CacheTheorems: C51_reads C51_stable C51_override C51_vm C51_clear C51_ols_partial C51_stale_refuted; CacheTheorems2: C32_pieces C32_tests; ChecksTheorems: C04_check_arrays C04_check_arrays_order C05_check_constant C06_check_robust C06_spat_diag_partial C06_spat_diag_case_refuted C57_check_y C57_check_weights C57_check_regimes C57_check_regi_args; ChoTheorems: C93_table C93_flags C93_order C93_multi C93_multi_lambda_refuted C93_ml_error_all C93_ml_error_no_table_refuted C93_ml_error_shift_refuted C93_ml_error_one_wrong_refuted; DgpTheorems: C48_errproc C48_ols C48_slx C48_sperror C48_slxerror C48_lag C48_spdurbin C48_lagerr C48_gns C48_mess C48_defined C48_power_expansion C48_witness C49_rows C49_weights_partial C49_weights_refuted C49_names C71_xb C71_wx C71_wxg_partial C71_wxg_single C71_wxg_refuted C71_heterror C71_vmult_linear C71_vmult_group; DiagTheorems: C76_dedup C76_breusch_pagan_partial C76_koenker_bassett_partial C76_kb_is_nR2 C76_studentized C76_residual_units C76_regressor_units C76_explicit_z_refuted C76_two_valued_refuted; DiagTheorems2: C76_white_columns C76_white_partial C76_white_invariant C76_white_two_valued_refuted; DiagTheorems3: C77_vif C77_missing_iff_constant C77_vif_ge1 C77_vif_variance C77_vif_invariant C77_ci_eigenvalues C77_ci_units C77_ci_orthogonal; DiagTheorems4: C78_f_is_wald C78_dwh_residual_form C78_dwh_control_function C78_dwh_order_condition C78_dwh_instruments C79_jarque_bera C79_scale C79_moments; EndNTheorems: C96_names_partial C96_names_refuted; EndTheorems: C96_auto C96_choice C96_never_all C96_two_refuted C96_no_room C96_zero_is_none C96_given C96_given_number C96_trace_refuted C96_arguments_ignored C96_enough C96_default_quorum C96_runs_iff; FilterTheorems: C22_truncated_inverse C22_raises_iff C22_accuracy C22_truncated_inverse_post C22_true_inverse C22_contraction_refuted C23_reduced_form C23_out_of_bounds C23_sum_refuted C23_sum C24_filter C24_linear C24_panel; FwdTheorems: C95_class C95_forwarded C95_slx_vars_refuted C95_defaults C95_accept_iff C95_missing_iff C95_no_effect C95_unknown_ignored C95_gmm_regimes_class C95_gmm_regimes_forwarded C95_gmm_regime_lag_sep_refuted C95_gmm_class C95_gmm_forwarded C95_gmm_lost_refuted C95_gmm_unknown_estimator C95_gm_lag_robust_refuted; GlrTheorems: C91_slx_flags_refuted C91_slx_mask_refuted C91_slx_all_refuted C91_noslx_partial C91_slx_one_partial C91_slx_mask_names C91_instrument_names_refuted C91_witness; GvmTheorems: C87_het_weight C87_vm_error_het C87_het_weight_unit C87_vm_endog_het C87_het_psd C87_endog_het_psd; GvmTheorems2: C87_hom_weight C87_hom_weight_psd C87_vm_endog_hom C87_vm_error_hom C87_vm_error_hom_partial C87_endog_hom_psd; HacTheorems: C98_value C98_own C98_excess C98_inflated C98_diagonal C98_single C98_multi_raises; HacTheorems2: C98_multi_wrong; HausTheorems: C97_value C97_nonneg_partial C97_defined_partial C97_runs; HausTheorems2: C97_units C97_shift; HausTheorems3: C97_witness C97_negative_refuted; KkpTheorems: C80_same_moments C80_within_moments C80_six_moments; KkpTheorems2: C80_tau_right C80_tau_refuted C80_tau_spec_psd C80_tau_indefinite_refuted C80_full_weights_refuted C80_default_weights_partial; KkpTheorems3: C80_residuals C80_start C80_gls C80_vm C80_same_estimates C80_defined; LMTheorems: C31_sarma C31_durbin; LMTheorems2: C31_durbin_defined C43_decomposition_partial C43_trace C61_moran_moments C61_ak C62_hausman_refuted C63_comfac; LMTheorems3: C43_refuted; LagsTheorems: C02_slx_names C02_slx_accepts C02_slx_q_names_partial C02_q_names_refuted C20_get_lags C20_get_lags_split C20_get_lags_split_rejects C20_zero_lags_gives_one C21_set_endog_dense C21_sparse_agrees_partial C21_sparse_repeats_refuted; LinRegTheorems: C10_wald_zero_and_sign C10_wald_zero_any_vm C10_wald_invariant C14_ols_fails_iff_dependent C14_ols_normal_equations C14_ols_least_squares C15_ols_recombination C15_ols_shift C15_ols_vm C16_regimes_equal_separate_ols C16_design_entries C17_wls_normal_equations C17_wls_unique C17_weighted_regimes_partial C17_equal_variances_is_ols C17_negative_variance_refuted C18_white_psd C18_white_entries C18_hac_symmetric C18_hac_identity_is_white C18_ols_vm_white_partial C18_white_with_gwk_refuted C19_tsls_moments C19_tsls_just_identified C19_tsls_self_instrument_is_ols C19_tsls_both_or_neither_partial C19_tsls_sparse_both_refuted C33_fit_measures C33_f_stat_last_nonneg; LoopTheorems: C28_error_het C28_endog_het_partial C28_endog_het_lag_bound_unreachable C28_endog_het_error_bound C28_endog_hom C28_no_pass_crashes C28_clamp_refuted C47_gm_loop C47_gm_stops_at_first_small_move C47_gm_no_pass C47_message C47_nan_converges_refuted C47_default_always_maximum C47_newton C47_newton_warn_refuted C47_sur_partial C47_sur_limit_refuted C47_random_effects; MLTheorems3: C60_err_info C60_lag_info; MomentsTheorems: C25_filter_commutes_iff C25_e_filtered_partial C25_x_lag_iff C25_refuted C26_gm_moments C26_zero_iff C27_two_moments C27_A1_het C27_A1_hom C58_objective C58_weighted_objective C58_same_minimisers C58_scale_gm C59_gm_error C59_defined; MultTheorems: C50_adds C50_method C50_full C50_total C50_power C50_power_stops C50_power_error; MultTheorems2: C50_defined C50_bounds C50_power_bound C50_power_terminates C50_power_negative C50_power_refuted C50_power_witness; MultTheorems3: C50_effects_add C50_effects_durbin C50_effects_durbin_all C50_effects_lag C50_effects_regimes_partial; MultTheorems4: C50_total_effect C50_direct_effect C50_direct_effect_refuted C50_mask_regimes_refuted C50_fixed_regimes_refuted C50_noattr_refuted C50_noattr_raises C72_lag C72_balance C72_average C72_slx C72_kernel; NamesTheorems: C01_default_x_names C01_user_x_names C01_yend_names C01_q_names C03_total C03_labels C03_prefix_needed C56_gm_lag_names_partial C56_gm_lag_slx_names_partial C56_yend_slx_refuted C56_mask_two_lags_raises_refuted C56_mask_refuted; NslxTheorems2: C68_names_partial C68_names_refuted C68_names_example; OptkTheorems: C89_result; OptkTheorems2: C89_units C89_window C89_backcast C89_first; OptkTheorems3: C89_shift_refuted C89_mojena_refuted C89_witness; OutTheorems: C92_single C92_single_iff C92_multi C92_regime_text_order; PanelTheorems: C41_demean C41_full_weight C41_unit_means_zero C41_idempotent C41_time_invariant C41_commutes_with_lag C42_lsdv_partial C42_reports C42_df_refuted; PanelTheorems2: C42_integer_refuted C69_gls C69_vm C69_weight C69_defined C69_example; PanelTheorems3: C40_wide_partial C40_long C40_rows C40_names C40_no_digits C40_digits C40_wide_rows_refuted C40_extra_columns_refuted C40_constant_period_refuted C40_names_collide_refuted C40_example; Pr2Theorems: C88_pr2_range C88_pr2_one C88_pr2_affine C88_pr2_ols C88_pr2_best; Pr2Theorems2: C88_t_wald C88_t_units C88_spatial_intercept C88_spatial_out_of_bounds C88_witness; ProbitTheorems: C52_cells C52_partition_partial C52_rates C52_rate_undefined C52_not_binary_refuted C52_example; ProbitTheorems3: C65_df_refuted; ProbitTheorems4: C67_values C67_symmetrised C67_scale_free C67_nonneg C67_equal_probabilities; RegMultiTheorems: C13_betas C13_vm C13_residuals C13_fit_identity C13_names C13_name_y_refuted C13_constant_columns C13_duplicate_names_refuted; RegOptTheorems: C98_split_iff C98_hac_joint C98_unreachable C98_lag_kept C98_spelling C98_white C98_empty C98_weighted C98_case_refuted C98_white_refuted; RegWTheorems: C12_total C12_regime_weights C12_union C12_union_single C12_w_regimes C12_row_sums C12_original_weights_refuted; RegimesTheorems: C07_design C07_fitted_value C08_names C09_chow_one_partial C09_chow_joint_partial C09_chow_exogenous C09_chow_refuted C09_chow_drops_extra C11_check_cols2regi C11_no_constant_error C55_regimes_set C55_regimes_set_float_partial C55_regimes_set_float_refuted; SearchTheorems: C35_label C35_model C35_ols C35_nan C36_label C36_model C36_agree; SearchTheorems2: C37_model C37_label_partial C37_refuted C38_gns_total C38_gns C38_gns_agree C38_gns_sig C38_sdm_total C38_sdm C38_sdm_agree; SkaterTheorems2: C39_fit_partial C39_cuts C39_refines C39_greedy C39_no_raise_partial C39_labels_lost_refuted C39_lost_refuted C39_islands_refuted; SlagTheorems: C90_equation C90_names C90_given_names_ignored C90_arguments C90_arguments_changed_refuted C90_failed_call C90_second_call C90_second_call_q C90_witness; Sur3Theorems: C75_first C75_2sls C75_resid C75_diagonal C75_minimum C75_moment C75_common_partial C75_refuted; SurTheorems: C45_stack C45_unstack C45_stack_unchecked C45_check_k C45_decompose C45_base C46_normal C46_diagonal C46_defined C46_minimum C46_varb C46_common; SurTheorems2: C45_corr C45_bound C45_lmtest; SurTheorems3: C54_error C54_score C54_lag_partial C54_single C54_spec C54_refuted; SurTheorems4: C73_error C73_lag C74_select C74_value C74_test; SurTheorems5: C74_contrast C74_chow; SuvTheorems: C86_parameters; TypTheorems: C94_ml_types C94_gm_types_noslx C94_gm_types_iff C94_gm_types_many C94_gm_types_one_refuted C94_comfac_partial C94_ml_comfac_raises_iff C94_ml_comfac_fixed_raises C94_ml_comfac_mask_raises C94_ml_single C94_gm_single C94_ml_multi_accepts_iff C94_gm_multi_accepts_iff C94_ml_multi_iff C94_gm_multi_iff C94_comfac_single C94_comfac_scope C94_comfac_single_mask C94_wrong_pairs_refuted C94_multi_wrong_refuted C94_gm_one_refuted
* **`ClassicalDedekindReals.sig_forall_dec`, `ClassicalDedekindReals.sig_not_dec`, `ClassicalEpsilon.constructive_indefinite_description`, `Classical_Prop.classic`, `FunctionalExtensionality.functional_extensionality_dep`** — 87 theorems:
  MLTheorems: C29_lag_fit C29_lag_loglik C29_lag_global C29_lag_concentrated_defined C29_err_fit C29_err_loglik C29_err_global; MLTheorems2: C30_jacobian_positive C30_full_lu C30_full_ord C30_full_ord_complex C30_ord_setup C30_ord_objective_partial C30_tr3 C30_vm_refuted C30_vm1_refuted C30_unequal_weights_refuted C30_transform_refuted; MLTheorems4: C60_err_vm C60_lag_vm C60_err_defined C60_lag_defined; NslxTheorems: C53_exponential_iff C53_power_partial C53_power_nan_refuted; NslxTheorems2: C53_exponential_refuted C68_fit C68_vm_gauss_newton_iff C68_outlier_refuted; PfeTheorems: C81_lag_fit C81_lag_loglik C81_lag_global; PfeTheorems2: C81_err_fit C81_err_loglik C81_err_global; PfeTheorems3: C81_lag_vm C81_err_vm; PfeTheorems4: C81_shift C81_time_invariant C81_lag_mu_refuted C81_old_objective_partial C81_old_lag_loglik_refuted C81_old_err_loglik_refuted C81_pooled; PfeTheorems5: C81_lag_defined C81_err_defined; PreTheorems: C82_fit; PreTheorems2: C82_loglik C82_monotone C82_fixed_point C82_iterations C82_old_loglik_refuted; PreTheorems3: C82_varb_partial C82_vm_symmetric_refuted C82_info C82_phi_variance; PreTheorems4: C82_negative_variance_refuted; ProbitTheorems2: C64_gradient; ProbitTheorems3: C64_normal_exists C64_hessian_negative C64_stationary_is_maximum C64_vm_pd C64_newton C65_null_likelihood C65_lr_partial; PrrTheorems: C83_fit_partial; PrrTheorems2: C83_loglik_partial C83_global_partial C83_old_loglik_refuted; PrrTheorems3: C83_lam0_refuted C83_nonsymmetric_refuted; PrrTheorems4: C83_witness; PrrTheorems5: C83_vm_partial; SueTheorems: C84_clik C84_pass; SueTheorems2: C84_sur_llik C84_sur_monotone C84_sur_lr; SueTheorems3: C85_result C85_varb C85_terminates C85_reports C85_unbound; SuvTheorems2: C86_vm C86_joint_test C86_constancy_test; SuvTheorems3: C86_witness
* **`ClassicalDedekindReals.sig_forall_dec`, `ClassicalDedekindReals.sig_not_dec`, `Classical_Prop.classic`, `FunctionalExtensionality.functional_extensionality_dep`** — 3 theorems:
  InfoCritTheorems: C34_akaike C34_schwarz C34_likelihood_decreasing
* **`ClassicalDedekindReals.sig_forall_dec`, `ClassicalEpsilon.constructive_indefinite_description`, `Classical_Prop.classic`, `FunctionalExtensionality.functional_extensionality_dep`** — 12 theorems:
  GvmTheorems3: C87_hom_refuted C87_witness; NslxTheorems2: C53_power_example C68_weights C68_weights_example; ProbitTheorems2: C64_hessian C64_score_residuals; ProbitTheorems3: C66_effects_at_mean_partial C66_average_effects_refuted; SueTheorems4: C85_gm; SuvTheorems: C86_info; SuvTheorems2: C86_symmetric
* **`ClassicalDedekindReals.sig_forall_dec`, `FunctionalExtensionality.functional_extensionality_dep`** — 3 theorems:
  InfoCritTheorems: C34_likratio C34_likratio_symmetric_partial C34_likratio_df_refuted
