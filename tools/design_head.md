# Formal model of pysal/spreg in Rocq (Coq 8.16.1)

## Method

* Two styles of model, each kept in its own files:
  * **list models** (stdlib `list`, `string`, `nat`, `Z`, `Q`): names, option checks, regime indices, lags,
    search decision trees, skater loop, panel reshaping, SUR dictionaries, caches, iteration loops. They are
    executable; Python exceptions are values (`Err ...`), unbound variables are errors.
  * **matrix models** (MathComp `'M[F]_(m,n)` over an arbitrary field / real field): everything that numpy does
    with `dot`, `inv`, `T`, sums. `la.inv` on a singular matrix raises, so it is modelled by an option or a
    `\in unitmx` guard.
* File naming: `XModel.v` = definitions only, each citing `/repo` file:lines; `XProofs.v` = lemmas;
  `XTheorems.v` = the property theorems (`Proof. exact lemma. Qed.`), non-vacuity `Example`s and
  `Print Assumptions`.
* A property false of the code is kept in full in `properties.jsonl`; the theorem about the part that holds is named
  `*_partial`, the counterexample `*_refuted`.

## Plan per property

| id | property | model and proof |
|----|----------|-----------------|
| C01 | one name per column | Names: `set_name_x/yend/q`; length, order, NoDup (decimal printing injective) |
| C02 | SLX names vs columns | Lags: `flex_wx` on symbolic columns (lag order, variable); pairing theorem; q-name order refuted by witness |
| C03 | spatial instrument names | Names: `set_name_q_sp` with counter dictionary; loop invariant |
| C04 | check_arrays | Checks: arrays as records; exact accept characterisation |
| C05 | check_constant | Checks: columns as lists of Z |
| C06 | robust / spat_diag | Checks: ASCII case folding |
| C07 | regime design matrix | Regimes: `x2xsp`, `regimeX_setup` on lists; dot product theorem |
| C08 | regime names | Regimes: nth-wise alignment |
| C09 | Chow restrictions | Regimes: `buildR1var`, `buildR` as Z matrices, meaning of `R beta = 0` |
| C10 | Wald statistic | LinReg: MathComp real field |
| C11 | cols2regi | Regimes |
| C12 | regime weights | Regimes: weights as adjacency lists |
| C13 | regime result scatter | Regimes: fold of slot writes |
| C14-C17, C19 | OLS, WLS, 2SLS algebra | LinReg: MathComp |
| C18 | robust vm | LinReg |
| C20, C21 | lag builders | Lags: abstract lag operator on lists of columns |
| C22, C23 | power expansion, sp_att | PowerExp: fuelled loop, matrices, norm as oracle |
| C24, C25 | spatial filter | Filter: MathComp |
| C26, C27 | GM moments | Moments: matrix identities |
| C28 | HET/HOM reported estimates | HetLoop: control-flow model, 2SLS and optimiser as oracles |
| C29, C30 | ML lag/error | MLAlg: determinants, char_poly; rational star-graph witness |
| C31, C43 | LM decompositions | LMAlg: field identities |
| C32, C51 | caches | CacheModel: state machine |
| C33, C34 | fit measures, information criteria | LinReg / DiagAlg (log is an oracle) |
| C35-C38 | specification searches | Search: decision functions over Q p-values with NaN |
| C39 | skater | Skater: component labelling and scores as oracles, invariant over cuts |
| C40-C42 | panels | Panel (lists) and PanelAlg (MathComp) |
| C44 | BSK | Bsk: control flow with unbound variables as errors |
| C45, C46, C54 | SUR | SurLists, SurAlg |
| C47 | iteration limits | Loops |
| C48, C49 | data generation | Dgp |
| C50 | multipliers | Multipliers |
| C52 | probit table | Probit |
| C53 | NSLX gradient | Nslx: stdlib Reals |
| C55 | regime identifiers | Regimes |
| C56 | instrument names | Names: `gm_lag` name assembly against symbolic columns of Lags |
| C57 | check_y, weights, regimes | Checks: exact accept conditions |
| C58, C59 | GM objective, two-step GM | Filter: sum of squares of the moment equations; optimiser abstract |
| C60 | ML covariance | ML: information as Gram matrix, Schur complements |
| C61, C63 | Moran, AK, common factor | LM: moments of ratios of quadratic forms, Wald |
| C62 | Hausman | LM: algebra, refuted sign |
| C64-C67 | probit | Probit over Coq's reals: derivatives (Coquelicot-free), concavity, stationarity; normal distribution characterised in NormalDist |
| C68 | NSLX estimation | Nslx |
| C69 | random effects | Panel: GLS transformation with Kron |
| C70 | BSK statistics | Bsk: trace identities with Kron |
| C71 | data generation blocks | Dgp |
| C72 | observation multipliers | Mult |
| C73, C74 | SUR LM and Wald tests | Sur: Schur product (Fiedler) inequality, block indices |
| C75 | 3SLS | Sur3 |
| C76-C79 | heteroskedasticity, VIF, F, DWH, Jarque-Bera | Diag: lists of columns, Frisch-Waugh, Cauchy-Schwarz |
| C80 | KKP panel | Kkp: quadratic form moments, Kron |
| C81 | ML fixed effects panels | Pfe: profile likelihood, Kron |
| C82 | ML random effects lag panel | Pre: coordinate ascent, iteration histories |
| C83 | ML random effects error panel | Prr: whitening, block determinants |
| C84 | likelihood of SUR and of the SUR error model | Sue: whitening, ln det + trace inequality (Schur complements), Hadamard |
| C85 | SUR error ML loop, SUR error GM | Sue: descent of each pass, Archimedean termination |
| C86 | information matrix and tests of the lambdas in SURerrorML | Suv, MxDeriv: derivative of matrix inverses, Kronecker traces, Frobenius norm |
| C87 | covariance matrices of the GM het/hom estimators | Gvm: exact covariances over finite sets of outcomes, moments of independent signs/draws, block matrices |
| C88 | pseudo R2, t statistics | Pr2: Cauchy-Schwarz, least squares projection |
| C89 | optim_k | Optk: loop invariant, least squares line in closed form |
| C90 | spatial lag SUR | Slag: induction on the lag loops; effect on the caller's dictionaries as part of the outcome |
| C91 | spatial lag with regimes, preparation | Glr: composition of the Lags, Names and Regimes models; name and column counts |
| C92 | coefficient table of the summary | Out: lists with labels, stable sort, filtering; permutation and alignment lemmas |
| C93 | table of Chow tests | Out, Cho: the attributes each class sets composed with the table; positions of the flags |
| C94 | types of coefficients, common factor test | Typ: rows labelled by position against a specification that labels coefficients; induction over regimes, counting |
| C95 | arguments reach the class that does the work | Fwd: Python's binding of keyword arguments, signatures and forwarded lists; lookup lemmas for any arguments, a boolean check per class |
| C96 | endogenous regimes | End, EndN: composition of the Skater search (C39), optim_k (C89) and the checks of the regimes class; cut histories split at the chosen cut, counting of observations |
| C97 | Hausman test of PanelRE | Haus: block of the inverse Gram matrix against the inverse of the within Gram matrix (within and between are orthogonal), hence the difference is positive semidefinite; two panels computed in the integers |
| C98 | HAC requests in the regimes classes | RegOptModel, RegOptTheorems, HacModel, HacTheorems, HacTheorems2: the option rules of the three classes as functions, by case analysis; hac_multi on matrices, split sums and a psd kernel |

Not expressible: floating-point rounding, convergence of scipy optimisers, p-value numerics, formatting of the text
summary, multiprocessing scheduling (only the gather step is modelled).

## Trusted base

* Coq 8.16.1's kernel (and `coqc`'s parsing and printing of the statements); no kernel check is switched off, no plugin of our own, no functor or module type.
* MathComp (all_ssreflect, all_algebra, fingroup) and Coq's standard library; the axioms they bring in are listed under Print Assumptions below.
* The reading of the Python source recorded in the comments of the `*Model.v` files. Exact arithmetic stands for float64.
* The specifications: the `*Spec.v` files (LagsSpec, RegimesSpec, RegWSpec, MLSpec, LMSpec, ProbitSpec, PfeSpec, PreSpec, PrrSpec, ...) and definitions placed beside theorems.

## Files

`X` below stands for `XModel.v` (definitions), `XSpec.v` (what the property means), `XProofs*.v` (lemmas), `XTheorems*.v` (theorems and examples).

* lists: PyBase, Lags, Names, Checks, Regimes, RegW, RegMulti, Cache, Search, Skater, Loop
* matrices: LinReg (OLS, 2SLS, robust, Wald, fit), Mring (ring tactic), Filter (filter, power expansion, moments; theorems in MomentsTheorems), LM, Kron, Panel, Bsk, Dgp,
  Mult, Sur, Sur3, Diag, Kkp
* real numbers: Rinst (Coq's reals as a MathComp real closed field), InfoCrit, ML, Probit, NormalDist, Nslx, Pfe, Pre, Prr, Sue

The arguments `robust` and `sig2n_k` of the specification searches are ignored by the code, and therefore by Search.

Wrong programs tried against the theorems are in seeded/LOG.jsonl (tools/mutate.py edits a definition in a scratch copy, rebuilds and records what fails).
