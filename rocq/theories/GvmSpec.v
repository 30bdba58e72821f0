(** Specification for the covariance matrices of the GM estimators: exact covariance matrices over a finite, equally likely set of outcomes.
    Heteroskedastic errors: every error is its residual with an independent random sign.
    Homoskedastic errors: every error is an independent draw from the residuals. *)
From mathcomp Require Import all_ssreflect all_algebra.
Set Implicit Arguments.
Unset Strict Implicit.
Unset Printing Implicit Defensive.
Local Open Scope ring_scope.

Section Spec.
Variables (R : realFieldType).
Definition avg (T : finType) m p (f : T -> 'M[R]_(m, p)) : 'M[R]_(m, p) := #|T|%:R^-1 *: \sum_t f t.
Definition covmx (T : finType) m (F : T -> 'cV[R]_m) : 'M[R]_m := avg (fun t => F t *m (F t)^T) - avg F *m (avg F)^T.
Definition random_sign n (e : 'cV[R]_n) (s : {ffun 'I_n -> bool}) : 'cV[R]_n := \col_i (if s i then e i 0 else - e i 0).
Definition random_draw n (e : 'cV[R]_n) (d : {ffun 'I_n -> 'I_n}) : 'cV[R]_n := \col_i e (d i) 0.
Definition random_signed_draw n (e : 'cV[R]_n) (d : {ffun 'I_n -> 'I_n * bool}) : 'cV[R]_n := \col_i (if (d i).2 then e (d i).1 0 else - e (d i).1 0).
(** Two-stage least squares of the filtered data (regressors Z, instruments H): the error it makes when the disturbances are e. *)
Definition coef_error n k h (Z : 'M[R]_(n, k)) (H : 'M[R]_(n, h)) (e : 'cV[R]_n) : 'cV[R]_k :=
  let Zhat := H *m invmx (H^T *m H) *m H^T *m Z in invmx (Zhat^T *m Zhat) *m Zhat^T *m e.
(** The two moments e'A e / n.  When the coefficients are estimated with endogenous variables (endog), the moments are taken at residuals
    e - Z d with d the error of the coefficients: their first-order change is - 2 us'A Z d / n, us the observed residuals. *)
Definition moment_error n k h (endog : bool) (A : 'I_2 -> 'M[R]_n) (us : 'cV[R]_n) (Z : 'M[R]_(n, k)) (H : 'M[R]_(n, h)) (e : 'cV[R]_n) : 'cV[R]_2 :=
  \col_r (n%:R^-1 * (e^T *m A r *m e) 0 0 - (if endog then 2%:R * n%:R^-1 * (us^T *m A r *m Z *m coef_error Z H e) 0 0 else 0)).
(** Weighting matrix: n times the covariance matrix of the moments. *)
Definition moment_weight n k h endog A us Z H (T : finType) (eps : T -> 'cV[R]_n) : 'M[R]_2 := n%:R *: covmx (fun t => @moment_error n k h endog A us Z H (eps t)).
(** Weighted least squares of the moments on their slope J: the error of the spatial parameter. *)
Definition lambda_error n k h endog A us Z H (J : 'cV[R]_2) (T : finType) (eps : T -> 'cV[R]_n) (e : 'cV[R]_n) : 'cV[R]_1 :=
  let w := invmx (moment_weight endog A us Z H eps) in invmx (J^T *m w *m J) *m J^T *m w *m @moment_error n k h endog A us Z H e.
(** Covariance matrix of the errors of the coefficients and of the spatial parameter. *)
Definition estimator_cov n k h endog A us Z H J (T : finType) (eps : T -> 'cV[R]_n) : 'M[R]_(k + 1) :=
  covmx (fun t => col_mx (coef_error Z H (eps t)) (@lambda_error n k h endog A us Z H J T eps (eps t))).
(** G [1; 2 lambda]: derivative in lambda of the moment conditions G [lambda; lambda^2] *)
Definition moment_slope (G : 'M[R]_2) (lam : R) : 'cV[R]_2 := \col_r (G r 0 + 2%:R * lam * G r 1).
(** The two matrices of the moments e'A e: W'W without its diagonal (heteroskedastic case) or recentred to trace zero, possibly rescaled
    (homoskedastic case), and the symmetric part of W. *)
Definition sym_part n (W : 'M[R]_n) : 'M[R]_n := 2%:R^-1 *: (W + W^T).
Definition moments_het n (W : 'M[R]_n) (r : 'I_2) : 'M[R]_n := if r == 0 then \matrix_(i, j) (if i == j then 0 else (W^T *m W) i j) else sym_part W.
Definition moments_hom n (W : 'M[R]_n) (scale : bool) (r : 'I_2) : 'M[R]_n :=
  let m := \tr (W^T *m W) / n%:R in
  if r == 0 then (if scale then (1 + m ^+ 2)^-1 else 1) *: (W^T *m W - m%:M) else sym_part W.
End Spec.
