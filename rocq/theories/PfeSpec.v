(** Specification: Gaussian log-likelihoods of the spatial panel models with unit effects, in all their parameters. *)
From Coq Require Import Reals.
From mathcomp Require Import all_ssreflect all_algebra.
From mathcomp.fingroup Require Import perm.
From Verif Require Import Rinst MLSpec Kron.
Set Implicit Arguments.
Unset Strict Implicit.
Unset Printing Implicit Defensive.
Import Order.TTheory GRing.Theory Num.Theory.
Local Open Scope ring_scope.

Section Spec.
Variables (T n k : nat).
(** the observations of period t *)
Definition period (t : 'I_T) c (a : 'M[R]_(T * n, c)) : 'M[R]_(n, c) := \matrix_(i, j) a (pix t i) j.
(** T independent periods, residual vectors e t ~ N(0, s2 I), each with the Jacobian determinant jac *)
Definition panel_loglik (jac : R) (e : 'I_T -> 'cV[R]_n) (s2 : R) : R :=
  - ((T * n)%:R / 2%:R) * ln (2%:R * PI) - (T * n)%:R / 2%:R * ln s2 + T%:R * ln `|jac| - (\sum_t ssq (e t)) / (2%:R * s2).
(** y_t = rho W y_t + x_t b + mu + e_t *)
Definition fe_lag_loglik (y : 'cV[R]_(T * n)) (x : 'M[R]_(T * n, k)) (W : 'M[R]_n) (b : 'cV[R]_k) (rho : R) (mu : 'cV[R]_n) (s2 : R) : R :=
  panel_loglik (\det (1%:M - rho *: W)) (fun t => period t y - rho *: (W *m period t y) - period t x *m b - mu) s2.
(** y_t = x_t b + mu + u_t,  u_t = lam W u_t + e_t *)
Definition fe_err_loglik (y : 'cV[R]_(T * n)) (x : 'M[R]_(T * n, k)) (W : 'M[R]_n) (b : 'cV[R]_k) (lam : R) (mu : 'cV[R]_n) (s2 : R) : R :=
  panel_loglik (\det (1%:M - lam *: W)) (fun t => let u := period t y - period t x *m b - mu in u - lam *: (W *m u)) s2.
(** the average over time of unit i *)
Definition over_time c (a : 'M[R]_(T * n, c)) : 'M[R]_(n, c) := \matrix_(i, j) ((\sum_t period t a i j) / T%:R).
(** a long panel whose unit i has the value m i in every period *)
Definition constant_units c (m : 'M[R]_(n, c)) : 'M[R]_(T * n, c) := \matrix_(r, j) m (pu r) j.
End Spec.
Arguments constant_units T {n c} m.
(** a factorisation as computed by SuperLU, with row and column permutations *)
Definition is_lu n (A U : 'M[R]_n) : Prop :=
  exists L (s t : 'S_n), [/\ perm_mx s *m A *m perm_mx t = L *m U, forall i, L i i = 1, is_trig_mx L & is_trig_mx U^T].

(** expected information of (beta, rho, sigma2) in the lag panel after the effects are removed; xw t: deviations of x_t from the unit means *)
Definition panel_lag_info T n k (x : 'M[R]_(T * n, k)) (W : 'M[R]_n) (b : 'cV[R]_k) (rho s2 : R) : 'M[R]_(k + (1 + 1)) :=
  let xw t := period t x - over_time x in
  let G := W *m invmx (1%:M - rho *: W) in
  let xx := s2^-1 *: \sum_t (xw t)^T *m xw t in
  let xr := s2^-1 *: \sum_t (xw t)^T *m (G *m (xw t *m b)) in
  let rr := T%:R * (\tr (G *m G) + \tr (G^T *m G)) + s2^-1 * \sum_t ssq (G *m (xw t *m b)) in
  let rs := T%:R * \tr G / s2 in
  block_mx xx (row_mx xr 0) (col_mx xr^T 0) (block_mx rr%:M rs%:M rs%:M ((T * n)%:R / (2%:R * s2 ^+ 2))%:M).
(** expected information of (lambda, sigma2) in the error panel *)
Definition panel_err_info T n (W : 'M[R]_n) (lam s2 : R) : 'M[R]_(1 + 1) :=
  let G := W *m invmx (1%:M - lam *: W) in
  block_mx (T%:R * (\tr (G *m G) + \tr (G^T *m G)))%:M (T%:R * \tr G / s2)%:M (T%:R * \tr G / s2)%:M ((T * n)%:R / (2%:R * s2 ^+ 2))%:M.
