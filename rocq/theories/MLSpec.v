(** Specification: the Gaussian log-likelihoods of the spatial lag and spatial error models, in all their parameters. *)
From Coq Require Import Reals.
From mathcomp Require Import all_ssreflect all_algebra.
From Verif Require Import Rinst.
Set Implicit Arguments.
Unset Strict Implicit.
Unset Printing Implicit Defensive.
Import Order.TTheory GRing.Theory Num.Theory.
Local Open Scope ring_scope.

Definition ssq n (e : 'cV[R]_n) : R := \sum_i (e i 0) ^+ 2.
Definition gauss_loglik n (jac : R) (e : 'cV[R]_n) (s2 : R) : R :=
  - (n%:R / 2%:R) * ln (2%:R * PI) - (n%:R / 2%:R) * ln s2 + ln `|jac| - ssq e / (2%:R * s2).
(** (I - rho W) y = x b + e,  e ~ N(0, s2 I) *)
Definition lag_loglik n k (y : 'cV[R]_n) (x : 'M[R]_(n, k)) (W : 'M[R]_n) (b : 'cV[R]_k) (rho s2 : R) : R :=
  gauss_loglik (\det (1%:M - rho *: W)) ((1%:M - rho *: W) *m y - x *m b) s2.
(** y = x b + u,  (I - lam W) u = e,  e ~ N(0, s2 I) *)
Definition err_loglik n k (y : 'cV[R]_n) (x : 'M[R]_(n, k)) (W : 'M[R]_n) (b : 'cV[R]_k) (lam s2 : R) : R :=
  gauss_loglik (\det (1%:M - lam *: W)) ((1%:M - lam *: W) *m (y - x *m b)) s2.

(** weights as spreg's users supply them: no self-links; non-negative with row sums at most one (row standardised, islands allowed) *)
Definition zero_diag n (W : 'M[R]_n) := forall i, W i i = 0.
Definition substochastic n (W : 'M[R]_n) := (forall i j, 0 <= W i j) /\ (forall i, \sum_j W i j <= 1).
