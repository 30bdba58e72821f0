(** Specification: the Gaussian log-likelihood of the spatial lag panel with random unit effects,
    y_t = rho W y_t + x_t b + mu + e_t,  mu ~ N(0, smu2 I),  e_t ~ N(0, s2 I), all independent. *)
From Coq Require Import Reals.
From mathcomp Require Import all_ssreflect all_algebra.
From Verif Require Import Rinst MLSpec Kron PfeSpec.
Set Implicit Arguments.
Unset Strict Implicit.
Unset Printing Implicit Defensive.
Import Order.TTheory GRing.Theory Num.Theory.
Local Open Scope ring_scope.

(** the log density of N(0, V) at e *)
Definition normal_loglik m (V : 'M[R]_m) (e : 'cV[R]_m) : R :=
  - (m%:R / 2%:R) * ln (2%:R * PI) - (1 / 2%:R) * ln (\det V) - (1 / 2%:R) * (e^T *m invmx V *m e) 0 0.
(** m = (argument, value) is a minimum of f over the set P; f is None outside its domain *)
Definition minimises (P : R -> Prop) (f : R -> option R) (m : R * R) : Prop :=
  [/\ P m.1, f m.1 = Some m.2 & forall a v, P a -> f a = Some v -> m.2 <= v].
Section Spec.
Variables (T n k : nat).
(** the covariance matrix of mu + e_t *)
Definition re_sigma (s2 smu2 : R) : 'M[R]_(T * n) := \matrix_(r, c) ((if r == c then s2 else 0) + (if pu r == pu c then smu2 else 0)).
(** y_t - rho W y_t - x_t b, stacked *)
Definition re_lag_resid (y : 'cV[R]_(T * n)) (x : 'M[R]_(T * n, k)) (W : 'M[R]_n) (b : 'cV[R]_k) (rho : R) : 'cV[R]_(T * n) :=
  \col_r (period (pt r) y - rho *: (W *m period (pt r) y) - period (pt r) x *m b) (pu r) 0.
Definition re_lag_loglik (y : 'cV[R]_(T * n)) (x : 'M[R]_(T * n, k)) (W : 'M[R]_n) (b : 'cV[R]_k) (rho s2 smu2 : R) : R :=
  normal_loglik (re_sigma s2 smu2) (re_lag_resid y x W b rho) + T%:R * ln `|\det (1%:M - rho *: W)|.
End Spec.
