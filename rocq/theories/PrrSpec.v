(** Specification: the Gaussian log-likelihood of the spatial error panel with random unit effects,
    y_t = x_t b + mu + u_t,  u_t = lam W u_t + e_t,  mu ~ N(0, smu2 I),  e_t ~ N(0, s2 I), all independent. *)
From Coq Require Import Reals.
From mathcomp Require Import all_ssreflect all_algebra.
From Verif Require Import Rinst MLSpec Kron PreSpec.
Set Implicit Arguments.
Unset Strict Implicit.
Unset Printing Implicit Defensive.
Import Order.TTheory GRing.Theory Num.Theory.
Local Open Scope ring_scope.

Section Spec.
Variables (T n k : nat).
(** the covariance matrix of mu + u_t: cov(u_t) = s2 (B'B)^-1, B = I - lam W *)
Definition re_err_sigma (W : 'M[R]_n) (lam s2 smu2 : R) : 'M[R]_(T * n) :=
  let B := 1%:M - lam *: W in
  \matrix_(r, c) ((if pu r == pu c then smu2 else 0) + (if pt r == pt c then s2 * invmx (B^T *m B) (pu r) (pu c) else 0)).
Definition re_err_loglik (y : 'cV[R]_(T * n)) (x : 'M[R]_(T * n, k)) (W : 'M[R]_n) (b : 'cV[R]_k) (lam s2 smu2 : R) : R :=
  normal_loglik (re_err_sigma W lam s2 smu2) (y - x *m b).
(** T times the covariance matrix of the unit means of mu + u_t over s2, phi = smu2 / s2 *)
Definition re_err_between (W : 'M[R]_n) (lam phi : R) : 'M[R]_n := (T%:R * phi) *: 1%:M + invmx ((1%:M - lam *: W)^T *m (1%:M - lam *: W)).
(** an orthogonal eigendecomposition, as computed by la.eigh *)
Definition is_eigh (A : 'M[R]_n) (d : 'rV[R]_n) (V : 'M[R]_n) : Prop := V *m V^T = 1%:M /\ A = V *m diag_mx d *m V^T.
(** eigenvectors of length one, as computed by la.eig *)
Definition is_eig (A : 'M[R]_n) (d : 'rV[R]_n) (V : 'M[R]_n) : Prop := A *m V = V *m diag_mx d /\ forall j, \sum_i V i j ^+ 2 = 1.
End Spec.
