(** Specification: the Gaussian log-likelihood of seemingly unrelated regressions whose errors are spatially autoregressive,
    y_r = X_r b_r + u_r,  u_r = lam_r W u_r + e_r,  cov(e_r i, e_t j) = Sig r t if i = j and 0 otherwise; and the expected information. *)
From Coq Require Import Reals.
From mathcomp Require Import all_ssreflect all_algebra.
From Verif Require Import Rinst MLSpec Kron PreSpec.
Set Implicit Arguments.
Unset Strict Implicit.
Unset Printing Implicit Defensive.
Import Order.TTheory GRing.Theory Num.Theory.
Local Open Scope ring_scope.

Section Spec.
Variables (G n : nat) (K : 'I_G -> nat).
(** one vector from the vectors of the equations *)
Definition sue_stack (v : 'I_G -> 'cV[R]_n) : 'cV[R]_(G * n) := \col_p v (pt p) (pu p) 0.
(** cov(u_r, u_t) = Sig r t (I - lam_r W)^-1 (I - lam_t W)^-T *)
Definition sue_sigma (W : 'M[R]_n) (lam : 'cV[R]_G) (Sig : 'M[R]_G) : 'M[R]_(G * n) :=
  let Bi r := invmx (1%:M - lam r 0 *: W) in
  \matrix_(p, q) (Sig (pt p) (pt q) * (Bi (pt p) *m (Bi (pt q))^T) (pu p) (pu q)).
Definition sue_loglik (y : 'I_G -> 'cV[R]_n) (X : forall r, 'M[R]_(n, K r)) (W : 'M[R]_n) (b : forall r, 'cV[R]_(K r)) (lam : 'cV[R]_G) (Sig : 'M[R]_G) : R :=
  normal_loglik (sue_sigma W lam Sig) (sue_stack (fun r => y r - X r *m b r)).
(** no spatial dependence *)
Definition sur_loglik (y : 'I_G -> 'cV[R]_n) (X : forall r, 'M[R]_(n, K r)) (b : forall r, 'cV[R]_(K r)) (Sig : 'M[R]_G) : R :=
  normal_loglik (\matrix_(p, q) (if pu p == pu q then Sig (pt p) (pt q) else 0)) (sue_stack (fun r => y r - X r *m b r)).
End Spec.
