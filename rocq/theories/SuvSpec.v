(** Specification: the expected information of the spatial coefficients and covariances of seemingly unrelated regressions with spatial errors.
    For a Gaussian vector with mean linear in other parameters and covariance matrix V(theta) the information of theta_p and theta_q is
    1/2 tr(V^-1 V_p V^-1 V_q), V_p the derivative of V with respect to theta_p. *)
From Coq Require Import Reals.
From mathcomp Require Import all_ssreflect all_algebra.
From Verif Require Import Rinst Kron SueSpec MxDerivSpec.
Set Implicit Arguments.
Unset Strict Implicit.
Unset Printing Implicit Defensive.
Import Order.TTheory GRing.Theory Num.Theory.
Local Open Scope ring_scope.

Definition gauss_info m (V Vp Vq : 'M[R]_m) : R := 1 / 2%:R * \tr (invmx V *m Vp *m invmx V *m Vq).
(** a parameter: a spatial coefficient, or the covariance of equations h and k (sigma_hk and sigma_kh are one parameter) *)
Definition sue_shift G n (W : 'M[R]_n) (lam : 'cV[R]_G) (Sig : 'M[R]_G) (p : 'I_G + 'I_G * 'I_G) (t : R) : 'M[R]_(G * n) :=
  match p with
  | inl i => sue_sigma W (lam + t *: delta_mx i 0) Sig
  | inr hk => sue_sigma W lam (Sig + t *: \matrix_(r, s) (((r, s) == hk) || ((s, r) == hk))%:R)
  end.
