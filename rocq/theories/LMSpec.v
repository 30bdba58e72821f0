(** Specification: a score (Lagrange multiplier) statistic is the quadratic form of the score vector in the inverse information matrix. *)
From mathcomp Require Import all_ssreflect all_algebra.
Set Implicit Arguments.
Unset Strict Implicit.
Unset Printing Implicit Defensive.
Import Order.TTheory GRing.Theory Num.Theory.
Local Open Scope ring_scope.

Section Spec.
Variable R : realFieldType.
Definition score_stat k (s : 'cV[R]_k) (J : 'M[R]_k) : R := (s^T *m invmx J *m s) 0 0.
(** the annihilator of the columns of x *)
Definition ann n k (x : 'M[R]_(n, k)) : 'M[R]_n := 1%:M - x *m invmx (x^T *m x) *m x^T.
(** y = rho W y + x b + (W xx) g + e: score of (rho, g) and information matrix of (b, s2, rho, g), both at rho = 0, g = 0 *)
Definition sdm_score n l (W : 'M[R]_n) (xx : 'M[R]_(n, l)) (y u : 'cV[R]_n) (s2 : R) : 'cV[R]_(1 + l) :=
  s2^-1 *: ((row_mx (W *m y) (W *m xx))^T *m u).
Definition sdm_info n k l (W : 'M[R]_n) (x : 'M[R]_(n, k)) (xx : 'M[R]_(n, l)) (b : 'cV[R]_k) (s2 : R) : 'M[R]_((k + 1) + (1 + l)) :=
  let Z := row_mx (W *m (x *m b)) (W *m xx) in
  block_mx (block_mx (s2^-1 *: (x^T *m x)) 0 0 (n%:R / (2%:R * s2 ^+ 2))%:M)
           (col_mx (s2^-1 *: (x^T *m Z)) 0)
           (row_mx (s2^-1 *: (Z^T *m x)) 0)
           (s2^-1 *: (Z^T *m Z) + block_mx (\tr (W *m W + W^T *m W))%:M 0 0 0).
(** the two autoregressive parameters: lag and error, information net of b and s2 *)
Definition sarma_score n (W : 'M[R]_n) (y u : 'cV[R]_n) (s2 : R) : 'cV[R]_(1 + 1) :=
  col_mx (s2^-1 *: (u^T *m (W *m y))) (s2^-1 *: (u^T *m (W *m u))).
Definition sarma_info n k (W : 'M[R]_n) (x : 'M[R]_(n, k)) (b : 'cV[R]_k) (s2 : R) : 'M[R]_(1 + 1) :=
  let T := \tr (W *m W + W^T *m W) in
  let v := ann x *m (W *m (x *m b)) in
  block_mx (s2^-1 *: (v^T *m v) + T%:M) T%:M T%:M T%:M.
End Spec.
