(** Seemingly unrelated regressions: spreg/sur_utils.py, sur.py, diagnostics_sur.py.
    A dictionary indexed by the equations 0..G-1 is a function of 'I_G; the coefficient vectors may have different lengths K r. *)
From mathcomp Require Import all_ssreflect all_algebra.
From Verif Require Import LinRegModel.
Set Implicit Arguments.
Unset Strict Implicit.
Unset Printing Implicit Defensive.
Import Order.TTheory GRing.Theory Num.Theory.
Local Open Scope ring_scope.

(** ** stacking: arrays as lists of rows *)
(** spreg/sur_utils.py:250-278 sur_mat2dict: the slices mat[ki:ke], ki and ke running sums of ndim; a slice beyond the end is cut short *)
Fixpoint mat2dict_from (A : Type) (mat : seq A) (ki : nat) (ndim : seq nat) : seq (seq A) :=
  if ndim is k :: r then take k (drop ki mat) :: mat2dict_from mat (ki + k) r else [::].
Definition sur_mat2dict (A : Type) (mat : seq A) (ndim : seq nat) : seq (seq A) := mat2dict_from mat 0 ndim.
(** spreg/sur_utils.py:280-301 sur_dict2mat: vstack *)
Definition sur_dict2mat (A : Type) (d : seq (seq A)) : seq A := flatten d.
(** spreg/sur_utils.py:500-520 check_k *)
Definition check_k (K : seq nat) : bool := if K is k :: _ then all (fun x => k == x) K else true.

Section Est.
Variables (R : realFieldType) (G n : nat) (K : 'I_G -> nat).
Implicit Types (X : forall r, 'M[R]_(n, K r)) (y : 'I_G -> 'cV[R]_n).
(** spreg/sur_utils.py:327-358 sur_crossprod *)
Definition crossXX X : forall r t, 'M[R]_(K r, K t) := fun r t => (X r)^T *m X t.
Definition crossXy X y : forall r (t : 'I_G), 'cV[R]_(K r) := fun r t => (X r)^T *m y t.
(** spreg/sur_utils.py:413-437 sur_resids and 440-465 sur_predict: hstack *)
Definition sur_resids y X (b : forall r, 'cV[R]_(K r)) : 'M[R]_(n, G) := \matrix_(i, r) (y r - X r *m b r) i 0.
Definition sur_predict X (b : forall r, 'cV[R]_(K r)) : 'M[R]_(n, G) := \matrix_(i, r) (X r *m b r) i 0.
(** spreg/sur_utils.py:361-410 sur_est; la.inv raises on a singular matrix *)
Definition xsigx (sigi : 'M[R]_G) (XX : forall r t, 'M[R]_(K r, K t)) := \mxblock_(r, t) (sigi r t *: XX r t).
Definition xsigy (sigi : 'M[R]_G) (Xy : forall r, 'I_G -> 'cV[R]_(K r)) := \mxcol_r \sum_t sigi r t *: Xy r t.
Record est := Est { e_b : forall r, 'cV[R]_(K r); e_varb : 'M[R]_(\sum_r K r); e_sig : 'M[R]_G }.
Definition sur_est XX Xy (E : 'M[R]_(n, G)) : option est :=
  let sig := n%:R^-1 *: (E^T *m E) in
  if la_inv sig is Some sigi then
    if la_inv (xsigx sigi XX) is Some varb then
      let beta := varb *m xsigy sigi Xy in
      Some (Est (fun r => submxcol beta r) varb sig)
    else None
  else None.
(** spreg/sur.py:161-184 _sur_ols *)
Definition sur_ols X y : option (forall r, 'cV[R]_(K r)) :=
  if [forall r, crossXX X r r \in unitmx] then Some (fun r => invmx (crossXX X r r) *m crossXy X y r r) else None.
(** spreg/sur.py:109-158 BaseSUR, iter=False: two-step estimation; the iterated version is in LoopModel *)
Record sur2 := Sur2 { s_est : est; s_ols : forall r, 'cV[R]_(K r); s_E : 'M[R]_(n, G); s_YP : 'M[R]_(n, G) }.
Definition base_sur X y : option sur2 :=
  if sur_ols X y is Some bo then
    if sur_est (crossXX X) (crossXy X y) (sur_resids y X bo) is Some e then
      Some (Sur2 e bo (sur_resids y X (e_b e)) (sur_predict X (e_b e)))
    else None
  else None.
(** the iterated estimator: one pass of the loop of spreg/sur.py:139-150, from the residuals of the previous pass *)
Definition sur_pass X y (E : 'M[R]_(n, G)) : option (est * 'M[R]_(n, G)) :=
  if sur_est (crossXX X) (crossXy X y) E is Some e then Some (e, sur_resids y X (e_b e)) else None.
(** spreg/sur_utils.py:468-497 filter_dict: bigZ - lam * bigZlag *)
Definition filter_dict (lam : 'cV[R]_G) (Z Zlag : forall r, 'M[R]_(n, K r)) : forall r, 'M[R]_(n, K r) := fun r => Z r - lam r 0 *: Zlag r.
End Est.

Section Corr.
Variables (R : rcfType) (G : nat).
(** spreg/sur_utils.py:304-324 sur_corr *)
Definition sur_corr (sig : 'M[R]_G) : 'M[R]_G :=
  let s : 'cV[R]_G := \col_i Num.sqrt (sig i i) in
  let sxs := s *m s^T in
  \matrix_(i, j) (sig i j / sxs i j).
(** spreg/diagnostics_sur.py:107-135 sur_lmtest: statistic; the degrees of freedom are int(G(G-1)/2) *)
Definition sur_lmtest (n : nat) (sig : 'M[R]_G) : R * nat :=
  let Rc := sur_corr sig in
  (n%:R / 2%:R * (\tr (Rc^T *m Rc) - G%:R), (G * (G - 1) %/ 2)%N).
End Corr.

Section Lm.
Variables (R : realFieldType) (G n : nat).
(** elementwise product *)
Definition had m p (A B : 'M[R]_(m, p)) : 'M[R]_(m, p) := \matrix_(i, j) (A i j * B i j).
(** sum(axis=0) as a row *)
Definition colsum m p (A : 'M[R]_(m, p)) : 'rV[R]_p := \row_j \sum_i A i j.
(** spreg/diagnostics_sur.py:138-190 surLMe *)
Definition surLMe (W : 'M[R]_n) (E : 'M[R]_(n, G)) (sig : 'M[R]_G) : option R :=
  let EWE := E^T *m (W *m E) in
  if la_inv sig is Some sigi then
    let score := colsum (had sigi EWE) in
    let T1 := \tr (W *m W) in
    let T2 := \tr (W^T *m W) in
    let denom := T1 *: 1%:M + T2 *: had sigi sig in
    if la_inv denom is Some idenom then Some ((score *m idenom *m score^T) 0 0) else None
  else None.
(** spreg/diagnostics_sur.py:193-265 surLMlag; the score uses the matrix product sigi @ EWY *)
Variable K : 'I_G -> nat.
Definition lag_score (W : 'M[R]_n) (Y E : 'M[R]_(n, G)) (sigi : 'M[R]_G) : 'rV[R]_G := colsum (sigi *m (E^T *m (W *m Y))).
Definition lag_bp (X : forall r, 'M[R]_(n, K r)) (WYP : 'M[R]_(n, G)) (sigi : 'M[R]_G) : 'M[R]_(\sum_r K r, G) :=
  \mxcol_r (\matrix_(i, t) (sigi r t * ((X r)^T *m WYP) i t)).
Definition lag_inner (W : 'M[R]_n) (X : forall r, 'M[R]_(n, K r)) (YP : 'M[R]_(n, G)) (sig sigi : 'M[R]_G) (varb : 'M[R]_(\sum_r K r)) : 'M[R]_G :=
  let WYP := W *m YP in
  let first := \tr (W *m W) *: 1%:M + \tr (W^T *m W) *: had sigi sig in
  let Ipp := first + had sigi (WYP^T *m WYP) in
  let bp := lag_bp X WYP sigi in
  Ipp - bp^T *m varb *m bp.
Definition surLMlag (W : 'M[R]_n) (Y : 'M[R]_(n, G)) (X : forall r, 'M[R]_(n, K r)) (E YP : 'M[R]_(n, G)) (sig : 'M[R]_G) (varb : 'M[R]_(\sum_r K r)) : option R :=
  if la_inv sig is Some sigi then
    let score := lag_score W Y E sigi in
    if la_inv (lag_inner W X YP sig sigi varb) is Some Ippi then Some ((score *m Ippi *m score^T) 0 0) else None
  else None.
(** spreg/diagnostics_sur.py:311-343 sur_joinrho: row i of R has a one in column kc, kc = -1 + K 0 + ... + K i *)
Definition joinrho_kc (i : 'I_G) : nat := ((\sum_(r < G | (r <= i)%N) K r) - 1)%N.
Definition joinrho_R : 'M[R]_(G, \sum_r K r) := \matrix_(i, c) ((c : nat) == joinrho_kc i)%:R.
Definition sur_joinrho (b : forall r, 'cV[R]_(K r)) (varb : 'M[R]_(\sum_r K r)) : option R :=
  wald_w (\mxcol_r b r) joinrho_R 0 varb.
End Lm.

Section Chow.
Variables (R : realFieldType) (G k : nat).
(** spreg/diagnostics_sur.py:268-308 sur_chow, coefficient i, for G.+1 equations of k coefficients each;
    spreg/regimes.py:339-381 buildR1var (i, k, 0, 0, G+1): row j has -1 in column k + i + j k and 1 in column i *)
Definition chow_R (i : nat) : 'M[R]_(G, \sum_(r < G.+1) k) :=
  \matrix_(j, c) (if (c : nat) == (k + i + j * k)%N then -1 else if (c : nat) == i then 1 else 0).
Definition sur_chow (b : 'I_G.+1 -> 'cV[R]_k) (varb : 'M[R]_(\sum_(r < G.+1) k)) (i : nat) : option R :=
  wald_w (\mxcol_r b r) (chow_R i) 0 varb.
End Chow.
