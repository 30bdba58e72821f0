(** Maximum likelihood spatial lag and spatial error models: spreg/ml_lag.py, spreg/ml_error.py, spreg/w_utils.py.
    Matrices over the reals; w.full()[0] and w.sparse are the same matrix W; the scalar minimiser is abstract: its result is a pair
    (argument, value) with value = objective at the argument. *)
From Coq Require Import Reals.
From mathcomp Require Import all_ssreflect all_algebra.
From mathcomp.real_closed Require Import complex.
From Verif Require Import Rinst LinRegModel FilterModel.
Set Implicit Arguments.
Unset Strict Implicit.
Unset Printing Implicit Defensive.
Import Order.TTheory GRing.Theory Num.Theory.
Local Open Scope ring_scope.

(** np.log: a finite number only for positive arguments (nan or -inf otherwise: None) *)
Definition np_log (x : R) : option R := if 0 < x then Some (ln x) else None.
Definition osum (l : seq (option R)) : option R :=
  foldr (fun a acc => match a, acc with Some a, Some b => Some (a + b) | _, _ => None end) (Some 0) l.

Section Alg.
Variable F : realFieldType.
(** spreg/sputils.py:219-239 spfill_diagonal(a, 1.0) and np.fill_diagonal(a, 1.0) *)
Definition fill_diag1 n (a : 'M[F]_n) : 'M[F]_n := \matrix_(i, j) (if i == j then 1 else a i j).
(** spreg/ml_lag.py:264-277, spreg/ml_error.py:255-266: a = -rho W with 1 on the diagonal; wai = W inv(a); the three traces *)
Definition a_of n (W : 'M[F]_n) (rho : F) : 'M[F]_n := fill_diag1 (- rho *: W).
Definition wai_of n (W : 'M[F]_n) (rho : F) : 'M[F]_n := W *m invmx (a_of W rho).
Definition tr1_of n (wai : 'M[F]_n) : F := \sum_i wai i i.
Definition tr2_of n (wai : 'M[F]_n) : F := \sum_i (wai *m wai) i i.
Definition tr3_of n (wai : 'M[F]_n) : F := \sum_i (wai^T *m wai) i i.

(** spreg/ml_lag.py:283-297: the matrix v (order beta, rho, sigma2) *)
Definition lag_info n k (x : 'M[F]_(n, k)) (wpredy : 'cV[F]_n) (wai : 'M[F]_n) (sig2 : F) : 'M[F]_(k + (1 + 1)) :=
  let xtx := x^T *m x in
  let xTwpy := x^T *m wpredy in
  let wpyTwpy := (wpredy^T *m wpredy) 0 0 in
  block_mx (sig2^-1 *: xtx) (row_mx (sig2^-1 *: xTwpy) 0)
           (col_mx (sig2^-1 *: xTwpy^T) 0)
           (block_mx (tr2_of wai + tr3_of wai + wpyTwpy / sig2)%:M (tr1_of wai / sig2)%:M
                     (tr1_of wai / sig2)%:M (n%:R / (2%:R * sig2 ^+ 2))%:M).
(** spreg/ml_error.py:268-271: the matrix v (order lambda, sigma2) *)
Definition err_info n (wai : 'M[F]_n) (sig2 : F) : 'M[F]_(1 + 1) :=
  block_mx (tr2_of wai + tr3_of wai)%:M (tr1_of wai / sig2)%:M
           (tr1_of wai / sig2)%:M (n%:R / (2%:R * sig2 ^+ 2))%:M.
End Alg.

(** spreg/ml_lag.py:703-713 lag_c_loglik; spreg/ml_error.py:548-566 err_c_loglik from line 559 on *)
Definition c_loglik_full n (ssr rho : R) (W : 'M[R]_n) : option R :=
  match np_log (ssr / n%:R), np_log (\det (a_of W rho)) with
  | Some lsig2, Some jacob => Some (n%:R / 2%:R * lsig2 - jacob)
  | _, _ => None
  end.
(** spreg/ml_lag.py:716-728 lag_c_loglik_sp; spreg/ml_error.py:569-613: jacob = sum(log(abs(LU.U.diagonal()))), LU the factors of
    I - rho W (an argument) *)
Definition c_loglik_sp n (ssr : R) (U : 'M[R]_n) : option R :=
  match np_log (ssr / n%:R), osum [seq np_log `|U i i| | i <- enum 'I_n] with
  | Some lsig2, Some jacob => Some (n%:R / 2%:R * lsig2 - jacob)
  | _, _ => None
  end.
(** spreg/ml_lag.py:731-742 lag_c_loglik_ord with real eigenvalues (eigvalsh, or eigvals of real dtype) *)
Definition c_loglik_ord (n : nat) (ssr rho : R) (evals : seq R) : option R :=
  match np_log (ssr / n%:R), osum [seq np_log (1 - rho * e) | e <- evals] with
  | Some lsig2, Some jacob => Some (n%:R / 2%:R * lsig2 - jacob)
  | _, _ => None
  end.
(** the same with complex eigenvalues: the real part of np.log(z) is log |z| *)
Definition modc (z : complex R) : R := Num.sqrt (complex.Re z ^+ 2 + complex.Im z ^+ 2).
Definition c_loglik_ord_c (n : nat) (ssr rho : R) (evals : seq (complex R)) : option R :=
  match np_log (ssr / n%:R), osum [seq np_log (modc (1 - (rho%:C)%C * e)) | e <- evals] with
  | Some lsig2, Some jacob => Some (n%:R / 2%:R * lsig2 - jacob)
  | _, _ => None
  end.

(** spreg/ml_lag.py:199-217 b0, b1, e0, e1 *)
Record lag_aux n k := LagAux { la_b0 : 'cV[R]_k; la_b1 : 'cV[R]_k; la_e0 : 'cV[R]_n; la_e1 : 'cV[R]_n }.
Definition lag_aux_of n k (y : 'cV[R]_n) (x : 'M[R]_(n, k)) (W : 'M[R]_n) : option (lag_aux n k) :=
  let ylag := W *m y in
  if la_inv (x^T *m x) is Some xtxi then
    let b0 := xtxi *m (x^T *m y) in
    let b1 := xtxi *m (x^T *m ylag) in
    Some (LagAux b0 b1 (y - x *m b0) (ylag - x *m b1))
  else None.
(** the sum of squares entering the concentrated log-likelihood at rho (ml_lag.py:705-706, 721-722, 733-734) *)
Definition lag_ssr n k (ax : lag_aux n k) (rho : R) : R :=
  let er := la_e0 ax - rho *: la_e1 ax in (er^T *m er) 0 0.

(** spreg/ml_lag.py:237-300 BaseML_Lag after the minimiser returned (rho, fun); Winfo is the matrix W left by the method branch
    (w.full()[0], w.sparse or the symmetrised matrix); Wlag is the matrix of w when the lag of predy_e is taken (line 279). *)
Record ml_lag n k := MlLag { ml_b : 'cV[R]_k; ml_rho : R; ml_u : 'cV[R]_n; ml_predy : 'cV[R]_n; ml_predy_e : 'cV[R]_n; ml_e_pred : 'cV[R]_n;
  ml_sig2 : R; ml_logll : R; ml_vm1 : 'M[R]_(k + (1 + 1)); ml_vm : 'M[R]_(k + 1) }.
Definition base_ml_lag n k (y : 'cV[R]_n) (x : 'M[R]_(n, k)) (W Winfo Wlag : 'M[R]_n) (res : R * R) (epsilon : R) (maxit : nat) : option (ml_lag n k) :=
  let (rho, fun_) := res in
  if lag_aux_of y x W is Some ax then
    let logll := - fun_ - n%:R / 2%:R * ln (2%:R * PI) - n%:R / 2%:R in
    let b := la_b0 ax - rho *: la_b1 ax in
    let u := la_e0 ax - rho *: la_e1 ax in
    let predy := y - u in
    let xb := x *m b in
    if power_expansion Wlag xb rho epsilon maxit is Done predy_e then
      let sig2 := utu_of u / n%:R in
      if la_inv (a_of Winfo rho) is Some ai then
        let wai := Winfo *m ai in
        if la_inv (lag_info x (Wlag *m predy_e) wai sig2) is Some vm1 then
          Some (MlLag b rho u predy predy_e (y - predy_e) sig2 logll vm1
                  (\matrix_(i, j) vm1 (cast_ord (esym (addnA k 1%N 1%N)) (lshift 1%N i)) (cast_ord (esym (addnA k 1%N 1%N)) (lshift 1%N j))))
        else None
      else None
    else None
  else None.

(** spreg/ml_error.py:550-558 (and 574-595): the sum of squares entering the concentrated log-likelihood at lam *)
Definition err_ssr n k (y : 'cV[R]_n) (x : 'M[R]_(n, k)) (ylag : 'cV[R]_n) (xlag : 'M[R]_(n, k)) (lam : R) : option R :=
  let ys := y - lam *: ylag in
  let xs := x - lam *: xlag in
  let ysys := (ys^T *m ys) 0 0 in
  if la_inv (xs^T *m xs) is Some xsxsi then
    let xsys := xs^T *m ys in
    let x1 := xsxsi *m xsys in
    let x2 := (xsys^T *m x1) 0 0 in
    Some (ysys - x2)
  else None.
Definition err_c_loglik n k (y : 'cV[R]_n) (x : 'M[R]_(n, k)) (ylag : 'cV[R]_n) (xlag : 'M[R]_(n, k)) (lam : R) (W : 'M[R]_n) : option R :=
  if err_ssr y x ylag xlag lam is Some ee then c_loglik_full ee lam W else None.

(** spreg/ml_error.py:163-280 BaseML_Error without regimes, after the minimiser returned (lam, fun) *)
Record ml_err n k := MlErr { me_b : 'cV[R]_k; me_lam : R; me_u : 'cV[R]_n; me_predy : 'cV[R]_n; me_efilt : 'cV[R]_n;
  me_sig2 : R; me_logll : R; me_vm1 : 'M[R]_(1 + 1); me_vm : 'M[R]_(k + 1) }.
Definition base_ml_err n k (y : 'cV[R]_n) (x : 'M[R]_(n, k)) (W Winfo Wlag : 'M[R]_n) (res : R * R) : option (ml_err n k) :=
  let (lam, fun_) := res in
  let ylag := W *m y in
  let xlag := W *m x in
  let logll := - fun_ - n%:R / 2%:R * ln (2%:R * PI) - n%:R / 2%:R in
  let ys := y - lam *: ylag in
  let xs := x - lam *: xlag in
  if la_inv (xs^T *m xs) is Some xsxsi then
    let b := xsxsi *m (xs^T *m ys) in
    let u := y - x *m b in
    let ef := u - lam *: (Wlag *m u) in
    let sig2 := (ef^T *m ef) 0 0 / n%:R in
    let varb := sig2 *: xsxsi in
    if la_inv (a_of Winfo lam) is Some ai then
      if la_inv (err_info (Winfo *m ai) sig2) is Some vm1 then
        Some (MlErr b lam u (y - u) ef sig2 logll vm1 (block_mx varb 0 0 (vm1 0 0)%:M))
      else None
    else None
  else None.

(** Weights objects as used by the 'ord' branch.  libpysal W: original weights and a current transform. *)
Inductive wtransform := TrO | TrB | TrR.
Record wobj n := WObj { wo_orig : 'M[R]_n; wo_tr : wtransform }.
(** w.sparse under the current transform: original weights, 1 for every link, or original weights divided by the row sum *)
Definition w_binary n (A : 'M[R]_n) : 'M[R]_n := \matrix_(i, j) (A i j != 0)%:R.
Definition w_rowstd n (A : 'M[R]_n) : 'M[R]_n := \matrix_(i, j) (A i j / \sum_l A i l).
Definition w_mat n (w : wobj n) : 'M[R]_n :=
  match wo_tr w with TrO => wo_orig w | TrB => w_binary (wo_orig w) | TrR => w_rowstd (wo_orig w) end.
(** w.asymmetry(intrinsic=False) == []: the binary matrix is symmetric; the transform is restored *)
Definition w_struct_sym n (w : wobj n) : bool := (w_binary (wo_orig w))^T == w_binary (wo_orig w).
(** spreg/w_utils.py:5-26 symmetrize: returns the matrix and leaves w with the transform "r" (the saved transform is not restored).
    A zero row sum (an island) gives 1/0 = inf on an empty column; the entry does not matter: the inverse is 0 here. *)
Definition symmetrize n (w : wobj n) : 'M[R]_n * wobj n :=
  let d := fun i => Num.sqrt (\sum_j w_binary (wo_orig w) i j) in
  let w' := WObj (wo_orig w) TrR in
  (\matrix_(i, j) (d i * w_mat w' i j * (d j)^-1), w').
(** numpy.linalg.eigvalsh reads the lower triangle only *)
Definition lower_sym n (A : 'M[R]_n) : 'M[R]_n := \matrix_(i, j) (if (j <= i)%N then A i j else A j i).
(** spreg/ml_lag.py:244-252, spreg/ml_error.py:204-213: the matrix whose eigenvalues are computed, the matrix used for the information
    matrix, and the weights object afterwards *)
Definition ord_setup n (w : wobj n) : 'M[R]_n * 'M[R]_n * wobj n :=
  if w_struct_sym w then let (ww, w') := symmetrize w in (lower_sym ww, ww, w') else (w_mat w, w_mat w, w).
