(** Maximum likelihood panel models with fixed effects: spreg/panel.py BaseML_LagFE, BaseML_ErrorFE, ML_LagFE, ML_ErrorFE,
    BaseML_ErrorPooled, and the deprecated spreg/panel_fe.py BasePanel_FE_Lag, BasePanel_FE_Error.
    Row t * n + i of a long panel is unit i in period t (Kron.v).  As in MLModel.v the minimiser is abstract: its result is a pair
    (argument, value).  LU.U is the argument U.  Not modelled: varb, the array shape tests on rho, names and the printed summary. *)
From Coq Require Import Reals.
From mathcomp Require Import all_ssreflect all_algebra.
From Verif Require Import Rinst LinRegModel FilterModel MLModel Kron PanelModel.
Set Implicit Arguments.
Unset Strict Implicit.
Unset Printing Implicit Defensive.
Import Order.TTheory GRing.Theory Num.Theory.
Local Open Scope ring_scope.

Section Model.
Variables (T n k : nat).
(** sps.kron(sps.identity(t), W) *)
Definition w_nt (W : 'M[R]_n) : 'M[R]_(T * n) := kron (1%:M : 'M[R]_T) W.
(** t * np.sum(np.log(np.abs(LU.U.diagonal()))): spreg/panel.py:1661-1662, 2477-2478, spreg/panel_fe.py:653-654, 677-678 *)
Definition t_jacob (U : 'M[R]_n) : option R := omap (fun j => T%:R * j) (osum [seq np_log `|U i i| | i <- enum 'I_n]).
(** spreg/panel.py:2468-2480 lag_c_loglik_sp: sig2 = e'e / (n t) *)
Definition fe_lag_obj (ssr : R) (U : 'M[R]_n) : option R :=
  match np_log (ssr / (n%:R * T%:R)), t_jacob U with
  | Some lsig2, Some jacob => Some (n%:R * T%:R / 2%:R * lsig2 - jacob)
  | _, _ => None
  end.
(** spreg/panel_fe.py:644-657 lag_c_loglik_sp, spreg/panel.py:1645-1666 and spreg/panel_fe.py:659-681 err_c_loglik_sp (from the sum of
    squares on): sig2 = e'e *)
Definition fe_obj_ssr (ssr : R) (U : 'M[R]_n) : option R :=
  match np_log ssr, t_jacob U with
  | Some lsig2, Some jacob => Some (n%:R * T%:R / 2%:R * lsig2 - jacob)
  | _, _ => None
  end.
Definition fe_err_obj (y : 'cV[R]_(T * n)) (x : 'M[R]_(T * n, k)) (W : 'M[R]_n) (lam : R) (U : 'M[R]_n) : option R :=
  let yd := demean_panel 0 y in let xd := demean_panel 0 x in
  if err_ssr yd xd (w_nt W *m yd) (w_nt W *m xd) lam is Some ee then fe_obj_ssr ee U else None.

(** spreg/panel.py:2431-2456 (spreg/panel_fe.py:168-193): the matrix v, order beta, rho, sigma2; [x] is not demeaned in xTwpy *)
Definition fe_lag_info (x xd : 'M[R]_(T * n, k)) (xb : 'cV[R]_(T * n)) (W ai : 'M[R]_n) (sig2 : R) : 'M[R]_(k + (1 + 1)) :=
  let wai := W *m ai in
  let t := T%:R in
  let wpredy := w_nt wai *m xb in
  let xTwpy := x^T *m wpredy in
  let wpyTwpy := (xb^T *m (w_nt (wai^T *m wai) *m xb)) 0 0 in
  block_mx (sig2^-1 *: (xd^T *m xd)) (row_mx (sig2^-1 *: xTwpy) 0)
           (col_mx (sig2^-1 *: xTwpy^T) 0)
           (block_mx (t * (tr2_of wai + tr3_of wai) + wpyTwpy / sig2)%:M (t * tr1_of wai / sig2)%:M
                     (t * tr1_of wai / sig2)%:M ((T * n)%:R / (2%:R * sig2 ^+ 2))%:M).

(** spreg/panel.py:2362-2466 BaseML_LagFE (spreg/panel_fe.py:99-201 BasePanel_FE_Lag: the same after the minimiser) *)
Definition base_fe_lag (y : 'cV[R]_(T * n)) (x : 'M[R]_(T * n, k)) (W : 'M[R]_n) (res : R * R) (epsilon : R) (maxit : nat)
  : option (ml_lag (T * n) k) :=
  let (rho, fun_) := res in
  let yd := demean_panel 0 y in let xd := demean_panel 0 x in
  if lag_aux_of yd xd (w_nt W) is Some ax then
    let logll := - fun_ - (T * n)%:R / 2%:R * ln (2%:R * PI) - (T * n)%:R / 2%:R in
    let b := la_b0 ax - rho *: la_b1 ax in
    let u := la_e0 ax - rho *: la_e1 ax in
    let xb := xd *m b in
    if power_expansion (w_nt W) xb rho epsilon maxit is Done predy_e then
      let sig2 := utu_of u / (T * n)%:R in
      if la_inv (a_of W rho) is Some ai then
        if la_inv (fe_lag_info x xd xb W ai sig2) is Some vm1 then
          Some (MlLag b rho u (yd - u) predy_e (yd - predy_e) sig2 logll vm1
                  (\matrix_(i, j) vm1 (cast_ord (esym (addnA k 1%N 1%N)) (lshift 1%N i)) (cast_ord (esym (addnA k 1%N 1%N)) (lshift 1%N j))))
        else None
      else None
    else None
  else None.

(** spreg/panel.py:1559-1643 BaseML_ErrorFE ([adj] = true: logll += NT/2 log NT, line 1594) and spreg/panel_fe.py:413-497
    BasePanel_FE_Error ([adj] = false) *)
Definition base_fe_err (adj : bool) (y : 'cV[R]_(T * n)) (x : 'M[R]_(T * n, k)) (W : 'M[R]_n) (res : R * R) : option (ml_err (T * n) k) :=
  let (lam, fun_) := res in
  let yd := demean_panel 0 y in let xd := demean_panel 0 x in
  let logll0 := - fun_ - (T * n)%:R / 2%:R * ln (2%:R * PI) - (T * n)%:R / 2%:R in
  let logll := if adj then logll0 + (T * n)%:R / 2%:R * ln (T * n)%:R else logll0 in
  let ys := yd - lam *: (w_nt W *m yd) in
  let xs := xd - lam *: (w_nt W *m xd) in
  if la_inv (xs^T *m xs) is Some xsxsi then
    let b := xsxsi *m (xs^T *m ys) in
    let u := yd - xd *m b in
    let ef := u - lam *: (w_nt W *m u) in
    let sig2 := (ef^T *m ef) 0 0 / (T * n)%:R in
    if la_inv (a_of W lam) is Some ai then
      let wai := W *m ai in
      let v : 'M[R]_(1 + 1) := block_mx (T%:R * (tr2_of wai + tr3_of wai))%:M (T%:R * tr1_of wai / sig2)%:M
                 (T%:R * tr1_of wai / sig2)%:M ((T * n)%:R / (2%:R * sig2 ^+ 2))%:M in
      if la_inv v is Some vm1 then
        Some (MlErr b lam u (yd - u) ef sig2 logll vm1 (block_mx (sig2 *: xsxsi) 0 0 (vm1 0 0)%:M))
      else None
    else None
  else None.

(** mu_i of ML_LagFE and ML_ErrorFE: spreg/panel.py:1853-1854, 2678-2679 *)
Definition fe_mu_i (y : 'cV[R]_(T * n)) (x : 'M[R]_(T * n, k)) (b : 'cV[R]_k) : 'cV[R]_n := unit_mean (y - x *m b).

(** spreg/panel.py:889-905 BaseML_ErrorPooled: BaseML_Error on the block diagonal weights *)
Definition base_pooled_err (y : 'cV[R]_(T * n)) (x : 'M[R]_(T * n, k)) (W : 'M[R]_n) (res : R * R) : option (ml_err (T * n) k) :=
  base_ml_err y x (w_nt W) (w_nt W) (w_nt W) res.
End Model.
