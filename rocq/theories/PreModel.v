(** Maximum likelihood spatial lag panel with random effects: spreg/panel.py BaseML_LagRE with the methods of ML_LagRE (lag_c_loglik_sp and
    phi_c_loglik are only defined in the subclass), and the deprecated spreg/panel_re.py BasePanel_RE_Lag.
    The two minimisers are abstract: a function of the objective; minimize_scalar's result for rho is a pair (argument, value).  LU.U is
    lu rho.  An objective is None where a logarithm is taken of a number that is not positive.  Not modelled: bounds and tolerances of the
    minimisers, the array shape tests, names, the printed summary. *)
From Coq Require Import Reals.
From mathcomp Require Import all_ssreflect all_algebra.
From Verif Require Import Rinst LinRegModel FilterModel MLModel Kron PanelModel PfeModel.
Set Implicit Arguments.
Unset Strict Implicit.
Unset Printing Implicit Defensive.
Import Order.TTheory GRing.Theory Num.Theory.
Local Open Scope ring_scope.

Section Model.
Variables (T n k : nat).
(** spreg/panel.py:3104-3117, spreg/panel_re.py:792-804 phi_c_loglik *)
Definition re_phi_obj (y : 'cV[R]_(T * n)) (x : 'M[R]_(T * n, k)) (W : 'M[R]_n) (rho : R) (b : 'cV[R]_k) (phi : R) : option R :=
  let yd := demean_panel phi y in let xd := demean_panel phi x in
  let er := yd - rho *: (w_nt T W *m yd) - xd *m b in
  match np_log ((er^T *m er) 0 0), np_log (phi ^+ 2) with
  | Some lsig2, Some lphi => Some (n%:R * T%:R / 2%:R * lsig2 - n%:R / 2%:R * lphi)
  | _, _ => None
  end.

(** the variables that survive an iteration *)
Record re_state := ReState { rs_phi : R; rs_rho : R; rs_b : 'cV[R]_k; rs_ax : lag_aux (T * n) k; rs_fun : R }.
(** the body of the loop: spreg/panel.py:2782-2820, spreg/panel_re.py:137-175 *)
Definition re_lag_step (minphi : (R -> option R) -> R) (minrho : (R -> option R) -> R * R) (lu : R -> 'M[R]_n)
  (y : 'cV[R]_(T * n)) (x : 'M[R]_(T * n, k)) (W : 'M[R]_n) (rho : R) (b : 'cV[R]_k) : option re_state :=
  let phi := minphi (re_phi_obj y x W rho b) in
  if lag_aux_of (demean_panel phi y) (demean_panel phi x) (w_nt T W) is Some ax then
    let (rho', fn) := minrho (fun rho => fe_lag_obj T (lag_ssr ax rho) (lu rho)) in
    Some (ReState phi rho' (la_b0 ax - rho' *: la_b1 ax) ax fn)
  else None.
(** while converge > criteria and i < itermax; [fuel] = itermax - i.  The list of the states after each iteration *)
Fixpoint re_lag_loop minphi minrho lu y x W (criteria : R) (fuel : nat) (converge phi rho : R) (b : 'cV[R]_k) : option (seq re_state) :=
  if criteria < converge then
    if fuel is f.+1 then
      if re_lag_step minphi minrho lu y x W rho b is Some s then
        omap (cons s) (re_lag_loop minphi minrho lu y x W criteria f `|phi - rs_phi s| (rs_phi s) (rs_rho s) (rs_b s))
      else None
    else Some [::]
  else Some [::].
(** spreg/panel.py:2766-2779: starting values; criteria = 0.0000001, itermax = 100 *)
Definition re_lag_iter minphi minrho lu y x W : option (seq re_state) :=
  if la_inv (x^T *m x) is Some xtxi then
    re_lag_loop minphi minrho lu y x W (1 / 10%:R ^+ 7) 100 1 (1 / 10%:R) (1 / 10%:R) (xtxi *m (x^T *m y))
  else None.

(** spreg/panel.py:2848-2893: the matrix v, order beta, rho, phi, sigma2; [re_v1]: the rows and columns of beta and rho (varb) *)
Definition re_lag_v1 (x : 'M[R]_(T * n, k)) (xb : 'cV[R]_(T * n)) (W ai : 'M[R]_n) (sig2 : R) : 'M[R]_(k + 1) :=
  let wai := W *m ai in
  let t := T%:R in
  let wpredy := w_nt T wai *m xb in
  let xTwpy := x^T *m wpredy in
  let wpyTwpy := (xb^T *m (w_nt T (wai^T *m wai) *m xb)) 0 0 in
  block_mx (sig2^-1 *: (x^T *m x)) (sig2^-1 *: xTwpy) (sig2^-1 *: xTwpy^T) (t * (tr2_of wai + tr3_of wai) + wpyTwpy / sig2)%:M.
Definition re_lag_info (x : 'M[R]_(T * n, k)) (xb : 'cV[R]_(T * n)) (W ai : 'M[R]_n) (phi sig2 : R) : 'M[R]_(k + 1 + (1 + 1)) :=
  let tr1 := tr1_of (W *m ai) in
  let t := T%:R in
  block_mx (re_lag_v1 x xb W ai sig2)
           (col_mx 0 (row_mx (- tr1 / sig2)%:M (t * tr1 / sig2)%:M))
           (row_mx 0 (col_mx (- tr1 / sig2)%:M (t * tr1 / sig2)%:M))
           (block_mx (n%:R * (1 + 1 / phi ^+ 2))%:M (- n%:R / sig2 ^+ 2)%:M
                     (- n%:R / sig2)%:M ((T * n)%:R / (2%:R * sig2 ^+ 2))%:M).

Record re_lag := ReLag { rl_b : 'cV[R]_k; rl_rho : R; rl_phi : R; rl_u : 'cV[R]_(T * n); rl_predy : 'cV[R]_(T * n); rl_predy_e : 'cV[R]_(T * n);
  rl_e_pred : 'cV[R]_(T * n); rl_sig2 : R; rl_logll : R; rl_vm1 : 'M[R]_(k + 1 + (1 + 1)); rl_vm : 'M[R]_(k + 1 + 1); rl_varb : 'M[R]_(k + 1) }.
(** spreg/panel.py:2822-2895 ([adj] = true: logll includes N/2 log phi^2) and spreg/panel_re.py:177-243 ([adj] = false) *)
Definition re_lag_final (adj : bool) (y : 'cV[R]_(T * n)) (x : 'M[R]_(T * n, k)) (W : 'M[R]_n) (s : re_state) (epsilon : R) (maxit : nat) : option re_lag :=
  let phi := rs_phi s in let rho := rs_rho s in let b := rs_b s in
  let yd := demean_panel phi y in let xd := demean_panel phi x in
  let phi_jacob := n%:R / 2%:R * ln (phi ^+ 2) in
  let logll := - rs_fun s + (if adj then phi_jacob else 0) - (T * n)%:R / 2%:R * ln (2%:R * PI) - (T * n)%:R / 2%:R in
  let u := la_e0 (rs_ax s) - rho *: la_e1 (rs_ax s) in
  let xb := xd *m b in
  if power_expansion (w_nt T W) xb rho epsilon maxit is Done predy_e then
    let sig2 := utu_of u / (T * n)%:R in
    if la_inv (a_of W rho) is Some ai then
      if la_inv (re_lag_info xd xb W ai phi sig2) is Some vm1 then
        if la_inv (re_lag_v1 xd xb W ai sig2) is Some varb then
          Some (ReLag b rho phi u (yd - u) predy_e (yd - predy_e) sig2 logll vm1
                  (\matrix_(i, j) vm1 (cast_ord (esym (addnA (k + 1)%N 1%N 1%N)) (lshift 1%N i)) (cast_ord (esym (addnA (k + 1)%N 1%N 1%N)) (lshift 1%N j)))
                  varb)
        else None
      else None
    else None
  else None.
Definition base_re_lag (adj : bool) minphi minrho lu y x W epsilon maxit : option re_lag :=
  match re_lag_iter minphi minrho lu y x W with
  | Some (s :: l) => re_lag_final adj y x W (last s l) epsilon maxit
  | _ => None
  end.
End Model.
