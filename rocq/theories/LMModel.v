(** Spatial diagnostics of OLS residuals: spreg/diagnostics_sp.py and spreg/diagnostics_panel.py:30-222.
    Matrices over a real field; each test returns its statistic and the degrees of freedom given to chisqprob (the p-value is a function
    of those two). *)
From mathcomp Require Import all_ssreflect all_algebra.
From Verif Require Import LinRegModel FilterModel.
Set Implicit Arguments.
Unset Strict Implicit.
Unset Printing Implicit Defensive.
Import Order.TTheory GRing.Theory Num.Theory.
Local Open Scope ring_scope.

Section LM.
Variable R : realFieldType.
Variables (n k : nat) (o : ols R n k) (W : 'M[R]_n).

(** spreg/utils.py:129-143 sig2n *)
Definition sig2n : R := utu_of (o_u o) / n%:R.
(** spreg/diagnostics_sp.py:483-528 spDcache: t, wu, utwuDs, utwyDs, j, trA *)
Definition d_t : R := \sum_i ((W^T + W) *m W) i i.
Definition d_wu : 'cV[R]_n := W *m o_u o.
Definition d_utwuDs : R := ((o_u o)^T *m d_wu) 0 0 / sig2n.
Definition d_utwyDs : R := ((o_u o)^T *m (W *m o_y o)) 0 0 / sig2n.
Definition d_j : R :=
  let wxb := W *m o_predy o in
  let wxb2 := (wxb^T *m wxb) 0 0 in
  let xwxb := (o_x o)^T *m wxb in
  let num1 := wxb2 - (xwxb^T *m (o_xtxi o *m xwxb)) 0 0 in
  let num := num1 + d_t * sig2n in
  let den := n%:R * sig2n in
  num / den.
Definition d_trA : R :=
  let xtwx := (o_x o)^T *m (W *m o_x o) in
  let mw := o_xtxi o *m xtwx in
  \sum_i mw i i.
(** spreg/diagnostics_sp.py:530-544 AB *)
Definition d_AB : 'M[R]_k * 'M[R]_k :=
  let U := 2%:R^-1 *: (W + W^T) in
  let z := U *m o_x o in
  let c1 := (o_x o)^T *m z in
  let c2 := z^T *m z in
  let G := o_xtxi o in
  (G *m c1, G *m c2).

(** spreg/diagnostics_sp.py:547-569 lmErr *)
Definition lmErr : R * nat := (d_utwuDs ^+ 2 / d_t, 1%N).
(** spreg/diagnostics_sp.py:572-594 lmLag *)
Definition lmLag : R * nat := (d_utwyDs ^+ 2 / (n%:R * d_j), 1%N).
(** spreg/diagnostics_sp.py:597-625 rlmErr *)
Definition rlmErr : R * nat :=
  let nj := n%:R * d_j in
  let num := (d_utwuDs - (d_t * d_utwyDs) / nj) ^+ 2 in
  let den := d_t * (1 - d_t / nj) in
  (num / den, 1%N).
(** spreg/diagnostics_sp.py:628-650 rlmLag *)
Definition rlmLag : R * nat := ((d_utwyDs - d_utwuDs) ^+ 2 / (n%:R * d_j - d_t), 1%N).
(** spreg/diagnostics_sp.py:653-678 lmSarma *)
Definition lmSarma : R * nat :=
  let first := (d_utwyDs - d_utwuDs) ^+ 2 / (n%:R * d_j - d_t) in
  let secnd := d_utwuDs ^+ 2 / d_t in
  (first + secnd, 2%N).

(** spreg/diagnostics_sp.py:680-722 lm_wx; xx = the columns of x whose variable type is 'x' (an argument) *)
Definition lm_wx l (xx : 'M[R]_(n, l)) : option (R * nat) :=
  let x1 := o_x o in
  let wx := W *m xx in
  let mx1 := wx^T *m x1 in
  let mx := (mx1 *m o_xtxi o) *m mx1^T in
  let xwwx := wx^T *m wx in
  let xqx := xwwx - mx in
  if la_inv xqx is Some xqxi then
    let xpwpu := wx^T *m o_u o in
    let rsg1 := (xpwpu^T *m xqxi) *m xpwpu in
    let rsgam := rsg1 0 0 / sig2n in
    Some (rsgam, (k - 1)%N)
  else None.
(** spreg/diagnostics_sp.py:724-794 lm_spdurbin; w.trcWtW_WW of libpysal = tr(W'W + WW) *)
Definition trcWtW_WW : R := \sum_i (W^T *m W + W *m W) i i.
Definition lm_spdurbin l (xx : 'M[R]_(n, l)) : option (R * nat) :=
  let x1 := o_x o in
  let wx := W *m xx in
  let xb := o_predy o in
  let wxb := W *m xb in
  let wy := W *m o_y o in
  let drho := sig2n^-1 *: (wy^T *m o_u o) in
  let dgam := sig2n^-1 *: (wx^T *m o_u o) in
  let pp := trcWtW_WW in
  let jj11 : 'M_(k + 1) := col_mx (row_mx (o_xtx o) 0) (row_mx 0 (n%:R / (2%:R * sig2n))%:M) in
  let jj12 : 'M_(k + 1, 1 + l) := col_mx (row_mx (x1^T *m wxb) (x1^T *m wx)) 0 in
  let jj22a : 'M_1 := wxb^T *m wxb + (pp * sig2n)%:M in
  let wxbtwx := wxb^T *m wx in
  let wxtwx := wx^T *m wx in
  let jj22 : 'M_(1 + l) := col_mx (row_mx jj22a wxbtwx) (row_mx wxbtwx^T wxtwx) in
  if la_inv jj11 is Some jj11i then
    let j121121 := (jj12^T *m jj11i) *m jj12 in
    let jj22i1 := jj22 - j121121 in
    if la_inv jj22i1 is Some i22 then
      let jj22i := sig2n *: i22 in
      let dd := col_mx drho dgam in
      let rsjoint := (dd^T *m jj22i) *m dd in
      Some (rsjoint 0 0, k)
    else None
  else None.
(** spreg/diagnostics_sp.py:796-865 rlm_wx, rlm_durlag, lm_slxerr *)
Definition rlm_wx (lmspdurbin lmlag : R * nat) : R * nat := (lmspdurbin.1 - lmlag.1, (k - 1)%N).
Definition rlm_durlag (lmspdurbin lmwx : R * nat) : R * nat := (lmspdurbin.1 - lmwx.1, 1%N).
Definition lm_slxerr (lmerr lmwx : R * nat) : R * nat := (lmerr.1 + lmwx.1, k).

(** libpysal W.s0, W.s1 *)
Definition w_s0 : R := \sum_i \sum_j W i j.
Definition w_s1 : R := (\sum_i \sum_j (W i j + W j i) ^+ 2) / 2%:R.
(** spreg/diagnostics_sp.py:867-924 get_mI, get_vI, get_eI *)
Definition get_mI : R := (n%:R * ((o_u o)^T *m d_wu) 0 0) / (w_s0 * utu_of (o_u o)).
Definition get_vI : R :=
  let A := d_AB.1 in
  let trA2 := \sum_i (A *m A) i i in
  let B := d_AB.2 in
  let trB := (\sum_i B i i) * 4%:R in
  (n%:R ^+ 2 / (w_s0 ^+ 2 * (n%:R - k%:R) * (n%:R - k%:R + 2%:R))) *
  (w_s1 + 2%:R * trA2 - trB - ((2%:R * (d_trA ^+ 2)) / (n%:R - k%:R))).
Definition get_eI : R := - (n%:R * d_trA) / (w_s0 * (n%:R - k%:R)).
End LM.

(** spreg/diagnostics_sp.py:927-960 akTest: residuals u, regressors z, their variance factor varb, sig2n of an IV regression *)
Definition akTest (R : realFieldType) n k (u : 'cV[R]_n) (z : 'M[R]_(n, k)) (varb : 'M[R]_k) (W : 'M[R]_n) : R * R :=
  let sig2n := utu_of u / n%:R in
  let mi := (n%:R * (u^T *m (W *m u)) 0 0) / (w_s0 W * utu_of u) in
  let etwz := u^T *m (W *m z) in
  let a := (etwz *m (varb *m etwz^T)) 0 0 in
  let s12 := (w_s0 W / n%:R) ^+ 2 in
  let phi2 := (d_t W + (4%:R / sig2n) * a) / (s12 * n%:R) in
  (mi, n%:R * mi ^+ 2 / phi2).

(** spreg/diagnostics_panel.py: the period-wise weights sp.kron(identity(t), w) and W the n x n matrix; o = OLS(y, x) on the long panel;
    ols.sig2 = utu / (nt - k) is [o_sig2] *)
Section Panel.
Variable R : realFieldType.
Variables (t n k : nat) (o : ols R (t * n) k) (W : 'M[R]_n) (Wsp_nt : 'M[R]_(t * n)).
Definition p_trw : R := \sum_i (W *m W) i i + \sum_i (W^T *m W) i i.
Definition p_num2 : R :=
  let wxb := Wsp_nt *m o_predy o in
  let num1 := 1%:M - o_x o *m (o_xtxi o *m (o_x o)^T) in
  (wxb^T *m (num1 *m wxb)) 0 0.
Definition p_utwy : R := ((o_u o)^T *m (Wsp_nt *m o_y o)) 0 0.
Definition p_utwu : R := ((o_u o)^T *m (Wsp_nt *m o_u o)) 0 0.
(** lines 50-68 panel_LMlag *)
Definition panel_LMlag : R :=
  let J := (p_num2 + (p_trw * p_trw * o_sig2 o)) / o_sig2 o in
  p_utwy ^+ 2 / (o_sig2 o ^+ 2 * J).
(** lines 91-104 panel_LMerror *)
Definition panel_LMerror : R := p_utwu ^+ 2 / (o_sig2 o ^+ 2 * t%:R * p_trw).
(** lines 127-147 panel_rLMlag *)
Definition panel_rLMlag : R :=
  let J := (p_num2 + (t%:R * p_trw * o_sig2 o)) / o_sig2 o in
  (p_utwy / o_sig2 o - p_utwu / o_sig2 o) ^+ 2 / (J - t%:R * p_trw).
(** lines 170-192 panel_rLMerror *)
Definition panel_rLMerror : R :=
  let J := (p_num2 + (t%:R * p_trw * o_sig2 o)) / o_sig2 o in
  (p_utwu / o_sig2 o - t%:R * p_trw / J * p_utwy / o_sig2 o) ^+ 2 / (t%:R * p_trw * (1 - t%:R * p_trw / J)).
End Panel.

(** spreg/diagnostics_panel.py:195-222 panel_Hausman from the difference d of the coefficients and the two covariance matrices *)
Definition panel_Hausman (R : realFieldType) k (d : 'cV[R]_k) (v_fe v_re : 'M[R]_k) : option R :=
  if la_inv (v_re - v_fe) is Some vardi then Some ((d^T *m (vardi *m d)) 0 0) else None.

(** spreg/diagnostics_sp.py:963-1001 comfac_test; theta = (beta, gamma, rho) *)
Definition comfac_test (R : realFieldType) k (rho : R) (beta gamma : 'cV[R]_k) (vm : 'M[R]_(k + (k + 1))) : option (R * nat) :=
  let g := rho *: beta + gamma in
  let G := col_mx (rho *: 1%:M) (col_mx 1%:M beta^T) in
  if la_inv (G^T *m (vm *m G)) is Some GVGi then Some ((g^T *m (GVGi *m g)) 0 0, k) else None.
