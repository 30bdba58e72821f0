(** The Hausman test inside PanelRE (spreg/panel.py:611-631), after the estimation modelled by PanelModel.base_panel_re. *)
From mathcomp Require Import all_ssreflect all_algebra.
From Verif Require Import LinRegModel Kron PanelModel.
Set Implicit Arguments.
Unset Strict Implicit.
Unset Printing Implicit Defensive.
Import Order.TTheory GRing.Theory Num.Theory.
Local Open Scope ring_scope.

Section Haus.
Variables (R : rcfType) (T n k : nat) (valid : 'I_k -> bool).
(** spreg/panel.py:555-562: the columns of x whose variance over time within the units exceeds 1e-12 ([valid]), demeaned *)
Definition fe_slim (x : 'M[R]_(T * n, k)) : 'M[R]_(T * n, #|[pred c | valid c]|) :=
  \matrix_(r, c) (x - tile T (unit_mean x)) r (enum_val c).
(** spreg/panel.py:564-566: xtx_inv_fe and beta_fe *)
Definition fe_beta (y : 'cV[R]_(T * n)) (x : 'M[R]_(T * n, k)) (xtx_inv : 'M[R]_(#|[pred c | valid c]|)) : 'cV[R]_(#|[pred c | valid c]|) :=
  xtx_inv *m ((fe_slim x)^T *m (y - tile T (unit_mean y))).
(** hausman_df, hausman_stat and hausman_p ([None]: nan), and whether "matrix inversion error" is warned *)
Record hausman := Hausman { h_df : nat; h_stat : option R; h_p : option R; h_warn : bool }.
(** spreg/panel.py:611-631.  [None]: np.linalg.inv of line 564 raises; [cdf]: stats.chi2.cdf *)
Definition re_hausman (cdf : R -> nat -> R) (y : 'cV[R]_(T * n)) (x : 'M[R]_(T * n, k)) (r : panel_re R T n k) : option hausman :=
  let m := #|[pred c | valid c]| in
  if (m == 0)%N then Some (Hausman m None None false)
  else if la_inv ((fe_slim x)^T *m fe_slim x) is Some xtx_inv then
    let beta_re_sub : 'cV[R]_m := \col_i re_betas r (enum_val i) 0 in
    let var_fe := re_se2 r *: xtx_inv in
    let var_re_sub : 'M[R]_m := \matrix_(i, j) re_vm r (enum_val i) (enum_val j) in
    let b_diff := fe_beta y x xtx_inv - beta_re_sub in
    if la_inv (var_fe - var_re_sub) is Some v then
      let s := (b_diff^T *m v *m b_diff) 0 0 in Some (Hausman m (Some s) (Some (1 - cdf s m)) false)
    else Some (Hausman m None None true)
  else None.
(** spreg/panel.py:530-631 PanelRE: the estimates and the test *)
Definition panel_re_full solve cdf (y : 'cV[R]_(T * n)) (x : 'M[R]_(T * n, k)) : option (panel_re R T n k * hausman) :=
  if base_panel_re valid solve y x is Some r then
    if re_hausman cdf y x r is Some h then Some (r, h) else None
  else None.
End Haus.
