(** The HAC covariance of regression objects with one regression per regime: robust.hac_multi and its three callers.  The option rules of
    RegOptModel never let a regimes class reach these calls; they are modelled because only those rules keep users away from them. *)
From mathcomp Require Import all_ssreflect all_algebra.
From Verif Require Import LinRegModel.
Set Implicit Arguments.
Unset Strict Implicit.
Unset Printing Implicit Defensive.
Import Order.TTheory GRing.Theory Num.Theory.
Local Open Scope ring_scope.

Section Hac.
Variables (R : realFieldType) (n m k h : nat) (g : 'I_n -> 'I_m).
Notation size r := #|members g r|.
(** results[r] of every regime *)
Definition fits := forall r : 'I_m, tsls R (size r) k h.

(** spreg/twosls_sp_regimes.py:928-989 (_work): BaseTSLS of the rows of the regime.  Simplified: z and H are given as the rows of all observations, ordered as the data, where the
    code builds each regime's own (with the weights of that regime).  'hac' is passed on as robust=None (lines 965-968). *)
Definition regime_fit (y : 'cV[R]_n) (z : 'M[R]_(n, k)) (H : 'M[R]_(n, h)) (sig2n_k : bool) (r : 'I_m) :=
  base_tsls (rows_of g y r) (rows_of g z r) (rows_of g H r) RobNone None sig2n_k.

(** a[regi_ids[r], ] = v[r] for every regime: spreg/twosls_sp_regimes.py:815-817 (self.u) and 833-837 (self.hac_var) *)
Definition scatter p (v : forall r : 'I_m, 'M[R]_(size r, p)) : 'M[R]_(n, p) :=
  \matrix_(i, j) \sum_(a < size (g i) | enum_val a == i) v (g i) a j.

(** What hac_var is bound to: an array, or the tuple which user_output.check_constant returns *)
Inductive hacvar := HArray of 'M[R]_(n, h) | HTuple of 'M[R]_(n, h).
(** spreg/user_output.py:868-938 check_constant: (x_constant, keep_x, warn); the array in it is not looked at below *)
Definition check_constant_result (a : hacvar) : hacvar := match a with HArray x | HTuple x => HTuple x end.
(** spreg/sputils.py:124-159 spbroadcast on an array or a tuple: the exception "Invalid format" is [None] *)
Definition spbroadcast_kind (a : hacvar) (u : 'cV[R]_n) : option 'M[R]_(n, h) :=
  if a is HArray x then Some (spbroadcast x u) else None.

(** spreg/robust.py:124-165 hac_multi (the branch with varb and zthhthi): vm of each regime, which are also the diagonal blocks
    of reg.vm.  [None]: an exception. *)
Definition hac_multi (constant : bool) (f : fits) (hac_var : hacvar) (u : 'cV[R]_n) (gwk : 'M[R]_n) : option ('I_m -> 'M[R]_k) :=
  let hac_var := if constant then hac_var else check_constant_result hac_var in
  if spbroadcast_kind hac_var u is Some xu then
    let psi0 := xu^T *m (gwk *m xu) in
    Some (fun r => let psi1 := t_varb (f r) *m t_zthhthi (f r) in psi1 *m (psi0 *m psi1^T))
  else None.

(** spreg/twosls_sp_regimes.py:833-872, GM_Lag_Regimes with regime_lag_sep, regime_err_sep and robust='hac' *)
Definition gm_lag_regimes_hac (f : fits) (gwk : 'M[R]_n) : option ('I_m -> 'M[R]_k) :=
  hac_multi true f (HArray (scatter (fun r => t_h (f r)))) (scatter (fun r => t_u (f r))) gwk.
(** spreg/ols_regimes.py:673-675 and spreg/twosls_regimes.py:613-615, OLS_Regimes and TSLS_Regimes with regime_err_sep and
    robust='hac'; hac_var the exogenous variables (and instruments) without the constant *)
Definition tsls_regimes_hac (f : fits) (hac_var : 'M[R]_(n, h)) (gwk : 'M[R]_n) : option ('I_m -> 'M[R]_k) :=
  hac_multi false f (HArray hac_var) (scatter (fun r => t_u (f r))) gwk.
End Hac.
