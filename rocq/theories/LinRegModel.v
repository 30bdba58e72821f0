(** Linear regression core: BaseOLS, BaseTSLS, BaseWLS, robust covariance, Wald test, fit measures.
    Exact arithmetic in an arbitrary real (closed) field; arrays are MathComp matrices; a failing np.linalg.inv is [None]
    (LinAlgError).  Sparse and dense arrays are not distinguished (spdot/sphstack/spbroadcast/spmultiply, spreg/sputils.py,
    compute the same products). *)
From mathcomp Require Import all_ssreflect all_algebra.
Set Implicit Arguments.
Unset Strict Implicit.
Unset Printing Implicit Defensive.
Import Order.TTheory GRing.Theory Num.Theory.
Local Open Scope ring_scope.

(** the robust option: None, 'white', 'hac' *)
Inductive robust_opt := RobNone | RobWhite | RobHac.
Definition is_robust (r : robust_opt) : bool := if r is RobNone then false else true.

Section LinReg.
Variable R : realFieldType.

(** numpy.linalg.inv: raises LinAlgError on a singular matrix *)
Definition la_inv k (A : 'M[R]_k) : option 'M[R]_k := if A \in unitmx then Some (invmx A) else None.

(** spreg/sputils.py spbroadcast(array, array2): row i of array times entry i of the column array2 *)
Definition spbroadcast n k (x : 'M[R]_(n, k)) (u : 'cV[R]_n) : 'M[R]_(n, k) := \matrix_(i, j) (x i j * u i 0).

(** spreg/utils.py:109-117 utu = np.sum(self.u ** 2) *)
Definition utu_of n (u : 'cV[R]_n) : R := \sum_i (u i 0) ^+ 2.

(** spreg/utils.py:42-51 mean_y *)
Definition mean_of n (y : 'cV[R]_n) : R := (\sum_i y i 0) / n%:R.

(** spreg/utils.py:129-159 sig2n, sig2n_k *)
Definition sig2_of n (k : nat) (sig2n_k : bool) (u : 'cV[R]_n) : R :=
  if sig2n_k then utu_of u / (n%:R - k%:R) else utu_of u / n%:R.

(** spreg/robust.py:103-112, the middle matrix psi0.  gwk = the dense kernel matrix (lag_spatial(gwk, xu) = gwk * xu);
    [Some gwk] is a truthy kernel weights object. *)
Definition robust_psi0 n k h (H : 'M[R]_(n, h)) (u : 'cV[R]_n) (gwk : option 'M[R]_n) (sig2n_k : bool) : 'M[R]_h :=
  let xu := spbroadcast H u in
  match gwk with
  | Some g => xu^T *m (g *m xu)
  | None => let p := xu^T *m xu in if sig2n_k then (n%:R / (n%:R - k%:R)) *: p else p
  end.

(** A fitted linear model: the attributes set by BaseOLS *)
Record ols n k := Ols {
  o_x : 'M[R]_(n, k); o_y : 'cV[R]_n; o_xtx : 'M[R]_k; o_xtxi : 'M[R]_k; o_betas : 'cV[R]_k;
  o_predy : 'cV[R]_n; o_u : 'cV[R]_n; o_sig2 : R; o_vm : 'M[R]_k }.

(** spreg/ols.py:102-127 BaseOLS.__init__ after the inverse; only whether robust is given matters here.
    vm: spreg/robust.py:113-119 for the OLS case, spreg/utils.py:171-180 otherwise. *)
Definition ols_of_xtxi n k (y : 'cV[R]_n) (x : 'M[R]_(n, k)) (robust : robust_opt) (gwk : option 'M[R]_n) (sig2n_k : bool)
    (xtxi : 'M[R]_k) : ols n k :=
  let xtx := x^T *m x in
  let xty := x^T *m y in
  let betas := xtxi *m xty in
  let predy := x *m betas in
  let u := y - predy in
  let sig2 := sig2_of k sig2n_k u in
  let vm := if is_robust robust then xtxi *m (robust_psi0 k x u gwk sig2n_k *m xtxi) else sig2 *: xtxi in
  Ols x y xtx xtxi betas predy u sig2 vm.

(** spreg/ols.py:102-127 BaseOLS with pinv=False *)
Definition base_ols n k (y : 'cV[R]_n) (x : 'M[R]_(n, k)) (robust : robust_opt) (gwk : option 'M[R]_n) (sig2n_k : bool)
  : option (ols n k) :=
  if la_inv (x^T *m x) is Some xtxi then Some (ols_of_xtxi y x robust gwk sig2n_k xtxi) else None.

(** spreg/twosls.py:125-199 BaseTSLS.  The instruments: neither, both as numpy arrays, or exactly one given
    (the type tests of lines 129-132 and 142 on numpy/csr/None kinds are [tsls_instruments] below). *)
Record tsls n k h := Tsls {
  t_z : 'M[R]_(n, k); t_h : 'M[R]_(n, h); t_betas : 'cV[R]_k; t_varb : 'M[R]_k; t_zthhthi : 'M[R]_(k, h);
  t_predy : 'cV[R]_n; t_u : 'cV[R]_n; t_sig2 : R; t_vm : 'M[R]_k }.

Definition base_tsls n k h (y : 'cV[R]_n) (z : 'M[R]_(n, k)) (H : 'M[R]_(n, h)) (robust : robust_opt) (gwk : option 'M[R]_n)
    (sig2n_k : bool) : option (tsls n k h) :=
  if la_inv (H^T *m H) is Some hthi then
    let zth := z^T *m H in
    let hty := H^T *m y in
    let factor_1 := zth *m hthi in
    let factor_2 := factor_1 *m zth^T in
    if la_inv factor_2 is Some varb then
      let betas := (varb *m factor_1) *m hty in
      let predy := z *m betas in
      let u := y - predy in
      let sig2 := sig2_of k sig2n_k u in
      let psi1 := varb *m factor_1 in
      let vm := if is_robust robust then psi1 *m (robust_psi0 k H u gwk sig2n_k *m psi1^T) else sig2 *: varb in
      Some (Tsls z H betas varb factor_1 predy u sig2 vm)
    else None
  else None.

(** spreg/twosls.py:129-144: which instrument matrix is used.  Kinds of the arguments q and h. *)
Inductive kind := KNone | KArray | KCsr.
Definition is_array (a : kind) : bool := if a is KArray then true else false.
Inductive instr := IRaise | IUseH | IXQ.              (* exception, h itself, [x q] *)
Definition tsls_instruments (q h : kind) : instr :=
  if is_array q && is_array h then IRaise
  else match q, h with
       | KNone, KNone => IRaise
       | _, KArray | _, KCsr => IUseH
       | _, KNone => IXQ
       end.

(** spreg/regimes.py:276-307 wald_test: the statistic *)
Definition wald_w k r (betas : 'cV[R]_k) (Rm : 'M[R]_(r, k)) (q : 'cV[R]_r) (vm : 'M[R]_k) : option R :=
  if la_inv (Rm *m (vm *m Rm^T)) is Some rvri then
    let rbq := Rm *m betas - q in Some ((rbq^T *m (rvri *m rbq)) 0 0)
  else None.

(** spreg/diagnostics.py:193-252 r2 *)
Definition r2_of n k (o : ols n k) : R :=
  1 - utu_of (o_u o) / \sum_i (o_y o i 0 - mean_of (o_y o)) ^+ 2.
(** spreg/diagnostics.py:255-310 ar2 *)
Definition ar2_of n k (o : ols n k) : R := 1 - (1 - r2_of o) * (n%:R - 1) / (n%:R - k%:R).
(** spreg/diagnostics.py:41-117 f_stat, df = 0: the statistic *)
Definition f_stat_all n k (o : ols n k) : R :=
  let U := \sum_i (o_predy o i 0 - mean_of (o_y o)) ^+ 2 in
  (U / (k%:R - 1)) / (utu_of (o_u o) / (n%:R - k%:R)).
(** the same with df = d > 0: constrained regression on the first k columns (x has k + d) *)
Definition f_stat_last n k d (y : 'cV[R]_n) (x0 : 'M[R]_(n, k)) (x1 : 'M[R]_(n, d)) : option R :=
  if base_ols y (row_mx x0 x1) RobNone None true is Some o then
    if base_ols y x0 RobNone None true is Some o0 then
      let U := utu_of (o_u o0) - utu_of (o_u o) in
      Some ((U / d%:R) / (utu_of (o_u o) / (n%:R - (k + d)%:R)))
    else None
  else None.
End LinReg.

(** spreg/ols.py:575-586 BaseWLS: w positive weights (column), sqrt of the field.  [pinv] is numpy.linalg.pinv, an oracle. *)
Section WLS.
Variable R : rcfType.
Variable pinv : forall k, 'M[R]_k -> 'M[R]_k.
Definition sqrtv n (w : 'cV[R]_n) : 'cV[R]_n := \col_i Num.sqrt (w i 0).
Definition base_wls n k (y : 'cV[R]_n) (x : 'M[R]_(n, k)) (w : 'cV[R]_n) (sig2n_k : bool) : ols R n k :=
  let xw := spbroadcast x (sqrtv w) in
  let yw := spbroadcast y (sqrtv w) in
  let o := ols_of_xtxi yw xw RobNone None sig2n_k (pinv (xw^T *m xw)) in
  Ols x y (o_xtx o) (o_xtxi o) (o_betas o) (x *m o_betas o) (y - x *m o_betas o) (o_sig2 o) (o_vm o).

(** spreg/regimes.py:704-733 _get_weighted_var without yend: g = regime of each observation.
    sig r = u_r'u_r / n_r or / (n_r - x.shape[1]). *)
Definition regi_sig n m k (g : 'I_n -> 'I_m) (sig2n_k : bool) (u : 'cV[R]_n) (r : 'I_m) : R :=
  let ss := \sum_(i | g i == r) (u i 0) ^+ 2 in
  let nr := (#|[pred i | g i == r]|)%:R in
  if sig2n_k then ss / (nr - k%:R) else ss / nr.
Definition get_weighted_var n m k (g : 'I_n -> 'I_m) (sig2n_k : bool) (u y : 'cV[R]_n) (x : 'M[R]_(n, k))
  : 'cV[R]_n * 'M[R]_(n, k) :=
  let sig := regi_sig k g sig2n_k u in
  let sig_vec := \col_i (1 / Num.sqrt (sig (g i))) in
  (\col_i (y i 0 / Num.sqrt (sig (g i))), spbroadcast x sig_vec).
End WLS.

(** OLS restricted to the rows of one regime (spreg/ols_regimes.py:_work: y[regi_ids[r]], x[regi_ids[r]]), and the
    all-varying regime design of spreg/regimes.py:610-643 (columns ordered regime by regime). *)
Section RegimeDesign.
Variables (R : realFieldType) (n k m : nat) (g : 'I_n -> 'I_m).
Definition members (r : 'I_m) : {pred 'I_n} := [pred i | g i == r].
Definition rows_of p (a : 'M[R]_(n, p)) (r : 'I_m) : 'M[R]_(#|members r|, p) := \matrix_(i, j) a (enum_val i) j.
Definition regime_x (x : 'M[R]_(n, k)) : 'M[R]_(n, m * k) :=
  \matrix_(i, c) mxvec (\matrix_(p < m, j < k) (if g i == p then x i j else 0)) 0 c.
(** the stacked coefficients b_1, ..., b_m in the same order *)
Definition stack (b : 'I_m -> 'cV[R]_k) : 'cV[R]_(m * k) := (mxvec (\matrix_(p < m, j < k) b p j 0))^T.
End RegimeDesign.
