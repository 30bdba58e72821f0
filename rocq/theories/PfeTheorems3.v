(** C81: covariance matrices, invariance, and the quantities that are not what they should be. *)
From Coq Require Import Reals Ring Field.
From mathcomp Require Import all_ssreflect all_algebra.
From mathcomp.fingroup Require Import perm.
From Verif Require Import Rinst Mring LinRegModel LinRegProofs LinRegProofs2 FilterModel MLModel MLSpec MLProofs MLTheorems MLTheorems3 MLTheorems4 Kron PanelModel
  PanelTheorems PfeModel PfeSpec PfeTheorems PfeTheorems2.
Set Implicit Arguments.
Unset Strict Implicit.
Unset Printing Implicit Defensive.
Import Order.TTheory GRing.Theory Num.Theory.
Local Open Scope ring_scope.

Section Kr.
Variables (T n : nat).
Lemma w_nt_mul (A B : 'M[R]_n) : w_nt T A *m w_nt T B = w_nt T (A *m B).
Proof. by rewrite /w_nt kron_mul mul1mx. Qed.
Lemma w_nt_tr (A : 'M[R]_n) : (w_nt T A)^T = w_nt T A^T.
Proof. by rewrite /w_nt kron_tr trmx1. Qed.
Lemma tr_w_nt (A : 'M[R]_n) : \tr (w_nt T A) = T%:R * \tr A.
Proof.
rewrite /mxtrace big_pix (eq_bigr (fun=> \sum_i A i i)) => [|t _]; last by apply: eq_bigr => i _; rewrite kronE mxE eqxx mul1r.
by rewrite sumr_const card_ord mulr_natl.
Qed.
Lemma stack_mul k l (a : 'M[R]_(T * n, k)) (b : 'M[R]_(T * n, l)) : a^T *m b = \sum_t (period t a)^T *m period t b.
Proof.
apply/matrixP => i j; rewrite summxE mxE big_pix; apply: eq_bigr => t _; rewrite mxE; apply: eq_bigr => q _; by rewrite !mxE.
Qed.
Lemma period_demean t k (a : 'M[R]_(T * n, k)) : period t (demean_panel 0 a) = period t a - over_time a.
Proof. by rewrite demean0 over_timeE; apply/matrixP => i j; rewrite !mxE pu_pix. Qed.
Lemma period_mul t k l (a : 'M[R]_(T * n, k)) (b : 'M[R]_(k, l)) : period t (a *m b) = period t a *m b.
Proof. by apply/matrixP => i j; rewrite !mxE; apply: eq_bigr => q _; rewrite mxE. Qed.
Lemma demean_dot k l (a : 'M[R]_(T * n, k)) (b : 'M[R]_(T * n, l)) : (0 < T)%N ->
  a^T *m demean_panel 0 b = (demean_panel 0 a)^T *m demean_panel 0 b.
Proof.
move=> T0; rewrite [in RHS]demean0 [(_ - _)^T]linearB /= mulmxBl -[LHS]subr0; congr (_ - _).
rewrite stack_mul (eq_bigr (fun t => (unit_mean a)^T *m period t (demean_panel 0 b))) => [|t _].
  rewrite -mulmx_sumr (_ : \sum_t _ = 0) ?mulmx0 //.
  apply/matrixP => i j; rewrite summxE; under eq_bigr do rewrite mxE.
  have := congr1 (fun M : 'M[R]_(n, l) => M i j) (C41_unit_means_zero b T0); rewrite !mxE => /eqP.
  by rewrite mulf_eq0 invr_eq0 pnatr_eq0 -[T == 0%N]negbK -lt0n T0 orbF => /eqP.
by congr (_^T *m _); apply/matrixP => i j; rewrite !mxE pu_pix.
Qed.
End Kr.

Lemma fe_lag_infoE T n k (x : 'M[R]_(T * n, k)) (b : 'cV[R]_k) (W ai : 'M[R]_n) sig2 : (0 < T)%N ->
  fe_lag_info x (demean_panel 0 x) (demean_panel 0 x *m b) W ai sig2 =
  lag_info (demean_panel 0 x) (w_nt T (W *m ai) *m (demean_panel 0 x *m b)) (w_nt T (W *m ai)) sig2.
Proof.
move=> T0; rewrite /fe_lag_info /lag_info; set xd := demean_panel 0 x; set G := W *m ai.
have -> : x^T *m (w_nt T G *m (xd *m b)) = xd^T *m (w_nt T G *m (xd *m b)).
  by rewrite [w_nt T G *m _]mulmxA -demean_w [LHS]mulmxA demean_dot // -mulmxA demean_w.
have -> : (xd *m b)^T *m (w_nt T (G^T *m G) *m (xd *m b)) = (w_nt T G *m (xd *m b))^T *m (w_nt T G *m (xd *m b)).
  by rewrite [(w_nt T G *m _)^T]trmx_mul w_nt_tr -w_nt_mul -!mulmxA.
have tr1 (A : 'M[R]_n) : \sum_i w_nt T A i i = T%:R * \sum_i A i i by exact: tr_w_nt.
by rewrite /tr2_of /tr3_of /tr1_of w_nt_tr !w_nt_mul !tr1 mulrDr.
Qed.

(** C81: the reported covariance matrix is the inverse of the expected information of the within model (although the code multiplies by
    the regressors before the effects are removed), and it is positive definite unless the fit is exact. *)
Theorem C81_lag_vm : forall T n k (y : 'cV[R]_(T * n)) (x : 'M[R]_(T * n, k)) (W : 'M[R]_n) res eps mx r, (0 < T)%N -> (0 < n)%N -> zero_diag W ->
  base_fe_lag y x W res eps mx = Some r ->
  [/\ ml_vm1 r *m panel_lag_info x W (ml_b r) (ml_rho r) (ml_sig2 r) = 1%:M,
      forall i j, ml_vm r i j = ml_vm1 r (cast_ord (esym (addnA k 1%N 1%N)) (lshift 1%N i)) (cast_ord (esym (addnA k 1%N 1%N)) (lshift 1%N j))
    & ml_u r != 0 -> pd (ml_vm1 r) /\ pd (ml_vm r)].
Proof.
move=> T n k y x W [rho fn] eps mx r T0 n0 Wd; rewrite /base_fe_lag.
case E: lag_aux_of => [ax|//]; case: power_expansion => [p|//]; case E2: la_inv => [ai|//]; case E3: la_inv => [v|//] [<-] /=.
set b := la_b0 ax - _ in E3 *; set u := la_e0 ax - _ in E3 *.
have [UA Ea] := la_invP E2; rewrite a_ofE // in UA Ea; have [U1 Ev] := la_invP E3.
split.
- have -> : panel_lag_info x W b rho (utu_of u / (T * n)%:R) = fe_lag_info x (demean_panel 0 x) (demean_panel 0 x *m b) W ai (utu_of u / (T * n)%:R).
    move: (utu_of u / _) => s2; rewrite fe_lag_infoE // /panel_lag_info /lag_info -Ea.
    set G := W *m ai.
    have pd1 t : period t x - over_time x = period t (demean_panel 0 x) by rewrite period_demean.
    have E1 : \sum_t (period t x - over_time x)^T *m (period t x - over_time x) = (demean_panel 0 x)^T *m demean_panel 0 x.
      by rewrite [RHS]stack_mul; apply: eq_bigr => t _; rewrite pd1.
    have E4 : \sum_t (period t x - over_time x)^T *m (G *m ((period t x - over_time x) *m b)) =
      (demean_panel 0 x)^T *m (w_nt T G *m (demean_panel 0 x *m b)).
      by rewrite [RHS]stack_mul; apply: eq_bigr => t _; rewrite pd1 period_w [period t (_ *m b)]period_mul.
    have E5 : \sum_t ssq (G *m ((period t x - over_time x) *m b)) =
      ((w_nt T G *m (demean_panel 0 x *m b))^T *m (w_nt T G *m (demean_panel 0 x *m b))) 0 0.
      by rewrite -utuE -ssqE -sum_ssq; apply: eq_bigr => t _; rewrite pd1 period_w [period t (_ *m b)]period_mul.
    rewrite E1 E4 E5 /tr2_of /tr3_of /tr1_of -!/(mxtrace _) w_nt_tr !w_nt_mul !tr_w_nt.
    congr (block_mx _ _ _ (block_mx _%:M _ _ _)); first (by congr col_mx; exact: linearZ); rewrite mulrDr; congr (_ + _); by rewrite mulrC.
  by rewrite Ev mulVmx.
- by move=> i j; rewrite mxE.
- move=> u0; have N0 : (0 < T * n)%N by rewrite muln_gt0 T0 n0.
  have s0 : 0 < utu_of u / (T * n)%:R by rewrite divr_gt0 ?ltr0n // lt_def utu_ge0 utu_eq0 u0.
  have [P _] := C60_lag_info (demean_panel 0 x) (w_nt T (W *m ai) *m (demean_panel 0 x *m b)) (w_nt T (W *m ai)) s0 N0.
  rewrite -fe_lag_infoE // in P.
  have Pv : pd v by rewrite Ev; apply: pd_inv; exact: psd_unit_pd P U1.
  split=> //; apply: pd_principal => // i j /cast_ord_inj; exact: lshift_inj.
Qed.

Theorem C81_err_vm : forall T n k (y : 'cV[R]_(T * n)) (x : 'M[R]_(T * n, k)) (W : 'M[R]_n) adj res r, (0 < T)%N -> (0 < n)%N -> zero_diag W ->
  base_fe_err adj y x W res = Some r ->
  [/\ me_vm1 r *m panel_err_info T W (me_lam r) (me_sig2 r) = 1%:M,
      (let xf t := (1%:M - me_lam r *: W) *m (period t x - over_time x) in
       ulsubmx (me_vm r) *m (\sum_t (xf t)^T *m xf t) = (me_sig2 r)%:M),
      ursubmx (me_vm r) = 0 /\ dlsubmx (me_vm r) = 0 /\ drsubmx (me_vm r) = (me_vm1 r 0 0)%:M
    & me_efilt r != 0 -> pd (me_vm1 r) /\ pd (me_vm r)].
Proof.
move=> T n k y x W adj [lam fn] r T0 n0 Wd; rewrite /base_fe_err.
case E: la_inv => [xi|//]; case E2: la_inv => [ai|//]; case E3: la_inv => [v|//] [<-] /=.
set ef := (_ - _) - _ in E3 *; set s2 := (ef^T *m ef) 0 0 / _ in E3 *.
have [UA Ea] := la_invP E2; rewrite a_ofE // in UA Ea; have [U1 Ev] := la_invP E3; have [Ux Ex] := la_invP E.
have Ei : panel_err_info T W lam s2 = err_info (w_nt T (W *m ai)) s2.
  rewrite /panel_err_info /err_info -Ea /tr2_of /tr3_of /tr1_of -!/(mxtrace _) w_nt_tr !w_nt_mul !tr_w_nt.
  by rewrite mulrDr.
have Ei2 : panel_err_info T W lam s2 = block_mx (T%:R * (tr2_of (W *m ai) + tr3_of (W *m ai)))%:M (T%:R * tr1_of (W *m ai) / s2)%:M
  (T%:R * tr1_of (W *m ai) / s2)%:M ((T * n)%:R / (2%:R * s2 ^+ 2))%:M by rewrite /panel_err_info -Ea.
rewrite -Ei2 in U1 Ev.
split.
- by rewrite Ev mulVmx.
- rewrite block_mxKul -scalemxAl -[RHS]scalemx1; congr (_ *: _).
  have -> : \sum_t ((1%:M - lam *: W) *m (period t x - over_time x))^T *m ((1%:M - lam *: W) *m (period t x - over_time x)) =
    (demean_panel 0 x - lam *: (w_nt T W *m demean_panel 0 x))^T *m (demean_panel 0 x - lam *: (w_nt T W *m demean_panel 0 x)).
    have -> : demean_panel 0 x - lam *: (w_nt T W *m demean_panel 0 x) = w_nt T (1%:M - lam *: W) *m demean_panel 0 x.
      by rewrite w_ntB mulmxBl mul1mx -scalemxAl.
    by rewrite [RHS]stack_mul; apply: eq_bigr => t _; rewrite period_w period_demean.
  by rewrite Ex mulVmx.
- by rewrite block_mxKur block_mxKdl block_mxKdr.
- move=> e0; have N0 : (0 < T * n)%N by rewrite muln_gt0 T0 n0.
  have s0 : 0 < s2 by rewrite divr_gt0 ?ltr0n // -utuE lt_def utu_ge0 utu_eq0 e0.
  have [P _] := C60_err_info (w_nt T (W *m ai)) s0 N0; rewrite -Ei in P.
  have Pv : pd v by rewrite Ev; apply: pd_inv; exact: psd_unit_pd P U1.
  split=> //; apply: pd_diag_block.
  + rewrite Ex; apply: pd_scale => //; apply: pd_inv; exact: gram_pd.
  + by apply: pd_scalar1; exact: pd_diag Pv.
Qed.
