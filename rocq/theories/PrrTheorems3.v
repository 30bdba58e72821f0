(** C83, continued: the variance matrix at lambda = 0, and weights that are not symmetric. *)
From Coq Require Import Reals Ring Field.
From mathcomp Require Import all_ssreflect all_algebra.
From Verif Require Import Rinst Mring LinRegModel LinRegProofs LinRegProofs2 FilterModel MLModel MLSpec MLProofs MLTheorems Kron PanelModel PanelTheorems PanelTheorems2
  PfeModel PfeSpec PfeTheorems PfeTheorems2 PfeTheorems3 PreSpec PreTheorems PrrModel PrrSpec PrrTheorems PrrTheorems2.
Set Implicit Arguments.
Unset Strict Implicit.
Unset Printing Implicit Defensive.
Import Order.TTheory GRing.Theory Num.Theory.
Local Open Scope ring_scope.
Add Field Rf : (@p_ft R_realFieldType).

Lemma tr_zero_diag n (W : 'M[R]_n) : zero_diag W -> \tr W = 0.
Proof. by move=> H; rewrite /mxtrace big1. Qed.
(** C83: whenever the estimate of lambda is zero the estimator fails: the matrix of second derivatives is built from squares of traces
    where traces of squares belong, so its first row vanishes and it has no inverse. *)
Theorem C83_lam0_refuted : forall T n k (y : 'cV[R]_(T * n)) (x : 'M[R]_(T * n, k)) (W : 'M[R]_n) eigh phi0 fn, zero_diag W ->
  base_re_err eigh y x W ((0, phi0), fn) = None.
Proof.
move=> T n k y x W eigh phi0 fn Hz; rewrite /base_re_err; case: la_inv => // Bi; case: (eigh _) => d V; case: la_inv => // xi.
have -> : a_of W 0 = 1%:M by rewrite a_ofE // scale0r subr0.
rewrite trmx1 mul1mx; case Ea: la_inv => [aTai|//]; have [_ Ea'] := la_invP Ea; rewrite invmx1 in Ea'.
set s2 := _ / _; case Ev: la_inv => [vi|//]; have [_ Ev'] := la_invP Ev.
case E: la_inv => [vm1|//]; have [U _] := la_invP E; exfalso; move: U; apply/negP.
set t := _ * Num.sqrt _ in Ev'.
have Evi : vi = (t + 1)^-1 *: 1%:M.
  have E1 : t *: 1%:M + 1%:M = (t + 1)%:M :> 'M[R]_n by rewrite scalemx1 raddfD.
  by rewrite Ev' Ea' E1 invmx_scalar -scalemx1.
have tW : \tr (W^T *m 1%:M + 1%:M *m W) = 0 by rewrite mulmx1 mul1mx mxtraceD mxtrace_tr tr_zero_diag // addr0.
rewrite /re_err_v; cbv zeta; rewrite Ea' Evi trmx1; set G := _ *m 1%:M; set c := (t + 1)^-1.
have tG : \tr G = 0 by rewrite /G mulmx1.
have -> : (c *: 1%:M) *m 1%:M = c *: 1%:M :> 'M[R]_n by rewrite mulmx1.
have S M : (c *: 1%:M) *m M = c *: M :> 'M[R]_n by rewrite -scalemxAl mul1mx.
have S' M : M *m (c *: 1%:M) = c *: M :> 'M[R]_n by rewrite -scalemxAr mulmx1.
rewrite !S S' !mxtraceZ tG !mulr0 expr0n /= !mulr0 !addr0.
rewrite unitmxE unitfE negbK; apply/eqP.
rewrite (expand_det_row _ (lshift 1%N (lshift 1%N 0))) big1 // => j _.
have -> : forall (a1 a2 a3 a4 a5 a6 : R), (block_mx (block_mx 0%:M 0%:M a1%:M a2%:M) (col_mx 0%:M a3%:M) (row_mx a4%:M a5%:M) a6%:M : 'M[R]_(1 + 1 + 1)) (lshift 1%N (lshift 1%N 0)) j = 0.
  move=> a1 a2 a3 a4 a5 a6; rewrite block_mxEv col_mxEu mxE; case: splitP => j' _.
    by rewrite block_mxEv col_mxEu mxE; case: splitP => j'' _; rewrite raddf0 mxE.
  by rewrite col_mxEu raddf0 mxE.
by rewrite mul0r.
Qed.

Section Path.
Variables (T : nat) (phi : R).
Hypothesis T0 : (0 < T)%N.
Local Notation o1 := (lift 0 0 : 'I_3).
Local Notation o2 := (lift 0 (lift 0 0) : 'I_3).
Lemma sum3 (f : 'I_3 -> R) : \sum_i f i = f 0 + f o1 + f o2.
Proof. by rewrite !big_ord_recl big_ord0 addr0 addrA. Qed.
(** the row standardised weights of a path of three units *)
Definition pW : 'M[R]_3 := \matrix_(i, j) if i == o1 then (if j == o1 then 0 else 2%:R^-1) else (if j == o1 then 1 else 0).
Definition pa : R := (Num.sqrt 3%:R)^-1.
Definition pc : R := (Num.sqrt 2%:R)^-1.
Definition pV : 'M[R]_3 := \matrix_(i, j) if j == 0 then pa else if j == o1 then (if i == o1 then - pa else pa)
  else (if i == 0 then pc else if i == o1 then 0 else - pc).
Definition pom : 'rV[R]_3 := \row_j if j == 0 then 1 else if j == o1 then -1 else 0.
Definition py : 'cV[R]_3 := \col_i if i == o1 then 1 else 0.
Definition px : 'cV[R]_3 := \col_i if i == o1 then 0 else if i == 0 then 1 else -1.
Lemma ord3 (P : 'I_3 -> Prop) : P 0 -> P o1 -> P o2 -> forall i, P i.
Proof.
move=> P0 P1 P2 [[|[|[|m]]] Hm] //; [suff -> : Ordinal Hm = 0 by []|suff -> : Ordinal Hm = o1 by []|suff -> : Ordinal Hm = o2 by []]; exact/val_inj.
Qed.
Lemma pa2 : pa ^+ 2 = 3%:R^-1. Proof. by rewrite exprVn sqr_sqrtr ?ler0n. Qed.
Lemma pc2 : pc ^+ 2 = 2%:R^-1. Proof. by rewrite exprVn sqr_sqrtr ?ler0n. Qed.
Lemma two_half : 2%:R^-1 + 2%:R^-1 = 1 :> R.
Proof. by rewrite -mulr2n -[2%:R^-1 *+ 2]mulr_natr mulVf ?pnatr_eq0. Qed.
Lemma three_third : 3%:R^-1 + 3%:R^-1 + 3%:R^-1 = 1 :> R.
Proof. by rewrite -mulr2n -mulrSr -[3%:R^-1 *+ 3]mulr_natr mulVf ?pnatr_eq0. Qed.
Lemma pW_zero : zero_diag pW. Proof. by apply: ord3; rewrite mxE. Qed.
Lemma pW_sub : substochastic pW.
Proof.
split=> [i j|]; first by rewrite mxE; case: (i == o1); case: (j == o1); rewrite ?ler01 ?invr_ge0 ?ler0n.
by apply: ord3; rewrite sum3 !mxE /= ?addr0 ?add0r ?two_half.
Qed.
Lemma pV_eig : is_eig pW pom pV.
Proof.
split.
  apply/matrixP => i j; rewrite mul_mx_diag [RHS]mxE [in LHS]mxE sum3; move: i j.
  have H : 2%:R^-1 * pa + 2%:R^-1 * pa = pa by rewrite -mulrDl two_half mul1r.
  by apply: ord3; apply: ord3; rewrite !mxE /= ?mul0r ?mulr0 ?mul1r ?mulr1 ?mulrN1 ?addr0 ?add0r ?H ?opprK // mulrN addrN.
by apply: ord3; rewrite sum3 !mxE /= ?expr0n ?addr0 ?sqrrN ?pa2 ?pc2 ?two_half ?three_third.
Qed.
Lemma tile_dot m p (a : 'M[R]_(3, m)) (b : 'M[R]_(3, p)) : (tile T a)^T *m tile T b = T%:R *: (a^T *m b).
Proof.
have E q (c : 'M[R]_(3, q)) t : period t (tile T c) = c by apply/matrixP => i j; rewrite !mxE pu_pix.
by rewrite stack_mul (eq_bigr (fun=> a^T *m b)) => [|t _]; rewrite ?E // sumr_const card_ord scaler_nat.
Qed.
Lemma filter_tile m (P : 'M[R]_3) (a : 'M[R]_(3, m)) : re_filter P pW 0 (tile T a) = tile T (P *m a).
Proof.
rewrite /re_filter !scale0r !subr0 tile_mean_tile // mulmxBl mul1mx.
by apply/matrixP => i j; rewrite !mxE addrC subrK.
Qed.
Definition pk : R := T%:R * phi ^+ 2 + 1.
Lemma pk0 : 0 < pk. Proof. by rewrite /pk ltr_paddl ?ltr01 // mulr_ge0 ?ler0n ?sqr_ge0. Qed.
Definition ps : R := (Num.sqrt pk)^-1.
Lemma ps2 : ps ^+ 2 = pk^-1. Proof. by rewrite exprVn sqr_sqrtr // ltW ?pk0. Qed.
Lemma pP : re_err_P T pom pV 0 (phi ^+ 2) = ps *: pV^T.
Proof.
rewrite /re_err_P -mul_scalar_mx -diag_const_mx; congr (diag_mx _ *m _).
by apply/rowP => i; rewrite !mxE mul0r subr0 expr1n divr1.
Qed.
Lemma pVy : pV^T *m py = \col_i if i == 0 then pa else if i == o1 then - pa else 0.
Proof.
apply/matrixP => i j; rewrite ord1 [LHS]mxE sum3; move: i.
by apply: ord3; rewrite !mxE /= ?mulr0 ?mulr1 ?addr0 ?add0r.
Qed.
Lemma pVx : pV^T *m px = \col_i if i == 0 then 0 else if i == o1 then 0 else pc + pc.
Proof.
apply/matrixP => i j; rewrite ord1 [LHS]mxE sum3; move: i.
by apply: ord3; rewrite !mxE /= ?mulr0 ?mulr1 ?mulrN1 ?addr0 ?add0r ?subrr ?opprK.
Qed.
Lemma dotZ m p q (c : R) (a : 'M[R]_(m, p)) (b : 'M[R]_(m, q)) : (c *: a)^T *m (c *: b) = c ^+ 2 *: (a^T *m b).
Proof.
have -> : (c *: a)^T = c *: a^T by apply/matrixP => i j; rewrite !mxE.
by rewrite -scalemxAl -scalemxAr scalerA expr2.
Qed.
Lemma p_ssr : re_err_ssr (tile T py) (tile T px) (re_err_P T pom pV 0 (phi ^+ 2)) pW 0 = Some (T%:R * (ps ^+ 2 * (2%:R / 3%:R))).
Proof.
have Tn : T%:R != 0 :> R by rewrite pnatr_eq0 -lt0n.
have sn : ps ^+ 2 != 0 by rewrite ps2 invr_eq0 gt_eqF ?pk0.
rewrite /re_err_ssr !filter_tile pP -!scalemxAl pVy pVx !tile_dot !dotZ.
have -> : (\col_i (if i == 0 then 0 else if i == o1 then 0 else pc + pc))^T *m (\col_i (if i == 0 then pa else if i == o1 then - pa else 0)) = 0 :> 'M[R]_1.
  by apply/matrixP => i j; rewrite mxE sum3 !mxE /= !mul0r mulr0 !addr0.
have -> : (\col_i (if i == 0 then 0 else if i == o1 then 0 else pc + pc))^T *m (\col_i (if i == 0 then 0 else if i == o1 then 0 else pc + pc)) = 2%:R%:M :> 'M[R]_1.
  apply/matrixP => i j; rewrite !ord1 mxE sum3 !mxE /= !mul0r !add0r mulr1n -expr2.
  have -> : pc + pc = pc * 2%:R by rewrite mulr_natr mulr2n.
  by rewrite exprMn pc2 [2%:R ^+ 2]expr2 mulKf // pnatr_eq0.
have -> : (\col_i (if i == 0 then pa else if i == o1 then - pa else 0))^T *m (\col_i (if i == 0 then pa else if i == o1 then - pa else 0)) = (2%:R / 3%:R)%:M :> 'M[R]_1.
  by apply/matrixP => i j; rewrite !ord1 mxE sum3 !mxE /= mulrNN mulr0 addr0 mulr1n -expr2 pa2 -mulr2n mulr_natl.
rewrite la_inv_unit; last first.
  by rewrite !scale_scalar_mx unitmxE det_scalar1 unitfE mulf_neq0 // mulf_neq0 // pnatr_eq0.
by rewrite !scaler0 mulmx0 mulmx0 [X in _ - X]mxE subr0 !mxE mulr1n.
Qed.
Lemma p_obj : re_err_obj true (tile T py) (tile T px) pW pom pV 0 phi =
  Some ((T * 3)%:R / 2%:R * ln (T%:R * (pk^-1 * (2%:R / 3%:R)) / (T * 3)%:R) + 3%:R / 2%:R * ln pk).
Proof.
have Tn : 0 < T%:R :> R by rewrite ltr0n.
have NE : 3%:R * T%:R = (T * 3)%:R :> R by rewrite natrM mulrC.
rewrite /re_err_obj p_ssr ps2 NE {1}/np_log divr_gt0 ?mulr_gt0 ?invr_gt0 ?pk0 ?ltr0n ?muln_gt0 ?T0 //.
have h i : 1 + T%:R * phi ^+ 2 * (1 - 0 * pom 0 i) ^+ 2 = pk by rewrite mul0r subr0 expr1n mulr1 addrC.
have g i : 1 - 0 * pom 0 i = 1 by rewrite mul0r subr0.
rewrite osum_log => [|i]; last by rewrite h pk0.
rewrite osum_log => [|i]; last by rewrite g ltr01.
rewrite !big_enum /= (eq_bigr (fun=> pk)) => [|i _]; last exact: h.
rewrite prodr_const card_ord [ln (pk ^+ 3)]ln_pow ?pk0 // (eq_bigr (fun=> 1)) => [|i _]; last exact: g.
rewrite big1 // ln1 mulr0 subr0; congr Some; congr (_ + _).
by rewrite mulrA div1r [_ * 3%:R]mulrC.
Qed.
Lemma p_lik b s2 : 0 < s2 -> re_err_loglik (tile T py) (tile T px) pW b 0 s2 (phi ^+ 2 * s2) < 
  re_err_logll T 3 ((T * 3)%:R / 2%:R * ln (T%:R * (pk^-1 * (2%:R / 3%:R)) / (T * 3)%:R) + 3%:R / 2%:R * ln pk).
Proof.
move=> s0; have Tn : 0 < T%:R :> R by rewrite ltr0n.
have B1 : 1%:M - 0 *: pW = 1%:M by rewrite scale0r subr0.
have U : (1%:M - 0 *: pW : 'M[R]_3) \in unitmx by rewrite B1 unitmx1.
have k0 := pk0; have k1 : pk != 0 by rewrite gt_eqF.
have HP : ((T%:R * phi ^+ 2) *: 1%:M + invmx ((1%:M - 0 *: pW)^T *m (1%:M - 0 *: pW))) *m ((ps%:M)^T *m ps%:M) = 1%:M :> 'M[R]_3.
  rewrite B1 trmx1 mulmx1 invmx1 tr_scalar_mx -scalar_mxM scalemx1 -raddfD /= -scalar_mxM -/pk -expr2 ps2 mulfV //.
rewrite (re_normal_err _ _ T0 b s0 U HP) B1 det1 expr1n mul1r divr1 det_scalar !filter_tile !mul_scalar_mx.
have q0 : 0 < ps by rewrite invr_gt0 sqrtr_gt0 pk0.
have E c : ssq (tile T (ps *: py) - tile T (ps *: px) *m c) = T%:R * pk^-1 * (1 + 2%:R * c 0 0 ^+ 2).
  have -> : tile T (ps *: py) - tile T (ps *: px) *m c = tile T (ps *: (py - px *m c)).
    by rewrite -tile_lin -tileB -scalemxAl -scalerBr.
  rewrite ssqE utuE tile_dot dotZ scalerA ps2 mxE; congr (_ * _).
  rewrite mxE sum3 !mxE !big_ord1 !mxE /=; move: (c 0 0) => u.
  have -> : 2%:R = 1 + 1 :> R by [].
  mring R_realFieldType.
set e := tile T (ps *: py) - tile T (ps *: px) *m b.
pose e0 := tile T (ps *: py) - tile T (ps *: px) *m 0.
have S0 : ssq e0 = T%:R * pk^-1 by rewrite E mxE expr0n mulr0 addr0 mulr1.
have S1 : 0 < ssq e0 by rewrite S0 mulr_gt0 ?invr_gt0.
have N0 : (0 < T * 3)%N by rewrite muln_gt0 T0.
have Nr : 0 < (T * 3)%:R :> R by rewrite ltr0n.
apply: le_lt_trans (gl_le (ps ^+ 3) N0 S1 _ s0) _.
  by rewrite S0 E ler_pmulr ?mulr_gt0 ?invr_gt0 // ler_addl mulr_ge0 ?ler0n ?sqr_ge0.
rewrite gl_eq ?exprn_gt0 // /re_err_logll !ltr_add2r ltr_opp2 S0.
have L : 2%:R * ln (ps ^+ 3) = - (3%:R * ln pk).
  have : ln (ps ^+ 2) = - ln pk by rewrite ps2 lnV.
  rewrite !ln_pow // => H; by rewrite mulrCA H mulrN.
have -> : - ln (ps ^+ 3) = 3%:R / 2%:R * ln pk.
  have t2 : 2%:R != 0 :> R by rewrite pnatr_eq0.
  by apply: (mulfI t2); rewrite mulrN L opprK mulrA mulrCA mulfV // mulr1.
rewrite ltr_add2r ltr_pmul2l ?divr_gt0 ?ltr0n //; apply: ln_lt_mono.
  by rewrite !divr_gt0 ?mulr_gt0 ?invr_gt0 ?ltr0n.
rewrite ltr_pmul2r ?invr_gt0 // ltr_pmul2l // gtr_pmulr ?invr_gt0 //.
by rewrite ltr_pdivr_mulr ?ltr0n // mul1r ltr_nat.
Qed.
End Path.
(** C83: with row standardised weights of a path of three units (eigenvectors of la.eig of length one, not orthogonal), the objective's
    value at lambda = 0 and any phi corresponds to a log-likelihood larger than the likelihood attains at any coefficients and scale. *)
Theorem C83_nonsymmetric_refuted : forall T phi, (0 < T)%N ->
  exists (y : 'cV[R]_(T * 3)) (x : 'M[R]_(T * 3, 1)) (W V : 'M[R]_3) om fn,
  [/\ zero_diag W, substochastic W, is_eig W om V, re_err_obj true y x W om V 0 phi = Some fn
    & forall b s2, 0 < s2 -> re_err_loglik y x W b 0 s2 (phi ^+ 2 * s2) < re_err_logll T 3 fn].
Proof.
move=> T phi T0; do 6 eexists; split; [exact: pW_zero|exact: pW_sub|exact: pV_eig|exact: p_obj|].
by move=> b s2 s0; exact: p_lik.
Qed.
