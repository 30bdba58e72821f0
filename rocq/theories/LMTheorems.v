(** C31: decomposition of the Lagrange multiplier tests; C61: Moran's I moments; C43: panel versions; C62: Hausman. *)
From mathcomp Require Import all_ssreflect all_algebra.
From Coq Require Import Ring Field.
From Verif Require Import Mring LinRegModel LinRegProofs LinRegProofs2 FilterModel MLTheorems3 LMModel LMSpec LMProofs.
Set Implicit Arguments.
Unset Strict Implicit.
Unset Printing Implicit Defensive.
Import Order.TTheory GRing.Theory Num.Theory.
Local Open Scope ring_scope.

Section T.
Variable R : realFieldType.
Add Field Rf : (@p_ft R).
Variables (n k : nat) (y : 'cV[R]_n) (x : 'M[R]_(n, k)) (W : 'M[R]_n) (rb : robust_opt) (g : option 'M[R]_n) (s : bool) (o : ols R n k).
Hypothesis Ho : base_ols y x rb g s = Some o.
Hypothesis u0 : o_u o != 0.
Let s2 := sig2n o.
Let v := ann x *m (W *m (x *m o_betas o)).

Lemma n_gt0 : (0 < n)%N.
Proof.
rewrite lt0n; apply/eqP => n0; move: u0 => /eqP; apply; apply/matrixP => i; exfalso.
by have := leq_ltn_trans (leq0n i) (ltn_ord i); rewrite n0 ltnn.
Qed.
Lemma nR : n%:R != 0 :> R. Proof. by rewrite pnatr_eq0 -lt0n n_gt0. Qed.
Lemma s2_gt0 : 0 < s2.
Proof. by rewrite /s2 /sig2n divr_gt0 ?ltr0n ?n_gt0 // lt_def utu_ge0 utu_eq0 u0. Qed.
Lemma s2_neq0 : s2 != 0. Proof. by rewrite gt_eqF ?s2_gt0. Qed.
Lemma njE : n%:R * d_j o W = utu_of v / s2 + d_t W.
Proof.
have [Ex Ey Ep Eu Ei] := ols_fields Ho; have U := ols_gram Ho.
rewrite /d_j -/s2 Ex Ei Ep -sub00 (ann_quad U) -/v -utuE.
have N := nR; have S := s2_neq0; move: (utu_of v) (d_t W) (n%:R : R) s2 N S => a b c d N S.
move/eqP: N => N; move/eqP: S => S; mfield R; by split.
Qed.
Hypothesis W0 : W + W^T != 0.
Lemma t_gt0 : 0 < d_t W. Proof. by rewrite d_t_gt0. Qed.
Lemma v_gt0 : (forall c, W *m (x *m o_betas o) <> x *m c) -> 0 < utu_of v.
Proof.
move=> H; rewrite lt_def utu_ge0 utu_eq0 andbT; apply/eqP => /(ann_ker (ols_gram Ho) _) [c]; exact: H.
Qed.
End T.

Section Statements.
Variable R : realFieldType.
Add Field Rf2 : (@p_ft R).
(** C31: SARMA is the joint score statistic of the lag and error parameters; it is the sum of either test and the robust form of the other
    one; no statistic is negative.  Hypotheses: x of full column rank (the fit exists), the fit is not exact, the weights are not
    antisymmetric (so there is a link) and the lag of the fitted values is not a combination of the regressors. *)
Theorem C31_sarma : forall n k (y : 'cV[R]_n) (x : 'M[R]_(n, k)) (W : 'M[R]_n) rb g s o,
  base_ols y x rb g s = Some o -> o_u o != 0 -> W + W^T != 0 -> (forall c, W *m (x *m o_betas o) <> x *m c) ->
  let s2 := utu_of (o_u o) / n%:R in
  [/\ lmSarma o W = (score_stat (sarma_score W y (o_u o) s2) (sarma_info W x (o_betas o) s2), 2%N),
      (lmSarma o W).1 = (lmErr o W).1 + (rlmLag o W).1,
      (lmSarma o W).1 = (lmLag o W).1 + (rlmErr o W).1
    & [/\ 0 <= (lmErr o W).1, 0 <= (lmLag o W).1, 0 <= (rlmErr o W).1 & 0 <= (rlmLag o W).1]].
Proof.
move=> n k y x W rb g s o Ho u0 W0 Hc s2.
have T0 := t_gt0 W0; have V0 := v_gt0 Ho Hc; have S0 : 0 < s2 := s2_gt0 u0.
have NJ := njE W Ho u0; rewrite -/(sig2n o) in s2 S0 *.
have [Ex Ey Ep Eu Ei] := ols_fields Ho.
set V := utu_of _ in NJ V0; set T := d_t W in NJ T0 *.
have nT : T <> 0 by apply/eqP; rewrite gt_eqF.
have nV : V <> 0 by apply/eqP; rewrite gt_eqF.
have nS : s2 <> 0 by apply/eqP; rewrite gt_eqF.
have nVT : V + T * s2 <> 0 by apply/eqP; rewrite gt_eqF // addr_gt0 // mulr_gt0.
rewrite /lmSarma /lmErr /lmLag /rlmErr /rlmLag NJ -/T -/s2 /=.
set a := d_utwyDs o W; set b := d_utwuDs o W.
have E1 : V / s2 + T - T = V / s2 by rewrite addrK.
split.
- congr (_, _); set J := sarma_info _ _ _ _.
  have EJ : J = block_mx (V / s2 + T)%:M T%:M T%:M T%:M.
    rewrite /J /sarma_info -d_tE -/T; congr block_mx; rewrite raddfD /=; congr (_ + _).
    by apply/matrixP => i j; rewrite !ord1 sc00 -utuE -/V sm00 mulrC.
  have Es : sarma_score W y (o_u o) s2 = col_mx a%:M b%:M.
    by rewrite /sarma_score; congr col_mx; apply/matrixP => i j; rewrite !ord1 sc00 sm00 mulrC // /a /d_utwyDs Ey.
  pose c : 'cV[R]_(1 + 1) := col_mx ((a - b) / (V / s2))%:M (b / T - (a - b) / (V / s2))%:M.
  have PJ : pd J.
    split; first by rewrite EJ tr_block_mx !tr_scalar_mx.
    move=> d d0; rewrite -[d]vsubmxK EJ quad_block [usubmx d]mx11_scalar [dsubmx d]mx11_scalar !tr_scalar_mx -!scalar_mxM.
    rewrite !sm00; set p : R := usubmx d 0 0; set q : R := dsubmx d 0 0.
    have -> : p * (V / s2 + T) * p + q * T * p + p * T * q + q * T * q = (V / s2) * p ^+ 2 + T * (p + q) ^+ 2.
      rewrite !expr2; clear; move: (V / s2) T p q => A B C D; mring R.
    have Q1 : 0 <= (V / s2) * p ^+ 2 by exact: mulr_ge0 (ltW (divr_gt0 V0 S0)) (sqr_ge0 _).
    have Q2 : 0 <= T * (p + q) ^+ 2 by exact: mulr_ge0 (ltW T0) (sqr_ge0 _).
    rewrite lt_def (addr_ge0 Q1 Q2) andbT (paddr_eq0 Q1 Q2).
    apply/negP => /andP []; rewrite mulf_eq0 (gt_eqF (divr_gt0 V0 S0)) orFb sqrf_eq0 => /eqP P0; rewrite mulf_eq0 (gt_eqF T0) orFb sqrf_eq0 => /eqP Q0.
    case/eqP: d0; rewrite -[d]vsubmxK [usubmx d]mx11_scalar [dsubmx d]mx11_scalar -/p -/q P0.
    by move: Q0; rewrite P0 add0r => ->; rewrite !sc0 col_mx0.
  have Ec : J *m c = sarma_score W y (o_u o) s2.
    rewrite Es EJ /c mul_block_col -!scalar_mxM -!raddfD /=; congr (col_mx _%:M _%:M); clear -nT nV nS; move: V T s2 a b nT nV nS => V T s2 a b nT nV nS.
      by mfield R; repeat split.
    by mfield R; repeat split.
  rewrite (score_sol (pd_unit PJ) Ec) Es /c tr_col_mx mul_row_col !tr_scalar_mx -!scalar_mxM add00 !sm00.
  rewrite E1 !expr2; clear -nT nV nS; move: V T s2 a b nT nV nS => V T s2 a b nT nV nS; mfield R; by repeat split.
- by rewrite addrC.
- rewrite E1 !expr2; clear -nT nV nS nVT; move: V T s2 a b nT nV nS nVT => V T s2 a b nT nV nS nVT.
  mfield R; repeat split => //; change (V + T * s2 - T * s2 <> 0); by rewrite addrK.
- have P1 : 0 < V / s2 + T by exact: addr_gt0 (divr_gt0 V0 S0) T0.
  have P2 : 0 < V / s2 by exact: divr_gt0 V0 S0.
  rewrite E1; split; apply: divr_ge0; rewrite ?sqr_ge0 ?(ltW T0) ?(ltW P1) ?(ltW P2) //.
  by apply: (mulr_ge0 (ltW T0)); rewrite subr_ge0 ler_pdivr_mulr // mul1r ler_addr (ltW P2).
Qed.

(** C31: the joint test of the spatial Durbin model is the score statistic in the full information matrix; it dominates LM-lag and LM-WX, so
    both robust statistics obtained by subtraction are non-negative.  xx: the l columns of x of type 'x'. *)
Theorem C31_durbin : forall n k l (y : 'cV[R]_n) (x : 'M[R]_(n, k)) (W : 'M[R]_n) (xx : 'M[R]_(n, l)) rb g s o sj,
  base_ols y x rb g s = Some o -> o_u o != 0 -> W + W^T != 0 -> lm_spdurbin o W xx = Some sj ->
  let s2 := utu_of (o_u o) / n%:R in
  sj = (score_stat (col_mx 0 (sdm_score W xx y (o_u o) s2)) (sdm_info W x xx (o_betas o) s2), k) /\
  exists sw, [/\ lm_wx o W xx = Some sw,
    sw = (score_stat (s2^-1 *: ((W *m xx)^T *m o_u o)) (s2^-1 *: ((ann x *m (W *m xx))^T *m (ann x *m (W *m xx)))), (k - 1)%N),
    0 <= (rlm_wx k sj (lmLag o W)).1, 0 <= (rlm_durlag sj sw).1 & 0 <= sw.1].
Proof.
move=> n k l y x W xx rb g s o sj Ho u0 W0 Hj s2.
have T0 := t_gt0 W0; have S0 : 0 < s2 := s2_gt0 u0; have NJ := njE W Ho u0; rewrite -/(sig2n o) in s2 S0 *.
have [Ex Ey Ep Eu Ei] := ols_fields Ho; have U := ols_gram Ho.
have Ext : o_xtx o = x^T *m x by move: Ho; rewrite /base_ols; case: la_inv => // z [<-].
have sn : s2 != 0 by rewrite gt_eqF.
have nn : n%:R != 0 :> R := nR u0.
set M := ann x in NJ *; set Z := row_mx (W *m (x *m o_betas o)) (W *m xx).
set v := M *m (W *m (x *m o_betas o)); set q := M *m (W *m xx); rewrite -/v in NJ.
set K := (M *m Z)^T *m (M *m Z) + block_mx (d_t W * s2)%:M 0 0 0.
have EK : K = block_mx (v^T *m v + (d_t W * s2)%:M) (v^T *m q) (v^T *m q)^T (q^T *m q).
  rewrite /K /Z mul_mx_row tr_row_mx mul_col_row add_block_mx !addr0 (trmx_mul v^T q) trmxK //.
have Us : n%:R / (2%:R * s2) != 0 by apply: (mulf_neq0 nn); rewrite invr_eq0 mulf_neq0 // pnatr_eq0.
have Uc : ((n%:R / (2%:R * s2))%:M : 'M[R]_1) \in unitmx by rewrite unitmxE det_scalar expr1 unitfE.
have [U11 I11] := inv_block_diag U Uc.
move: Hj; rewrite /lm_spdurbin -/s2 Ex Ep Ext Ey trcE -/(block_mx _ _ _ _) (la_inv_unit U11) I11.
have Edd : col_mx (s2^-1 *: ((W *m y)^T *m o_u o)) (s2^-1 *: ((W *m xx)^T *m o_u o)) = sdm_score W xx y (o_u o) s2.
  by rewrite /sdm_score tr_row_mx mul_col_mx scale_col_mx.
rewrite Edd; set X1 := _ - _.
have -> : X1 = K.
  rewrite /X1 /K -(ann_quad U) -/(block_mx _ _ _ _).
  have -> : col_mx (row_mx (x^T *m (W *m (x *m o_betas o))) (x^T *m (W *m xx))) 0 = col_mx (x^T *m Z) 0 :> 'M_(k + 1, 1 + l).
    by rewrite /Z mul_mx_row.
  rewrite tr_col_mx trmx0 mul_row_block mul_row_col !mul0mx !mulmx0 !addr0 -mulmxA addrAC; congr (_ - _).
  rewrite /Z tr_row_mx mul_col_row add_block_mx !addr0; congr block_mx; by rewrite trmx_mul trmxK.
case EI: la_inv => [Ki|//] [<-]; have [UK EKi] := la_invP EI.
have PK : pd (s2^-1 *: K).
  apply: pd_scale; rewrite ?invr_gt0 //; apply: psd_unit_pd UK; rewrite /K; split.
    rewrite trD gram_sym tr_block_mx tr_scalar_mx !trmx0 //.
  move=> c; rewrite mulmxDr mulmxDl add00 addr_ge0 ?(proj2 (gram_psd (M *m Z))) //.
  rewrite -[c]vsubmxK quad_block !mulmx0 !mul0mx !z00 !addr0 mul_mx_scalar -scalemxAl sc00.
  by apply: (mulr_ge0 (mulr_ge0 (ltW T0) (ltW S0))); rewrite -utuE utu_ge0.
have Esj : ((sdm_score W xx y (o_u o) s2)^T *m (s2 *: Ki) *m sdm_score W xx y (o_u o) s2) 0 0 =
   score_stat (sdm_score W xx y (o_u o) s2) (s2^-1 *: K).
  by move: (sdm_score _ _ _ _ _) => dd; rewrite (score_scale _ _ UK) ?invr_eq0 // invrK EKi /score_stat -scalemxAr -scalemxAl sc00.
rewrite Esj; split.
- congr (_, _); rewrite /sdm_info; set A := block_mx (_ *: _) 0 0 _.
  have A1 : s2^-1 *: (x^T *m x) \in unitmx by rewrite unitmxZ ?unitfE ?invr_eq0.
  have A2 : ((n%:R / (2%:R * s2 ^+ 2))%:M : 'M[R]_1) \in unitmx.
    by rewrite unitmxE det_scalar expr1 unitfE mulf_neq0 // invr_eq0 mulf_neq0 ?pnatr_eq0 // sqrf_eq0.
  have [UA IA] := inv_block_diag A1 A2; rewrite -/A in UA IA.
  rewrite -/Z; set B := col_mx (_ *: _) _; set C := row_mx (_ *: _) _; set D := _ + _.
  have ES : D - C *m invmx A *m B = s2^-1 *: K.
    rewrite IA /C /B mul_row_block mul_row_col !mul0mx !mulmx0 !addr0 /D /K -(ann_quad U).
    rewrite invmxZ ?invrK ?unitmxZ ?unitfE ?invr_eq0 // -d_tE -!scalemxAl -!scalemxAr -!scalemxAl.
    rewrite [s2^-1 *: (s2 *: _)]scalerA mulVf // scale1r (trmx_mul x^T Z) trmxK scalerDr scalerBr scale_block_mx !scaler0.
    by rewrite scale_scalar_mx mulrC mulfK // !mulmxA addrAC.
  have US : D - C *m invmx A *m B \in unitmx by rewrite ES; exact: pd_unit PK.
  by have [_ ->] := score_schur (sdm_score W xx y (o_u o) s2) UA US; rewrite ES.
- have EK2 : s2^-1 *: K = block_mx (s2^-1 *: (v^T *m v + (d_t W * s2)%:M)) (s2^-1 *: (v^T *m q)) (s2^-1 *: (v^T *m q))^T (s2^-1 *: (q^T *m q)).
    by rewrite EK scale_block_mx trZ.
  rewrite EK2 in PK *; rewrite -Edd.
  have [H1 H2] := score_mono (s2^-1 *: ((W *m y)^T *m o_u o)) (s2^-1 *: ((W *m xx)^T *m o_u o)) PK.
  have Pq : pd (s2^-1 *: (q^T *m q)).
    case: PK => SJ PJ; split; first by rewrite trZ gram_sym.
    move=> c c0; have := PJ (col_mx 0 c); rewrite quad_block trmx0 !mul0mx !mulmx0 !z00 !add0r; apply.
    by apply/eqP => /(congr1 dsubmx); rewrite col_mxKd linear0 => /eqP; apply/negP.
  have Uq : q^T *m q \in unitmx by have := pd_unit Pq; rewrite unitmxZ // unitfE invr_eq0.
  exists (score_stat (s2^-1 *: ((W *m xx)^T *m o_u o)) (s2^-1 *: (q^T *m q)), (k - 1)%N); split => //.
  + rewrite /lm_wx -/s2 Ex Ei.
    have -> : (W *m xx)^T *m (W *m xx) - (W *m xx)^T *m x *m invmx (x^T *m x) *m ((W *m xx)^T *m x)^T = q^T *m q.
      by rewrite -(ann_quad U) (trmx_mul (W *m xx)^T x) (trmx_mul x^T (W *m xx)) !trmxK !mulmxA.
    rewrite (la_inv_unit Uq); congr (Some (_, _)); rewrite score_scale ?invr_eq0 // invrK /score_stat trZ -!scalemxAl -!scalemxAr !sc00.
    by rewrite mulVKf // mulrC.
  + rewrite /rlm_wx /= subr_ge0; apply: le_trans H2.
    rewrite /lmLag NJ /=.
    have P2 : 0 < utu_of v / s2 + d_t W by apply: ltr_paddl => //; exact: divr_ge0 (utu_ge0 _) (ltW S0).
    have -> : s2^-1 *: (v^T *m v + (d_t W * s2)%:M) = (utu_of v / s2 + d_t W)%:M.
      apply/matrixP => i j; rewrite !ord1 sc00 add00 !sm00 -utuE mulrDr mulrC; congr (_ + _); by rewrite mulrCA mulVf ?mulr1.
    rewrite /score_stat invmx_scalar mul_mx_scalar -scalemxAl sc00.
    have -> : s2^-1 *: ((W *m y)^T *m o_u o) = (d_utwyDs o W)%:M.
      apply/matrixP => i j; rewrite !ord1 sc00 sm00 /d_utwyDs Ey -/s2 mulrC; congr (_ * _); by rewrite -tr00 trmx_mul trmxK.
    by rewrite tr_scalar_mx -scalar_mxM sm00 -expr2 mulrC.
  + by rewrite /rlm_durlag /= subr_ge0.
  + exact: score_ge0.
Qed.
End Statements.
