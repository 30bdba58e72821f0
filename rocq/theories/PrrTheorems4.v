(** C83: a case meeting the hypotheses: two periods, two neighbouring units, lambda = 1/2, phi = 1. *)
From Coq Require Import Reals Ring Field Lra.
From mathcomp Require Import all_ssreflect all_algebra.
From Verif Require Import Rinst Mring LinRegModel LinRegProofs LinRegProofs2 FilterModel MLModel MLSpec MLProofs MLTheorems Kron PanelModel PanelTheorems PanelTheorems2
  PfeModel PfeSpec PfeTheorems PfeTheorems2 PfeTheorems3 PfeTheorems5 PreSpec PreTheorems PreTheorems4 PrrModel PrrSpec PrrTheorems PrrTheorems2 PrrTheorems3.
Set Implicit Arguments.
Unset Strict Implicit.
Unset Printing Implicit Defensive.
Import Order.TTheory GRing.Theory Num.Theory.
Local Open Scope ring_scope.

Local Notation o1 := (lift 0 0 : 'I_2).
Lemma ord2 (P : 'I_2 -> Prop) : P 0 -> P o1 -> forall i, P i.
Proof.
move=> P0 P1 [[|[|m]] Hm] //; [suff -> : Ordinal Hm = 0 by []|suff -> : Ordinal Hm = o1 by []]; exact/val_inj.
Qed.
Lemma la_inv_eq m (A C : 'M[R]_m) : A *m C = 1%:M -> la_inv A = Some C.
Proof. by move=> E; have [U _] := mulmx1_unit E; rewrite la_inv_unit // (inv_of E). Qed.
(** symmetric matrices with constant diagonal *)
Definition sw (p q : R) : 'M[R]_2 := \matrix_(i, j) if i == j then p else q.
Lemma sw_mul p q p' q' : sw p q *m sw p' q' = sw (p * p' + q * q')%coqR (p * q' + q * p')%coqR.
Proof. apply/matrixP => i j; rewrite [LHS]mxE sum2; move: i j; by apply: ord2; apply: ord2; rewrite !mxE /= ?RaddE ?RmulE //; rewrite [LHS]addrC. Qed.
Lemma sw_add p q p' q' : sw p q + sw p' q' = sw (p + p')%coqR (q + q')%coqR.
Proof. by apply/matrixP; apply: ord2; apply: ord2; rewrite !mxE. Qed.
Lemma sw_tr p q : (sw p q)^T = sw p q.
Proof. by apply/matrixP => i j; rewrite !mxE eq_sym. Qed.
Lemma sw_trace p q : \tr (sw p q) = (p + p)%coqR.
Proof. by rewrite /mxtrace sum2 !mxE. Qed.
Lemma sw1 : sw (IZR 1) (IZR 0) = 1%:M. Proof. by apply/matrixP => i j; rewrite !mxE; case: (i == j). Qed.
Lemma sw_eq p q p' q' : p = p' -> q = q' -> sw p q = sw p' q'. Proof. by move=> -> ->. Qed.
Lemma sw_scale c : c *: (1%:M : 'M[R]_2) = sw c (IZR 0).
Proof. by apply/matrixP => i j; rewrite !mxE; case: (i == j); rewrite ?mulr1 ?mulr0. Qed.
Definition qW : 'M[R]_2 := sw (IZR 0) (IZR 1).
Definition ql : R := (1 / 2)%coqR.
Definition qh : R := (Num.sqrt 2%:R)^-1.
Definition qV : 'M[R]_2 := \matrix_(i, j) if (i == o1) && (j == o1) then - qh else qh.
Definition qom : 'rV[R]_2 := \row_j if j == 0 then 1 else -1.
Lemma qh2 : qh ^+ 2 = 2%:R^-1. Proof. by rewrite exprVn sqr_sqrtr ?ler0n. Qed.
Lemma qV_eigh : is_eigh qW qom qV.
Proof.
have HH : qh * qh + qh * qh = 1 by rewrite -expr2 qh2 two_half.
split.
  apply/matrixP => i j; rewrite [LHS]mxE sum2; move: i j; apply: ord2; apply: ord2; rewrite !mxE /= ?mulrNN ?mulrN ?mulNr ?HH ?subrr //.
apply/matrixP => i j; rewrite mul_mx_diag [in RHS]mxE sum2; move: i j; apply: ord2; apply: ord2.
all: rewrite !mxE /= ?mulr1 ?mulrN1 ?mulrNN ?mulNr ?mulrN ?opprK ?HH ?subrr //.
all: by rewrite ?addNr.
Qed.
Lemma qzd : zero_diag qW. Proof. by move=> i; rewrite mxE eqxx. Qed.
Lemma qB : 1%:M - ql *: qW = sw (IZR 1) (- (1 / 2))%coqR.
Proof.
apply/matrixP; apply: ord2; apply: ord2; rewrite !mxE /= ?mulr0 ?subr0 ?mulr1 ?sub0r //.
Qed.
Definition qy0 : 'cV[R]_2 := \col_i if i == 0 then 1 else 0.
Definition qy : 'cV[R]_(2 * 2) := \col_r (if pt r == 0 then qy0 (pu r) 0 else - qy0 (pu r) 0).
Definition qx : 'M[R]_(2 * 2, 1) := tile 2 (const_mx 1).
Lemma qy_period t : period t qy = if t == 0 then qy0 else - qy0.
Proof. by apply/matrixP => i j; rewrite !mxE ord1 pt_pix pu_pix; case: (t == 0); rewrite !mxE. Qed.
Lemma qy_mean : unit_mean qy = 0.
Proof. by rewrite -over_timeE; apply/matrixP => i j; rewrite mxE sum2 !qy_period /= [(- qy0) _ _]mxE subrr mul0r mxE. Qed.
Lemma qfy P : re_filter P qW ql qy = w_nt 2 (1%:M - ql *: qW) *m qy.
Proof. by rewrite /re_filter qy_mean mulmx0 tile0 addr0 w_ntB mulmxBl mul1mx -scalemxAl. Qed.
Lemma qfx P : re_filter P qW ql qx = tile 2 (P *m const_mx 1).
Proof.
rewrite re_filterE // /blk /wi mulmxDl -!mulmxA mulmxBl mul1mx avE /qx tile_mean_tile // subrr mulmx0 add0r w_tile //.
Qed.
Lemma qcross m (a : 'M[R]_(2, m)) : (tile 2 a)^T *m (w_nt 2 (1%:M - ql *: qW) *m qy) = 0.
Proof.
have E t : period t (tile 2 a) = a by apply/matrixP => i j; rewrite !mxE pu_pix.
by rewrite stack_mul sum2 !period_w !qy_period !E /= mulmxN mulmxN subrr.
Qed.
Lemma qS : ssq (w_nt 2 (1%:M - ql *: qW) *m qy) = (5 / 2)%coqR.
Proof.
rewrite -sum_ssq sum2 !period_w !qy_period /= qB /ssq !sum2 !mxE !sum2 !mxE /= !mulrN !mulr1 !mulr0 ?oppr0 !addr0 !sqrrN !expr2.
rewrite -!RmulE -!RaddE -?RoppE; lra.
Qed.
Lemma qmin P b : (forall b', ssq (re_filter P qW ql qy - re_filter P qW ql qx *m b) <= ssq (re_filter P qW ql qy - re_filter P qW ql qx *m b')) ->
  ssq (re_filter P qW ql qy - re_filter P qW ql qx *m b) = (5 / 2)%coqR.
Proof.
move=> /(_ 0); rewrite mulmx0 subr0 qfy qfx qS -tile_lin; set u := w_nt _ _ *m _; move: (_ *m b) => a H.
apply/eqP; rewrite eq_le H /= -qS -/u !ssqE !utuE.
have C1 : (tile 2 a)^T *m u = 0 by exact: qcross.
have C2 : u^T *m tile 2 a = 0 by rewrite -[LHS]trmxK trmx_mul trmxK C1 trmx0.
have -> : (u - tile 2 a)^T *m (u - tile 2 a) = u^T *m u + (tile 2 a)^T *m tile 2 a.
  by move: (tile 2 a) C1 C2 => f C1 C2; rewrite [(u - f)^T]linearB /= mulmxBl !mulmxBr C1 C2 subr0 sub0r opprK.
by rewrite [X in _ <= X]mxE ler_addl -utuE utu_ge0.
Qed.
Lemma qx_full (c : 'cV[R]_1) : qx *m c = 0 -> c = 0.
Proof.
move=> H; apply/matrixP => i j; rewrite !ord1 [RHS]mxE.
have := congr1 (fun M : 'M[R]_(2 * 2, 1) => M (pix 0 0) 0) H; by rewrite mxE big_ord1 !mxE mul1r.
Qed.
Lemma qy_ne (b : 'cV[R]_1) : qy - qx *m b != 0.
Proof.
apply/negP => /eqP H; have H0 r : qy r 0 = b 0 0.
  have /eqP := congr1 (fun M : 'M[R]_(2 * 2, 1) => M r 0) H; rewrite /= [X in _ == X]mxE.
  have -> : (qy - qx *m b) r 0 = qy r 0 - (qx *m b) r 0 by rewrite mxE; congr (_ + _); rewrite mxE.
  by rewrite subr_eq0 => /eqP ->; rewrite mxE big_ord1 !mxE mul1r.
have := H0 (pix 0 0); have := H0 (pix 0 o1); rewrite !mxE !pt_pix !pu_pix /= => <- /eqP.
by rewrite oner_eq0.
Qed.
Lemma qg lam : lam = ql -> forall i, 0 < 1 - lam * qom 0 i.
Proof.
move=> ->; apply: ord2; rewrite mxE /= ?mulr1 ?mulrN1 /ql.
  by apply/ltRP; rewrite -RsubE; change (GRing.zero _) with (IZR 0); change (GRing.one _) with (IZR 1); lra.
by apply/ltRP; rewrite opprK -RaddE; change (GRing.zero _) with (IZR 0); change (GRing.one _) with (IZR 1); lra.
Qed.

Lemma schur_unit (A : 'M[R]_(1 + 1)) (b1 b2 c1 c2 d : R) (a11 a12 a21 a22 : R) : A = block_mx a11%:M a12%:M a21%:M a22%:M -> d != 0 ->
  (a11 - b1 * c1 / d) * (a22 - b2 * c2 / d) - (a12 - b1 * c2 / d) * (a21 - b2 * c1 / d) != 0 ->
  (block_mx A (col_mx b1%:M b2%:M) (row_mx c1%:M c2%:M) (d%:M : 'M[R]_1)) \in unitmx.
Proof.
move=> EA d0 H; set b := col_mx _ _; set c := row_mx _ _.
have E : block_mx A b c (d%:M : 'M[R]_1) = block_mx 1%:M (d^-1 *: b) 0 1%:M *m block_mx (A - d^-1 *: (b *m c)) 0 c d%:M.
  by rewrite mulmx_block !mul1mx mul0mx !mulmx0 !add0r -scalemxAl subrK mul_mx_scalar scalerA mulfV // scale1r.
rewrite E unitmx_mul !unitmxE det_ublock !det1 mulr1 unitr1 /= det_lblock unitrM det_scalar1 andbC unitfE d0 -unitmxE /=.
have -> : A - d^-1 *: (b *m c) = block_mx (a11 - b1 * c1 / d)%:M (a12 - b1 * c2 / d)%:M (a21 - b2 * c1 / d)%:M (a22 - b2 * c2 / d)%:M.
  rewrite EA /b /c mul_col_row -!scalar_mxM scale_block_mx !scale_scalar_mx opp_block_mx add_block_mx -!raddfN -!raddfD /=.
  by rewrite ![_ / d]mulrC.
exact: unit22.
Qed.
Definition qaT : 'M[R]_2 := sw (20 / 9)%coqR (16 / 9)%coqR.
Definition qvi : 'M[R]_2 := sw (19 / 66)%coqR (- (4 / 33))%coqR.
Lemma q_aTa : la_inv ((1%:M - ql *: qW)^T *m (1%:M - ql *: qW)) = Some qaT.
Proof. apply: la_inv_eq; rewrite qB sw_tr !sw_mul -sw1; apply: sw_eq; lra. Qed.
Lemma q_vi : la_inv ((2%:R * Num.sqrt (1 ^+ 2)) *: 1%:M + qaT) = Some qvi.
Proof.
apply: la_inv_eq; rewrite expr1n sqrtr1 mulr1 sw_scale -(INRE 2) /= sw_add sw_mul -sw1; apply: sw_eq; lra.
Qed.
Lemma q_v : re_err_v 2 qW qaT qvi (1%:M - ql *: qW) (5 / 8)%coqR \in unitmx.
Proof.
rewrite /re_err_v; cbv zeta; rewrite qB !sw_tr /qW /qaT /qvi !sw_mul sw_add !sw_mul !sw_trace.
have i1 : (2%:R : R)^-1 = (1 / 2)%coqR by rewrite -(INRE 2) -RinvE /=; [lra|apply/eqP => /=; change (GRing.zero _) with (IZR 0); lra].
have i2 : (2%:R * (5 / 8)%coqR : R)^-1 = (4 / 5)%coqR by rewrite -(INRE 2) -RmulE -RinvE /=; [lra|apply/eqP => /=; change (GRing.zero _) with (IZR 0); lra].
have i3 : (2%:R * (5 / 8)%coqR ^+ 2 : R)^-1 = (32 / 25)%coqR by rewrite -(INRE 2) expr2 -!RmulE -RinvE /=; [lra|apply/eqP => /=; change (GRing.zero _) with (IZR 0); lra].
rewrite i1 i2 i3 -!(INRE 2) /= !expr2 -!RmulE -!RaddE -!RoppE; change (GRing.one _) with (IZR 1).
have H : forall e11 e12 e13 e22 e23 e33 : R, e11 = (7072 / 1089)%coqR -> e12 = (3008 / 5445)%coqR -> e13 = (19168 / 5445)%coqR ->
    e22 = (46208 / 27225)%coqR -> e23 = (12928 / 27225)%coqR -> e33 = (94784 / 27225)%coqR ->
    block_mx (block_mx e11%:M e12%:M e12%:M e22%:M) (col_mx e13%:M e23%:M) (row_mx e13%:M e23%:M) (e33%:M : 'M[R]_1) \in unitmx.
  move=> e11 e12 e13 e22 e23 e33 -> -> -> -> -> ->.
  have d0 : (94784 / 27225)%coqR != 0 :> R by apply/eqP; change (GRing.zero _) with (IZR 0); lra.
  have d1 := d0; apply: schur_unit (erefl _) d1 _; rewrite -!RdivE // -!RmulE -!RsubE -?RmulE -?RsubE; apply/eqP; change (GRing.zero _) with (IZR 0); lra.
by apply: H; lra.
Qed.

Lemma prod2 (f : 'I_2 -> R) : \prod_i f i = f 0 * f o1.
Proof. by rewrite !big_ord_recl big_ord0 mulr1. Qed.
Definition qP : R -> R -> Prop := fun lam' phi' => lam' = ql /\ 1 <= phi'.
Lemma q_min fn : re_err_obj true qy qx qW qom qV ql 1 = Some fn ->
  forall lam' phi' fn', qP lam' phi' -> re_err_obj true qy qx qW qom qV lam' phi' = Some fn' -> fn <= fn'.
Proof.
move=> E lam' phi' fn' [-> p1] E'.
have [g0 [b [_ Hb ->]]] := obj_value (T := 2) (n := 2) isT isT qV_eigh E; have [_ [b' [_ Hb' ->]]] := obj_value (T := 2) (n := 2) isT isT qV_eigh E'.
rewrite (qmin Hb) (qmin Hb') ler_add2l ler_opp2 !obj_jac //; try exact: qV_eigh.
rewrite ler_add2l ler_opp2 ler_pmul2l ?divr_gt0 ?ltr01 ?ltr0n //; apply: ln_le_mono.
  apply: prodr_gt0 => i _; apply: (@lt_le_trans _ _ 1); rewrite ?ltr01 // ler_addl mulr_ge0 ?sqr_ge0 // mulr_ge0 ?sqr_ge0 ?ler0n //.
have h0 i : 0 <= 1 + 2%:R * 1 ^+ 2 * (1 - ql * qom 0 i) ^+ 2 by apply: (@le_trans _ _ 1); rewrite ?ler01 // ler_addl mulr_ge0 ?sqr_ge0 // mulr_ge0 ?sqr_ge0 ?ler0n.
have hh i : 1 + 2%:R * 1 ^+ 2 * (1 - ql * qom 0 i) ^+ 2 <= 1 + 2%:R * phi' ^+ 2 * (1 - ql * qom 0 i) ^+ 2.
  by rewrite ler_add2l ler_wpmul2r ?sqr_ge0 // ler_wpmul2l ?ler0n // ler_expn2r ?nnegrE ?ler01 // (le_trans ler01 p1).
rewrite !prod2; exact: ler_pmul.
Qed.
Definition qcv : 'rV[R]_2 := \row_i (2%:R * 1 ^+ 2 + 1 / (1 - ql * qom 0 i) ^+ 2).
Lemma q_fit fn : exists r, base_re_err (fun=> (qcv, qV)) qy qx qW ((ql, 1), fn) = Some r.
Proof.
have g1 i : 1 - ql * qom 0 i != 0 by rewrite gt_eqF // qg.
have HK := K_eigh 2 qV_eigh 1 g1; have c0 := cv_pos 2 1 g1; have HP := eigh_root HK c0; cbv zeta in HP.
have [_ UF] := whiten (whitens (T := 2) isT (B_unit qV_eigh g1) HP).
rewrite /base_re_err q_aTa; set P := qV *m _ in HP UF *.
set xs := re_filter P qW ql qx; set ys := re_filter P qW ql qy.
have Ux : xs^T *m xs \in unitmx.
  apply/gram_unit => c; rewrite /xs re_filterE // -mulmxA => H; apply: qx_full.
  by rewrite -[LHS](mulKmx UF) H mulmx0.
rewrite la_inv_unit // a_ofE; last exact: qzd.
have -> : xs^T *m ys = 0 by rewrite /xs /ys qfx qfy qcross.
rewrite mulmx0 mulmx0 subr0.
have -> : (ys^T *m ys) 0 0 / (2 * 2)%:R = (5 / 8)%coqR.
  rewrite -utuE -ssqE /ys qfy qS -(INRE 4) -RdivE /=; first by lra.
  by apply/eqP; change (GRing.zero _) with (IZR 0); lra.
rewrite q_aTa q_vi la_inv_unit ?q_v //; by eexists.
Qed.
(** C83: the hypotheses of C83_fit_partial, C83_loglik_partial and C83_global_partial hold for these data; the set of (lambda, phi) is not bounded. *)
Theorem C83_witness : exists fn r, 
  [/\ is_eigh qW qom qV, (let O := re_err_between 2 qW ql (1 ^+ 2) in is_eigh O qcv qV),
      re_err_obj true qy qx qW qom qV ql 1 = Some fn /\
      (forall lam' phi' fn', qP lam' phi' -> re_err_obj true qy qx qW qom qV lam' phi' = Some fn' -> fn <= fn'),
      (forall lam' phi', qP lam' phi' -> forall i, 0 < 1 - lam' * qom 0 i) /\
      ((forall b', qy - qx *m b' != 0) /\ (forall c : 'cV[R]_1, qx *m c = 0 -> c = 0))
    & base_re_err (fun=> (qcv, qV)) qy qx qW ((ql, 1), fn) = Some r].
Proof.
have [fn E] := obj_def (T := 2) (n := 2) isT isT qV_eigh true 1 (qg (erefl _)) qy_ne qx_full.
have [r Hr] := q_fit fn; exists fn, r; split=> //.
- exact: qV_eigh.
- by cbv zeta; apply: (K_eigh 2 qV_eigh 1) => i; rewrite gt_eqF // qg.
- by split=> //; exact: q_min.
- split; first by move=> lam' phi' [-> _]; exact: qg.
  by split; [exact: qy_ne|exact: qx_full].
Qed.
