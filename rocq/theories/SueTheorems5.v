(** A case for C84 and C85: two equations, four observations in two pairs, a constant; y_1 = (1, 0, -1, 0), y_2 = (1, 1, -1, -1). *)
From Coq Require Import Reals.
From mathcomp Require Import all_ssreflect all_algebra.
From Verif Require Import Rinst Mring LinRegModel LinRegProofs LinRegProofs2 FilterModel MLModel MLSpec MLProofs MLTheorems MLTheorems4 Kron PanelModel PfeModel PfeSpec PfeTheorems PfeTheorems5 SurModel
  SurTheorems SueModel SueSpec SueProofs SueTheorems SueTheorems2 SueTheorems3.
Set Implicit Arguments.
Unset Strict Implicit.
Unset Printing Implicit Defensive.
Import Order.TTheory GRing.Theory Num.Theory.
Local Open Scope ring_scope.

Add Field Rf : (@p_ft R_realFieldType).
Lemma det22 (F : comRingType) (A : 'M[F]_2) : \det A = A 0 0 * A 1 1 - A 0 1 * A 1 0.
Proof.
rewrite (expand_det_row _ 0) big_ord_recl big_ord1 /cofactor !det_mx11 !mxE /= expr0 mul1r expr1 mulrA mulrN1 mulNr.
congr (_ * _ - _ * _); congr (A _ _); exact: val_inj.
Qed.
Definition sy (r : 'I_2) : 'cV[R]_(2 + 2) := \col_i nth 0 (nth [::] [:: [:: 1; 0; -1; 0]; [:: 1; 1; -1; -1]] r) i.
Definition sx (r : 'I_2) : 'M[R]_(2 + 2, 1) := wx.
Lemma sWy r : wW *m sy r = - sy r.
Proof.
rewrite -[sy r]vsubmxK /wW mul_block_col !mul0mx !mul1mx add0r addr0 opp_col_mx; congr (col_mx _ _);
 apply/matrixP => i j; rewrite !mxE; case: r => -[|[|//]] Hr; case: i => -[|[|//]] Hi; by rewrite /= ?opprK ?oppr0.
Qed.
Lemma sBy (l : R) r : (1%:M - l *: wW) *m sy r = (1 + l) *: sy r.
Proof. by rewrite mulmxBl mul1mx -scalemxAl sWy scalerN opprK scalerDl scale1r. Qed.
Lemma sBx (l : R) : (1%:M - l *: wW) *m wx = (1 - l) *: wx.
Proof. by rewrite mulmxBl mul1mx -scalemxAl wxW scalerBl scale1r. Qed.
Lemma sf (b : forall r : 'I_2, 'cV[R]_1) (lam : 'cV[R]_2) r :
  col r (sue_filter wW lam (sur_resids sy sx b)) = (1 + lam r 0) *: sy r - ((1 - lam r 0) * b r 0 0) *: wx.
Proof.
rewrite sue_filterE resid_col mulmxBr /sB sBy mulmxA sBx; congr (_ - _).
apply/matrixP => i j; by rewrite !mxE big_ord1 !mxE !ord1 mulr1 mulr1.
Qed.
Lemma n4 : 4%:R = 1 + 1 + 1 + 1 :> R. Proof. by rewrite !mulrS mulr0n addr0 !addrA. Qed.
Lemma n2 : 2%:R = 1 + 1 :> R. Proof. by []. Qed.
Definition sg (r t : 'I_2) : R := nth 0 (nth [::] [:: [:: 2%:R; 2%:R]; [:: 2%:R; 4%:R]] r) t.
Lemma sgram (b : forall r : 'I_2, 'cV[R]_1) (lam : 'cV[R]_2) r t : let F := sue_filter wW lam (sur_resids sy sx b) in
  (F^T *m F) r t = (1 + lam r 0) * (1 + lam t 0) * sg r t + 4%:R * (((1 - lam r 0) * b r 0 0) * ((1 - lam t 0) * b t 0 0)).
Proof.
move=> F; have -> : (F^T *m F) r t = ((col r F)^T *m col t F) 0 0 by rewrite !mxE; apply: eq_bigr => i _; rewrite !mxE.
rewrite /F !sf; move: (1 + lam r 0) (1 + lam t 0) (_ * b r 0 0) (_ * b t 0 0) => a1 a2 c1 c2.
rewrite mxE !big_ord_recl big_ord0; case: r => -[|[|//]] Hr; case: t => -[|[|//]] Ht; rewrite !mxE /= /sg /=.
all: rewrite ?n4 ?n2; mring R_realFieldType.
Qed.
Lemma sdet (b : forall r : 'I_2, 'cV[R]_1) (lam : 'cV[R]_2) : let F := sue_filter wW lam (sur_resids sy sx b) in
  \det (F^T *m F) = 4%:R * ((1 + lam 0 0) * (1 + lam 1 0)) ^+ 2 + 8%:R * ((1 + lam 0 0) * ((1 - lam 1 0) * b 1 0 0) - (1 + lam 1 0) * ((1 - lam 0 0) * b 0 0 0)) ^+ 2
    + 8%:R * ((1 + lam 1 0) * ((1 - lam 0 0) * b 0 0 0)) ^+ 2.
Proof.
move=> F; rewrite det22 !sgram /sg /=.
move: (1 + lam 0 0) (1 + lam 1 0) (_ * b 0 0 0) (_ * b 1 0 0) => a1 a2 c1 c2.
have -> : 8%:R = 4%:R * 2%:R :> R by rewrite -natrM.
rewrite n4 n2 !expr2; mring R_realFieldType.
Qed.
Definition sP (lam : 'cV[R]_2) : Prop := forall r, `|lam r 0| <= 1 / 2%:R.
Lemma h2 : 0 < 1 / 2%:R :> R. Proof. by rewrite divr_gt0 ?ltr01 ?ltr0n. Qed.
Lemma h1 : 1 - 1 / 2%:R = 1 / 2%:R :> R.
Proof. have t0 : 2%:R != 0 :> R by rewrite pnatr_eq0. by rewrite -{1}(divff t0) -mulrBl -{1}[2%:R]/(1 + 1) addrK. Qed.
Lemma sP1 lam r : sP lam -> `|lam r 0| < 1.
Proof. move/(_ r)/le_lt_trans; apply; by rewrite -subr_gt0 h1 h2. Qed.
Lemma sP2 lam r : sP lam -> 1 / 2%:R <= 1 + lam r 0.
Proof. move/(_ r); rewrite ler_norml => /andP [H _]; by rewrite -ler_subl_addl -opprB h1. Qed.
Lemma sU lam r : sP lam -> sB wW lam r \in unitmx.
Proof. by move=> H; rewrite unitmxE unitfE wdet expf_neq0 // gt_eqF // wlt // sP1. Qed.
Definition s64 : R := 1 / 64%:R.
Lemma s64p : 0 < s64. Proof. by rewrite divr_gt0 ?ltr01 ?ltr0n. Qed.
Lemma s64E : s64 = (2 + 2)%N%:R^-1 ^+ 2 * (4%:R * (1 / 4%:R) ^+ 2).
Proof.
have f : 4%:R != 0 :> R by rewrite pnatr_eq0.
rewrite /s64; have -> : 64%:R = 4%:R * 4%:R * 4%:R :> R by rewrite -!natrM.
have -> : (2 + 2)%N%:R = 4%:R :> R by [].
rewrite !expr2; move: (4%:R : R) f => q f; mfield R_realFieldType; by apply/eqP.
Qed.
Definition sc : R := 2%:R * ln s64.
Lemma sdetS b lam : sP lam -> s64 <= \det (sS wW lam (sur_resids sy sx b)).
Proof.
move=> H; rewrite /sS detZ sdet; have p0 := sP2 0 H; have p1 := sP2 1 H; have h := ltW h2.
have m : (1 / 4%:R) ^+ 2 <= ((1 + lam 0 0) * (1 + lam 1 0)) ^+ 2.
  have -> : 1 / 4%:R = 1 / 2%:R * (1 / 2%:R) :> R by rewrite !mul1r -invfM -natrM.
  have q : 1 / 2%:R * (1 / 2%:R) <= (1 + lam 0 0) * (1 + lam 1 0) by exact: ler_pmul.
  have z : 0 <= 1 / 2%:R * (1 / 2%:R) :> R by exact: mulr_ge0.
  by rewrite ler_pexpn2r ?nnegrE //; exact: le_trans q.
rewrite s64E.
apply: ler_wpmul2l; first by rewrite exprn_ge0 // invr_ge0 ler0n.
rewrite -[X in X <= _]addr0 -[X in X <= _]addr0; apply: ler_add; last by rewrite mulr_ge0 ?sqr_ge0 ?ler0n.
apply: ler_add; last by rewrite mulr_ge0 ?sqr_ge0 ?ler0n.
by rewrite ler_pmul2l ?ltr0n.
Qed.
Lemma sHc b lam : sP lam -> exists2 v, sue_clik wu wW (sur_resids sy sx b) lam = Some v & sc <= v.
Proof.
move=> H; have D := sdetS b H; have q0 := s64p.
have US : sS wW lam (sur_resids sy sx b) \in unitmx by rewrite unitmxE unitfE gt_eqF // (lt_le_trans q0).
eexists; first by apply: (sue_clik_def w_lu US) => r; exact: sU.
rewrite /sc -[X in X <= _]subr0; apply: ler_sub.
  have -> : (2 + 2)%N%:R / 2%:R = 2%:R :> R by rewrite -[(2 + 2)%N]/(2 * 2)%N natrM mulfK // pnatr_eq0.
  rewrite ler_pmul2l ?ltr0n //; exact: ln_le_mono.
rewrite -oppr_ge0 -sumrN; apply: sumr_ge0 => r _; rewrite oppr_ge0; have s1 := wlt (sP1 r H).
have l1 : (1 - lam r 0 ^+ 2) ^+ 2 <= 1.
  rewrite exprn_ile1 ?(ltW s1) // ler_subl_addr ler_addl sqr_ge0 //.
rewrite /sB wdet ger0_norm ?sqr_ge0 // -[X in _ <= X]ln1; apply: ln_le_mono => //; exact: exprn_gt0.
Qed.
(** a minimiser that returns its starting point *)
Definition smin (E : 'M[R]_(2 + 2, 2)) (lam : 'cV[R]_2) : 'cV[R]_2 * R := (lam, odflt 0 (sue_clik wu wW E lam)).
Lemma sHmin b lam : sP lam -> let m := smin (sur_resids sy sx b) lam in
  [/\ sP m.1, sue_clik wu wW (sur_resids sy sx b) m.1 = Some m.2 & forall v, sue_clik wu wW (sur_resids sy sx b) lam = Some v -> m.2 <= v].
Proof. by move=> H; have [v Ev _] := sHc b H; rewrite /smin Ev; split=> // w [<-]. Qed.
Example C85_witness : exists N r, base_sue_ml N sy sx wW smin s64 (fun=> (1 / 2%:R, 1)) (sur_resids sy sx (fun=> 0)) = Some r /\
  forall Sig, pd Sig -> sue_loglik sy sx wW (fun=> 0) (const_mx (1 / 2%:R)) Sig <= sue_loglik sy sx wW (sm_b r) (sm_lam r)
    (4%:R^-1 *: ((sue_filter wW (sm_lam r) (sm_E r))^T *m sue_filter wW (sm_lam r) (sm_E r))).
Proof.
have e0 := s64p.
pose st := fun _ : 'I_2 => (1 / 2%:R : R, 1 : R).
have s0 : sP (\col_r (st r).1) by move=> r; rewrite mxE ger0_norm // ltW // h2.
have [v0 E0 c0] := sHc (fun=> 0) s0.
have [N HN] := archiN ((v0 - sc) / s64).
have F (r : 'I_2) (c : 'cV[R]_1) : sx r *m c = 0 -> c = 0 by exact: wxx.
have S0 : s64 < `|\sum_r (st r).2|.
  rewrite big_ord_recl big_ord1 /= ger0_norm ?addr_ge0 ?ler01 //; apply: (@lt_trans _ _ 1); last by rewrite ltr_addl ltr01.
  by rewrite /s64 ltr_pdivr_mulr ?ltr0n // mul1r ltr1n.
have [r Hr] := C85_reports w_lu sHmin sHc e0 s0 F S0 E0 HN; exists N.+1, r; split=> // Sig PS.
have [e1 e2 _ e4 _] := C85_result w_lu sHmin sHc s0 Hr.
have := e4 _ PS; rewrite e2; have -> : sm_lamols r = const_mx (1 / 2%:R); last exact.
by move: Hr; rewrite /base_sue_ml; case: sue_loop => // e lam E f it [<-] /=; apply/matrixP => i j; rewrite !mxE.
Qed.
(** the iterated estimator without spatial effects, on the same data *)
Example C84_witness : exists s, [/\ base_sur_iter sy sx 1 = Some s, si_llik s <= sur_loglik sy sx (e_b (si_est s)) (4%:R^-1 *: ((si_E s)^T *m si_E s)) & 0 <= (si_lr s).1].
Proof.
have z0 : sP 0 by move=> r; rewrite mxE normr0 ltW // h2.
have f0 E : sue_filter wW 0 E = E by apply/matrixP => i r; rewrite !mxE mulr0 subr0.
have D b : cov (sur_resids sy sx b) \in unitmx.
  have := sdetS b z0; rewrite /sS f0 -/(cov _) => H; by rewrite unitmxE unitfE gt_eqF // (lt_le_trans s64p).
have F (r : 'I_2) (c : 'cV[R]_1) : sx r *m c = 0 -> c = 0 by exact: wxx.
have est b : exists e, sur_est (crossXX sx) (crossXy sx sy) (sur_resids sy sx b) = Some e by apply/C46_defined; split; [exact: D|exact: F].
have [bo Eo] : exists bo, sur_ols sx sy = Some bo.
  rewrite /sur_ols; case: ifP => [_|/negP []]; first by eexists.
  by apply/forallP => r; apply/gram_unit; exact: F.
have [e0 E0] := est bo; have [e1 E1] := est (e_b e0).
have P0 := sur_est_pd E0; have P1 := sur_est_pd E1.
have [s Hs] : exists s, base_sur_iter sy sx 1 = Some s.
  rewrite /base_sur_iter Eo E0 /= E1 /sur_ldetS0 osum_log => [|r]; last exact: pd_diag_gt0.
  by rewrite /np_log normr_gt0 -unitfE -unitmxE pd_unit //; eexists.
exists s; split=> //.
  have [_ /(_ _)] := C84_sur_llik Hs; cbv zeta => H; apply: (proj1 (H _)).
  have -> : si_E s = sur_resids sy sx (e_b (si_est s)); last exact: D.
  move: Hs; rewrite /base_sur_iter Eo E0 /= E1; case: sur_ldetS0 => // l0; by case: np_log => // l1 [<-].
by have [null [_ _ _ ]] := C84_sur_lr Hs.
Qed.
