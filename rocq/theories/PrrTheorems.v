(** C83: maximum likelihood spatial error panel with random effects. *)
From Coq Require Import Reals Ring Field.
From mathcomp Require Import all_ssreflect all_algebra.
From Verif Require Import Rinst Mring LinRegModel LinRegProofs LinRegProofs2 FilterModel MLModel MLSpec MLProofs MLTheorems Kron PanelModel PanelTheorems PanelTheorems2
  PfeModel PfeSpec PfeTheorems PfeTheorems2 PfeTheorems3 PreSpec PreTheorems PrrModel PrrSpec.
Set Implicit Arguments.
Unset Strict Implicit.
Unset Printing Implicit Defensive.
Import Order.TTheory GRing.Theory Num.Theory.
Local Open Scope ring_scope.

(** a Gaussian likelihood through a whitening matrix *)
Lemma whiten m (Om F : 'M[R]_m) : Om *m (F^T *m F) = 1%:M -> invmx Om = F^T *m F /\ F \in unitmx.
Proof.
move=> H; have [U _] := mulmx1_unit H; split; first by rewrite -[LHS]mulmx1 -H mulKmx.
by have [_ ] := mulmx1_unit H; rewrite unitmx_mul => /andP [].
Qed.
Lemma normal_gauss m (Om F : 'M[R]_m) (e : 'cV[R]_m) s2 : 0 < s2 -> Om *m (F^T *m F) = 1%:M ->
  normal_loglik (s2 *: Om) e = gauss_loglik (\det F) (F *m e) s2.
Proof.
move=> s0 H; have [V UF] := whiten H; have s1 := lt0r_neq0 s0; have [U _] := mulmx1_unit H.
have D : \det Om * `|\det F| ^+ 2 = 1.
  by have := congr1 determinant H; rewrite !det_mulmx det_tr det1 -expr2 -[\det F ^+ 2]ger0_norm ?sqr_ge0 // normrX.
have d0 : 0 < `|\det F| by rewrite normr_gt0 -unitfE -unitmxE.
have DO : \det Om = `|\det F| ^- 2.
  by rewrite -[LHS](mulfK (_ : `|\det F| ^+ 2 != 0)) ?D ?mul1r // expf_neq0 // gt_eqF.
rewrite /normal_loglik /gauss_loglik detZ DO [ln (s2 ^+ m * _)]lnM ?exprn_gt0 ?invr_gt0 ?exprn_gt0 // lnV ?exprn_gt0 // !ln_pow // invmxZ ?V; last first.
  by rewrite unitmxZ ?unitfE.
have -> : (e^T *m (s2^-1 *: (F^T *m F)) *m e) 0 0 = s2^-1 * ssq (F *m e).
  by rewrite -scalemxAr -scalemxAl mxE ssqE utuE trmx_mul !mulmxA.
have t0 : 2%:R != 0 :> R by rewrite pnatr_eq0.
move: (ln _) (ln _) (ln _) (ssq _) => a c d f; mfield R_realFieldType; by split; apply/eqP.
Qed.

Section Blk.
Variables (T n : nat).
Hypothesis T0 : (0 < T)%N.
Definition av : 'M[R]_(T * n) := PanelTheorems.avg R_rcfType T n.
Lemma avE c (a : 'M[R]_(T * n, c)) : av *m a = tile T (unit_mean a). Proof. exact: avgE. Qed.
Lemma av_tr : av^T = av. Proof. exact: avg_tr. Qed.
Definition wi : 'M[R]_(T * n) := 1%:M - av.
Lemma wi_av : wi + av = 1%:M. Proof. by rewrite /wi subrK. Qed.
(** equal blocks on deviations from unit means and on unit means *)
Definition blk (A C : 'M[R]_n) : 'M[R]_(T * n) := w_nt T A *m wi + w_nt T C *m av.
Lemma w_av (A : 'M[R]_n) : w_nt T A *m av = av *m w_nt T A.
Proof. by rewrite /w_nt /av /avg !kron_mul !mul1mx !mulmx1. Qed.
Lemma w_wi (A : 'M[R]_n) : w_nt T A *m wi = wi *m w_nt T A.
Proof. by rewrite /wi mulmxBr mulmxBl mul1mx mulmx1 w_av. Qed.
Lemma aa : av *m av = av. Proof. exact: avg_idem. Qed.
Lemma wa : wi *m av = 0. Proof. by rewrite /wi mulmxBl mul1mx aa subrr. Qed.
Lemma aw : av *m wi = 0. Proof. by rewrite /wi mulmxBr mulmx1 aa subrr. Qed.
Lemma ww : wi *m wi = wi. Proof. by rewrite {1}/wi mulmxBl mul1mx aw subr0. Qed.
Lemma blk_mul A C A' C' : blk A C *m blk A' C' = blk (A *m A') (C *m C').
Proof.
rewrite /blk; have := w_wi A'; have := w_av C'; have := aa; have := wa; have := aw; have := ww.
move: wi av => Q V QQ VQ QV VV HC HA.
rewrite mulmxDl !mulmxDr HC HA !mulmxA -[w_nt T A *m _ *m Q]mulmxA QQ -[w_nt T A *m _ *m V]mulmxA QV -[w_nt T C *m _ *m Q]mulmxA VQ -[w_nt T C *m _ *m V]mulmxA VV.
by rewrite !mulmx0 !mul0mx addr0 add0r -[w_nt T A *m _ *m _]mulmxA -HA mulmxA -[w_nt T C *m _ *m _]mulmxA -HC mulmxA !w_nt_mul.
Qed.
Lemma blk_tr A C : (blk A C)^T = blk A^T C^T.
Proof.
have E : wi^T = wi by rewrite /wi linearB /= trmx1 av_tr.
rewrite /blk [LHS]linearD /=; congr (_ + _).
  by rewrite trmx_mul E w_nt_tr w_wi.
by rewrite trmx_mul av_tr w_nt_tr w_av.
Qed.
Lemma w_nt1 : w_nt T (1%:M : 'M[R]_n) = 1%:M. Proof. exact: kron1. Qed.
Lemma blk1 : blk 1%:M 1%:M = 1%:M. Proof. by rewrite /blk w_nt1 !mul1mx wi_av. Qed.
Lemma det_w_nt (A : 'M[R]_n) : \det (w_nt T A) = \det A ^+ T. Proof. exact: det_kron1. Qed.
Lemma av_fact : av = tile T (1%:M : 'M[R]_n) *m unit_mean (1%:M : 'M[R]_(T * n)).
Proof. by rewrite -[LHS]mulmx1 avE -{1}[unit_mean _]mul1mx tile_lin. Qed.
Lemma det_blk1 C : \det (blk 1%:M C) = \det C.
Proof.
have -> : blk 1%:M C = 1%:M - tile T (1%:M - C) *m unit_mean (1%:M : 'M[R]_(T * n)).
  have E : tile T (1%:M - C) *m unit_mean (1%:M : 'M[R]_(T * n)) = w_nt T (1%:M - C) *m av.
    by rewrite av_fact mulmxA w_tile mulmx1.
  rewrite E /blk /wi w_nt1 mul1mx /w_nt.
  have -> : kron (1%:M : 'M[R]_T) (1%:M - C) = 1%:M - kron 1%:M C.
    by rewrite -kron1; apply/matrixP => i j; rewrite !mxE mulrBr.
  by rewrite [in RHS]mulmxBl mul1mx opprB addrA [in RHS]addrAC.
rewrite det_sylvester -unit_mean_lin mul1mx tile_mean_tile //; by rewrite opprB addrC subrK.
Qed.
Lemma det_blk A C : A \in unitmx -> \det (blk A C) = \det A ^+ T * (\det C / \det A).
Proof.
move=> U; have -> : blk A C = blk A A *m blk 1%:M (invmx A *m C) by rewrite blk_mul mulmx1 mulmxA mulmxV // mul1mx.
rewrite det_mulmx det_blk1 det_mulmx det_inv; congr (_ * _); last by rewrite mulrC.
by rewrite /blk -mulmxDr wi_av mulmx1 det_w_nt.
Qed.
Lemma re_filterE c (P W : 'M[R]_n) lam (a : 'M[R]_(T * n, c)) : re_filter P W lam a = blk (1%:M - lam *: W) P *m a.
Proof.
rewrite /re_filter -w_tile -avE /blk /wi mulmxDl -!mulmxA mulmxBl mul1mx mulmxBr w_ntB.
have -> : w_nt T (P - (1%:M - lam *: W)) = w_nt T P - (1%:M - lam *: w_nt T W).
  by rewrite -w_ntB; apply/matrixP => i j; rewrite !mxE mulrBr.
set w := w_nt T W; set p := w_nt T P; set v := av *m a.
rewrite !mulmxBl !mul1mx -!scalemxAl; move: (w *m a) (w *m v) (p *m v) (v) => wa' wv pv v'.
apply/matrixP => i j; rewrite !mxE; move: (v' i j) (a i j) (wa' i j) (wv i j) (pv i j) => a1 a2 a3 a4 a5.
mring R_realFieldType.
Qed.
Lemma sigmaE (W : 'M[R]_n) (lam s2 phi : R) : let M := invmx ((1%:M - lam *: W)^T *m (1%:M - lam *: W)) in
  re_err_sigma T W lam s2 (phi * s2) = s2 *: blk M ((T%:R * phi) *: 1%:M + M).
Proof.
move=> M; have t0 : T%:R != 0 :> R by rewrite pnatr_eq0 -lt0n.
have -> : blk M ((T%:R * phi) *: 1%:M + M) = w_nt T M + (T%:R * phi) *: av.
  have H : w_nt T ((T%:R * phi) *: 1%:M + M) = (T%:R * phi) *: 1%:M + w_nt T M.
    rewrite -w_nt1; apply/matrixP => i j; rewrite !mxE; move: (_%:R : R) (_%:R : R) (M _ _) => a b c.
    mring R_realFieldType.
  by rewrite /blk /wi H mulmxBr mulmx1 mulmxDl -scalemxAl mul1mx addrA addrAC subrK addrC.
apply/matrixP => r c; rewrite !mxE -/M; have E (b : bool) : (b%:R : R) = if b then 1 else 0 by case: b.
rewrite !E mulr1; case: (pu r == pu c); case: (pt r == pt c); rewrite ?mulr0 ?mulr1 ?addr0 ?add0r ?mul0r ?mul1r //.
- by rewrite mulrDr mulrAC mulfV // mul1r addrC [s2 * phi]mulrC.
- by rewrite mulrAC mulfV // mul1r add0r mulrC.
- by rewrite mulr0.
Qed.
End Blk.

Section Fit.
Variables (T n k : nat) (y : 'cV[R]_(T * n)) (x : 'M[R]_(T * n, k)) (W : 'M[R]_n).
Hypothesis T0 : (0 < T)%N.
Local Notation B lam := (1%:M - lam *: W).
Local Notation K lam phi := ((T%:R * phi) *: 1%:M + invmx ((B lam)^T *m B lam)).
(** a matrix with P'P = K^-1 whitens the disturbances *)
Lemma whitens lam phi P : B lam \in unitmx -> K lam phi *m (P^T *m P) = 1%:M ->
  blk T (invmx ((B lam)^T *m B lam)) (K lam phi) *m ((blk T (B lam) P)^T *m blk T (B lam) P) = 1%:M.
Proof.
move=> U H; rewrite blk_tr blk_mul // blk_mul // H mulVmx ?blk1 //.
by rewrite unitmx_mul unitmx_tr U.
Qed.
Lemma re_normal_err lam phi P s2 b : 0 < s2 -> B lam \in unitmx -> K lam phi *m (P^T *m P) = 1%:M ->
  re_err_loglik y x W b lam s2 (phi * s2) =
  gauss_loglik (\det (B lam) ^+ T * (\det P / \det (B lam))) (re_filter P W lam y - re_filter P W lam x *m b) s2.
Proof.
move=> s0 U H; rewrite /re_err_loglik sigmaE // (normal_gauss _ s0 (whitens U H)) det_blk // !re_filterE mulmxBr mulmxA //.
Qed.
Lemma gls_err lam phi P b : B lam \in unitmx -> K lam phi *m (P^T *m P) = 1%:M ->
  let e := y - x *m b in (e^T *m invmx (re_err_sigma T W lam 1 phi) *m e) 0 0 = ssq (re_filter P W lam y - re_filter P W lam x *m b).
Proof.
move=> U H e; have -> : re_err_sigma T W lam 1 phi = blk T (invmx ((B lam)^T *m B lam)) (K lam phi).
  by rewrite -{1}[phi]mulr1 sigmaE // scale1r.
have [-> _] := whiten (whitens U H).
rewrite !re_filterE -[(_ *m x) *m b]mulmxA -mulmxBr -/e; move: (blk _ _ _) => F.
by rewrite ssqE utuE trmx_mul !mulmxA.
Qed.
(** ordinary least squares on the filtered data *)
Lemma ls_split m p (Y : 'cV[R]_m) (X : 'M[R]_(m, p)) Xi b' : la_inv (X^T *m X) = Some Xi ->
  let b := Xi *m (X^T *m Y) in ssq (Y - X *m b') = ssq (Y - X *m b) + ssq (X *m (b' - b)).
Proof.
move=> /la_invP [U EX] b.
have N : X^T *m (Y - X *m b) = 0 by rewrite mulmxBr /b !mulmxA EX mulmxV // mul1mx subrr.
have E : Y - X *m b' = (Y - X *m b) - X *m (b' - b).
  by rewrite mulmxBr opprB addrA subrK.
rewrite E; move: (Y - X *m b) (b' - b) N => e d N.
have N1 : (X *m d)^T *m e = 0 by rewrite trmx_mul -mulmxA N mulmx0.
have N2 : e^T *m (X *m d) = 0 by rewrite -[LHS]trmxK trmx_mul trmxK N1 trmx0.
move: (X *m d) N1 N2 => f N1 N2; rewrite !ssqE !utuE.
have -> : (e - f)^T *m (e - f) = e^T *m e + f^T *m f.
  by rewrite [(e - f)^T]linearB /= mulmxBl !mulmxBr N1 N2 subr0 sub0r opprK.
by rewrite mxE.
Qed.
Lemma ls_ssr m p (Y : 'cV[R]_m) (X : 'M[R]_(m, p)) Xi : la_inv (X^T *m X) = Some Xi ->
  let b := Xi *m (X^T *m Y) in (Y^T *m Y) 0 0 - ((X^T *m Y)^T *m b) 0 0 = ssq (Y - X *m b).
Proof.
move=> /la_invP [U EX] b.
have N : X^T *m (Y - X *m b) = 0 by rewrite mulmxBr /b !mulmxA EX mulmxV // mul1mx subrr.
rewrite ssqE utuE; have -> : (Y - X *m b)^T *m (Y - X *m b) = Y^T *m (Y - X *m b).
  by rewrite {1}[(_ - _)^T]linearB /= mulmxBl trmx_mul -mulmxA N mulmx0 subr0.
rewrite mulmxBr trmx_mul trmxK mulmxA [in RHS]mxE; move: (Y^T *m Y) (_ *m b) => a1 a2; by rewrite [in RHS]mxE.
Qed.
Lemma K_pd lam phi : B lam \in unitmx -> 0 <= phi -> pd (K lam phi).
Proof.
move=> U p0; have GU : (B lam)^T *m B lam \in unitmx by rewrite unitmx_mul unitmx_tr U.
have := pd_inv (gram_pd GU); move: (invmx _) => M [S P]; split=> [|c c0].
  by rewrite linearD /= linearZ /= trmx1 S.
rewrite mulmxDr mulmxDl mxE -scalemxAr mulmx1 -scalemxAl [X in X + _]mxE.
by apply: ltr_paddl; [rewrite mulr_ge0 ?mulr_ge0 ?ler0n // -utuE utu_ge0|exact: P].
Qed.
Lemma eigh_pos (A : 'M[R]_n) d V : pd A -> is_eigh A d V -> forall i, 0 < d 0 i.
Proof.
move=> [_ P] [VV E] i; have [UV _] := mulmx1_unit VV; have VV' := mulmx1C VV.
have D : V^T *m A *m V = diag_mx d by rewrite E !mulmxA VV' mul1mx -mulmxA VV' mulmx1.
have := P (V *m delta_mx i (0 : 'I_1)).
have -> : V *m delta_mx i (0 : 'I_1) != 0.
  apply/negP => /eqP Z; have := congr1 (fun c => (V^T *m c) i 0) Z.
  rewrite mulmxA VV' mul1mx mulmx0 !mxE !eqxx /= => /eqP; by rewrite (negbTE (oner_neq0 _)).
move/(_ isT); rewrite trmx_mul !mulmxA -[(delta_mx i 0)^T *m _ *m A *m V]mulmxA -[_ *m V^T *m _]mulmxA [V^T *m (A *m V)]mulmxA D trmx_delta.
by rewrite -rowE -colE !mxE eqxx.
Qed.
Lemma eigh_root (A : 'M[R]_n) d V : is_eigh A d V -> (forall i, 0 < d 0 i) ->
  let P := V *m (diag_mx (\row_i (Num.sqrt (d 0 i))^-1) *m V^T) in A *m (P^T *m P) = 1%:M.
Proof.
move=> [VV E] d0; have VV' := mulmx1C VV; set D := diag_mx (\row_i _) => P.
have Pt : P^T = P by rewrite /P !trmx_mul trmxK tr_diag_mx mulmxA.
have PP : P *m P = V *m diag_mx (\row_i (d 0 i)^-1) *m V^T.
  rewrite /P !mulmxA -[V *m D *m V^T *m V]mulmxA VV' mulmx1 -[V *m D *m D]mulmxA /D mulmx_diag; congr (_ *m diag_mx _ *m _).
  by apply/rowP => i; rewrite !mxE -invfM -expr2 sqr_sqrtr // ltW.
rewrite Pt PP E !mulmxA -[_ *m V^T *m V]mulmxA VV' mulmx1 -[V *m diag_mx d *m _]mulmxA mulmx_diag.
have -> : \row_j (d 0 j * (\row_i (d 0 i)^-1) 0 j) = const_mx 1 by apply/rowP => i; rewrite !mxE mulfV // gt_eqF.
by rewrite diag_const_mx mulmx1.
Qed.

(** C83: at the reported lambda and variance ratio phi the coefficients are those of generalised least squares with the covariance
    matrix of the model; sig2 is the weighted mean of squares, sig2_u the variance of the unit effects; the block of vm for the
    coefficients is sig2 (x' S^-1 x)^-1. *)
(* partial; missing: non-symmetric weights (C83_nonsymmetric_refuted) *)
Theorem C83_fit_partial : forall eigh res r, let O := re_err_between T W res.1.1 (res.1.2 ^+ 2) in is_eigh O (eigh O).1 (eigh O).2 ->
  base_re_err eigh y x W res = Some r ->
  let S := re_err_sigma T W (er_lam r) 1 (er_phi r) in
  let Q b := ((y - x *m b)^T *m invmx S *m (y - x *m b)) 0 0 in
  [/\ er_lam r = res.1.1 /\ er_phi r = res.1.2 ^+ 2,
      forall b', Q (er_b r) <= Q b' /\ (Q b' = Q (er_b r) -> b' = er_b r),
      er_sig2 r = Q (er_b r) / (T * n)%:R /\ er_sig2_u r = er_phi r * er_sig2 r,
      er_u r = y - x *m er_b r /\ er_predy r + er_u r = y &
      ulsubmx (er_vm r) *m (x^T *m invmx S *m x) = (er_sig2 r)%:M].
Proof.
move=> eigh [[lam phi0] fn] r /= Heig; rewrite /base_re_err; case EB: la_inv => [Bi|//].
have [UBB EBi] := la_invP EB; have U : B lam \in unitmx by move: UBB; rewrite unitmx_mul => /andP [].
set phi := phi0 ^+ 2; have p0 : 0 <= phi by exact: sqr_ge0.
have Kp := K_pd U p0; have Kt : (K lam phi)^T = K lam phi by case: Kp.
rewrite EBi; move: Heig; rewrite /re_err_between; case: (eigh _) => d V /= HE; have d0 := eigh_pos Kp HE.
have HP := eigh_root HE d0; cbv zeta in HP; set P := V *m _ in HP *.
case Ex: la_inv => [xi|//]; case: la_inv => [aTai|//]; case: la_inv => [vi|//]; case: la_inv => [vm1|//] [<-] /=.
rewrite -/phi; set ys := re_filter P W lam y; set xs := re_filter P W lam x in Ex *; set b := xi *m (xs^T *m ys).
have [Ux Exi] := la_invP Ex.
have QE c := gls_err c U HP; cbv zeta in QE; rewrite -/ys -/xs in QE.
split=> //.
- move=> b'; rewrite !QE (ls_split ys b' Ex) -/b; split; first by rewrite ler_addl ssqE utu_ge0.
  move/eqP; rewrite -subr_eq0 addrAC subrr add0r ssqE utu_eq0 => /eqP H.
  by apply/eqP; rewrite -subr_eq0; apply/eqP; exact: (iffLR (gram_unit _) Ux).
- by rewrite QE ssqE utuE.
- by split=> //; rewrite subrK.
- rewrite block_mxKul.
  have -> : re_err_sigma T W lam 1 phi = blk T (invmx ((B lam)^T *m B lam)) (K lam phi).
    by rewrite -{1}[phi]mulr1 sigmaE // scale1r.
  have [-> _] := whiten (whitens U HP).
  have <- : xs^T *m xs = x^T *m ((blk T (B lam) P)^T *m blk T (B lam) P) *m x.
    by rewrite /xs re_filterE; move: (blk _ _ _) => F; rewrite trmx_mul !mulmxA.
  by rewrite -scalemxAl Exi mulVmx // scalemx1.
Qed.
End Fit.
