(** C81: maximum likelihood spatial panels with fixed effects. *)
From Coq Require Import Reals Ring Field.
From mathcomp Require Import all_ssreflect all_algebra.
From mathcomp.fingroup Require Import perm.
From Verif Require Import Rinst Mring LinRegModel LinRegProofs LinRegProofs2 FilterModel MLModel MLSpec MLProofs MLTheorems Kron PanelModel PanelTheorems
  PfeModel PfeSpec.
Set Implicit Arguments.
Unset Strict Implicit.
Unset Printing Implicit Defensive.
Import Order.TTheory GRing.Theory Num.Theory.
Local Open Scope ring_scope.

Lemma ln_pow (a : R) m : 0 < a -> ln (a ^+ m) = m%:R * ln a.
Proof.
move=> a0; elim: m => [|m IH]; first by rewrite expr0 ln1 mul0r.
by rewrite exprS lnM ?exprn_gt0 // IH -addn1 natrD mulrDl mul1r addrC.
Qed.
(** a block diagonal matrix with T equal blocks *)
Lemma det_kron1 (F : comUnitRingType) T n (A : 'M[F]_n) : \det (kron (1%:M : 'M[F]_T) A) = \det A ^+ T.
Proof.
elim: T => [|T IH]; first by rewrite expr0; exact: det_mx00.
have E : kron (1%:M : 'M[F]_T.+1) A = block_mx A 0 0 (kron (1%:M : 'M[F]_T) A) :> 'M[F]_(n + T * n).
  have S1 (i : 'I_n) : pt (lshift (T * n) i : 'I_(T.+1 * n)) = 0 /\ pu (lshift (T * n) i : 'I_(T.+1 * n)) = i.
    by split; apply/val_inj; rewrite /= ?divn_small ?modn_small.
  have S2 (q : 'I_(T * n)) : pt (rshift n q : 'I_(T.+1 * n)) = lift 0 (pt q) /\ pu (rshift n q : 'I_(T.+1 * n)) = pu q.
    have n0 : (0 < n)%N by case: (n) q => // -[m]; rewrite muln0.
    by split; apply/val_inj; rewrite /= ?modnDl // -[X in ((X + _) %/ _)%N]mul1n divnMDl.
  apply/matrixP => r s; rewrite [LHS]mxE [X in X * _]mxE -[r]splitK -[s]splitK.
  case: split => i; case: split => j; rewrite /= ?block_mxEul ?block_mxEur ?block_mxEdl ?block_mxEdr.
  - by case: (S1 i) (S1 j) => -> -> [-> ->]; rewrite eqxx mul1r.
  - by case: (S1 i) (S2 j) => -> _ [-> _]; rewrite mul0r mxE.
  - by case: (S2 i) (S1 j) => -> _ [-> _]; rewrite mul0r mxE.
  - by case: (S2 i) (S2 j) => -> -> [-> ->]; rewrite mxE (inj_eq lift_inj) mxE.
rewrite exprS -IH; have := det_lblock A (0 : 'M[F]_(T * n, n)) (kron 1%:M A); rewrite -E; exact.
Qed.

Section Bridge.
Variables (T n : nat).
Local Notation w_nt := (w_nt T).
Local Notation tile := (@tile _ T n _).
Add Field Rf : (@p_ft R_realFieldType).
Lemma period_w t c (A : 'M[R]_n) (a : 'M[R]_(T * n, c)) : period t (w_nt A *m a) = A *m period t a.
Proof.
apply/matrixP => i j; rewrite !mxE big_pix (bigD1 t) //= [X in _ + X]big1 ?addr0 => [|s st].
  by apply: eq_bigr => q _; rewrite !mxE !pt_pix !pu_pix eqxx mul1r.
by rewrite big1 // => q _; rewrite !mxE !pt_pix eq_sym (negbTE st) !mul0r.
Qed.
Lemma sum_ssq (e : 'cV[R]_(T * n)) : \sum_t ssq (period t e) = ssq e.
Proof. by rewrite /ssq big_pix; apply: eq_bigr => t _; apply: eq_bigr => i _; rewrite mxE. Qed.
Lemma w_ntB rho (W : 'M[R]_n) : w_nt (1%:M - rho *: W) = 1%:M - rho *: w_nt W.
Proof. by rewrite /w_nt kronDr kron1 -scaleNr kronZr scaleNr. Qed.
Lemma over_timeE c (a : 'M[R]_(T * n, c)) : over_time a = unit_mean a.
Proof. by apply/matrixP => i j; rewrite !mxE; congr (_ / _); apply: eq_bigr => t _; rewrite mxE. Qed.
Lemma constantE c (m : 'M[R]_(n, c)) : constant_units T m = tile m. Proof. by []. Qed.
Lemma demean0 c (a : 'M[R]_(T * n, c)) : demean_panel 0 a = a - tile (unit_mean a).
Proof. by rewrite demeanE avgE subr0 scale1r. Qed.
Lemma demean_w c (A : 'M[R]_n) (a : 'M[R]_(T * n, c)) : demean_panel 0 (w_nt A *m a) = w_nt A *m demean_panel 0 a.
Proof. by rewrite /demean_panel /w_nt !mulmxA !kron_mul !mul1mx !mulmx1. Qed.
Lemma mean_w c (A : 'M[R]_n) (a : 'M[R]_(T * n, c)) : unit_mean (w_nt A *m a) = A *m unit_mean a.
Proof.
rewrite -!over_timeE; apply/matrixP => i j; rewrite !mxE.
under eq_bigr do rewrite period_w mxE.
rewrite exchange_big /= mulr_suml; apply: eq_bigr => q _; rewrite mxE mulrA; congr (_ / _).
by rewrite mulr_sumr.
Qed.
Lemma w_tile c (A : 'M[R]_n) (m : 'M[R]_(n, c)) : w_nt A *m tile m = tile (A *m m).
Proof.
apply/matrixP => r j; rewrite -(pix_pt_pu r); have := congr1 (fun M : 'M[R]_(n, c) => M (pu r) j) (period_w (pt r) A (tile m)).
rewrite [period _ _ _ _]mxE => ->; rewrite !mxE pu_pix; apply: eq_bigr => q _; by rewrite !mxE pu_pix.
Qed.
Lemma panel_gauss jac (e : 'cV[R]_(T * n)) f s2 : jac != 0 -> (forall t, f t = period t e) ->
  panel_loglik jac f s2 = gauss_loglik (`|jac| ^+ T) e s2.
Proof.
move=> j0 E; rewrite /panel_loglik /gauss_loglik (eq_bigr (fun t => ssq (period t e))) => [|t _]; last by rewrite E.
by rewrite sum_ssq normrX normr_id ln_pow // normr_gt0.
Qed.
Lemma lu_jacob (A U : 'M[R]_n) j : is_lu A U -> t_jacob T U = Some j -> \det A != 0 /\ j = ln (`|\det A| ^+ T).
Proof.
case=> L [s [t [H L1 HL HU]]]; have D := det_LU H L1 HL HU; rewrite /t_jacob.
case E: osum => [l|//] [<-].
have U0 : forall i, 0 < `|U i i|.
  move=> i; have : i \in enum 'I_n by rewrite mem_enum.
  elim: (enum 'I_n) l E => [//|a s' IH] l /=; rewrite /np_log.
  case: ifP => // Ua; case E2: osum => [l'|//] _; rewrite inE => /orP [/eqP -> //|]; exact: IH E2.
have l0 : 0 < `|\det A| by rewrite D prodr_gt0.
split; first by rewrite -normr_gt0.
rewrite ln_pow //; congr (_ * _); move: E; rewrite osum_log //; case=> <-.
by rewrite big_enum /= -D.
Qed.
Lemma lu_jacob_def (A U : 'M[R]_n) : is_lu A U -> \det A != 0 -> t_jacob T U = Some (ln (`|\det A| ^+ T)).
Proof.
case=> L [s [t [H L1 HL HU]]] D0; have D := det_LU H L1 HL HU; rewrite /t_jacob.
have l0 : 0 < `|\det A| by rewrite normr_gt0.
rewrite osum_log_In => [|i _]; first by rewrite big_enum /= -D ln_pow.
rewrite normr_gt0; apply/negP => /eqP Ui; move: l0; rewrite D (bigD1 i) //= Ui normr0 mul0r ltxx //.
Qed.
End Bridge.

Lemma ssq0 m : ssq (0 : 'cV[R]_m) = 0.
Proof. by rewrite /ssq big1 // => i _; rewrite mxE expr0n. Qed.
Section Lag.
Variables (T n k : nat) (y : 'cV[R]_(T * n)) (x : 'M[R]_(T * n, k)) (W : 'M[R]_n).
Hypothesis T0 : (0 < T)%N.
Local Notation A rho := (w_nt T (1%:M - rho *: W)).
Local Notation yd := (demean_panel 0 y).
Local Notation xd := (demean_panel 0 x).
(** the residuals of period t of the model with unit effects *)
Definition lag_resid rho b mu (t : 'I_T) : 'cV[R]_n := period t y - rho *: (W *m period t y) - period t x *m b - mu.
(** the effects that maximise the likelihood given rho and b *)
Definition lag_mu rho (b : 'cV[R]_k) : 'cV[R]_n := over_time y - rho *: (W *m over_time y) - over_time x *m b.

Lemma lag_residE rho b mu t : lag_resid rho b mu t = period t (A rho *m y - x *m b - tile T mu).
Proof.
apply/matrixP => i j; rewrite /lag_resid.
have -> : period t (A rho *m y - x *m b - tile T mu) = period t (A rho *m y) - period t (x *m b) - mu.
  by apply/matrixP => a c; rewrite !mxE pu_pix.
rewrite period_w mulmxBl mul1mx -scalemxAl.
have -> // : period t (x *m b) = period t x *m b.
by apply/matrixP => a c; rewrite !mxE; apply: eq_bigr => q _; rewrite mxE.
Qed.
Lemma lag_split rho b mu : \sum_t ssq (lag_resid rho b mu t) = ssq (A rho *m yd - xd *m b) + T%:R * ssq (lag_mu rho b - mu).
Proof.
under eq_bigr do rewrite lag_residE.
rewrite sum_ssq !ssqE fe_split // -!demean0 demean_w; congr (_ + _ * utu_of _).
by rewrite mean_w /lag_mu !over_timeE mulmxBl mul1mx -scalemxAl.
Qed.
Lemma lag_split0 rho b : \sum_t ssq (lag_resid rho b (lag_mu rho b) t) = ssq (A rho *m yd - xd *m b).
Proof. by rewrite lag_split subrr ssq0 mulr0 addr0. Qed.
Lemma lag_resid_mu rho b t : lag_resid rho b (lag_mu rho b) t = period t (A rho *m yd - xd *m b).
Proof.
rewrite lag_residE; congr period.
rewrite -demean_w !demean0 /lag_mu !over_timeE mean_w [(x - _) *m b]mulmxBl -tile_lin [(_ - _) *m unit_mean y]mulmxBl mul1mx -scalemxAl.
rewrite tileB; move: (tile T _) (tile T _) (_ *m y) (x *m b) => a c d e.
by apply/matrixP => i j; rewrite !mxE; move: (a i j) (c i j) (d i j) (e i j) => a' c' d' e'; mring R_realFieldType.
Qed.
End Lag.

(** C81: the reported coefficients, residuals and variance of the fixed effects spatial lag panel are those of least squares in
    (I - rho W) y_t = x_t b + mu + e_t with one effect per unit, at the reported rho. *)
Theorem C81_lag_fit : forall T n k (y : 'cV[R]_(T * n)) (x : 'M[R]_(T * n, k)) (W : 'M[R]_n) res eps mx r, (0 < T)%N ->
  base_fe_lag y x W res eps mx = Some r ->
  let rho := ml_rho r in let b := ml_b r in let mu := lag_mu y x W rho b in
  [/\ rho = res.1, forall t, period t (ml_u r) = lag_resid y x W rho b mu t,
      ml_sig2 r = (\sum_t ssq (lag_resid y x W rho b mu t)) / (T * n)%:R,
      ml_predy r + ml_u r = y - constant_units T (over_time y)
    & forall b' mu', \sum_t ssq (lag_resid y x W rho b mu t) <= \sum_t ssq (lag_resid y x W rho b' mu' t) /\
        (\sum_t ssq (lag_resid y x W rho b' mu' t) = \sum_t ssq (lag_resid y x W rho b mu t) -> b' = b /\ mu' = mu)].
Proof.
move=> T n k y x W [rho fn] eps mx r T0; rewrite /base_fe_lag.
case E: lag_aux_of => [ax|//]; case: power_expansion => [p|//]; case: la_inv => [ai|//]; case: la_inv => [v|//] [<-] /=.
have [Hu Ho Hm] := lag_aux_fit rho E.
have Ux : (demean_panel 0 x)^T *m demean_panel 0 x \in unitmx by move: E; rewrite /lag_aux_of; case Ei: la_inv => [xi|//] _; case: (la_invP Ei).
set b := la_b0 ax - _ in Hu Hm *; set u := la_e0 ax - _ in Hu Ho Hm *; rewrite -w_ntB in Hu; rewrite -w_ntB in Hm.
split=> //.
- by move=> t; rewrite lag_resid_mu Hu.
- by rewrite lag_split0 // -Hu ssqE.
- by rewrite subrK demean0 constantE over_timeE.
- move=> b' mu'; rewrite lag_split0 // lag_split // -Hu Hm; split.
    by rewrite -addrA ler_addl addr_ge0 ?utu_ge0 // mulr_ge0 ?ler0n ?utu_ge0.
  move/eqP; rewrite -addrA -subr_eq0 addrAC subrr add0r paddr_eq0 ?utu_ge0 ?mulr_ge0 ?ler0n ?utu_ge0 //.
  rewrite mulf_eq0 pnatr_eq0 -[T == 0%N]negbK -lt0n T0 /= => /andP [].
  rewrite !ssqE !utu_eq0 => /eqP H0 /eqP H1.
  have Eb : b' = b by apply/eqP; rewrite -subr_eq0; apply/eqP; exact: (iffLR (gram_unit _) Ux).
  by split=> //; apply/esym/eqP; rewrite -subr_eq0 -Eb H1.
Qed.

Lemma fe_lag_loglikE T n k (y : 'cV[R]_(T * n)) (x : 'M[R]_(T * n, k)) (W : 'M[R]_n) b rho mu s2 : \det (1%:M - rho *: W) != 0 ->
  fe_lag_loglik y x W b rho mu s2 =
  gauss_loglik (`|\det (1%:M - rho *: W)| ^+ T) (w_nt T (1%:M - rho *: W) *m y - x *m b - tile T mu) s2.
Proof. by move=> D; rewrite /fe_lag_loglik (panel_gauss (e := w_nt T (1%:M - rho *: W) *m y - x *m b - tile T mu)) // => t; rewrite -lag_residE. Qed.

(** C81: the reported log-likelihood is the Gaussian log-likelihood of the model with unit effects at the reported estimates; no other
    coefficients, effects and variance give a larger one at the reported rho. *)
Theorem C81_lag_loglik : forall T n k (y : 'cV[R]_(T * n)) (x : 'M[R]_(T * n, k)) (W U : 'M[R]_n) rho fn eps mx r ax, (0 < T)%N -> (0 < n)%N ->
  lag_aux_of (demean_panel 0 y) (demean_panel 0 x) (w_nt T W) = Some ax -> is_lu (1%:M - rho *: W) U ->
  fe_lag_obj T (lag_ssr ax rho) U = Some fn ->
  base_fe_lag y x W (rho, fn) eps mx = Some r ->
  ml_logll r = fe_lag_loglik y x W (ml_b r) (ml_rho r) (lag_mu y x W (ml_rho r) (ml_b r)) (ml_sig2 r) /\
  forall b' mu' s2, 0 < s2 -> fe_lag_loglik y x W b' (ml_rho r) mu' s2 <= ml_logll r.
Proof.
move=> T n k y x W U rho fn eps mx r ax T0 n0 Hax HU Hf Hr.
have [/= Er Eu Es _ Hm] := C81_lag_fit T0 Hr.
have N0 : (0 < T * n)%N by rewrite muln_gt0 T0 n0.
have El : ml_logll r = - fn - (T * n)%:R / 2%:R * ln (2%:R * PI) - (T * n)%:R / 2%:R /\ lag_ssr ax rho = ssq (ml_u r).
  move: Hr; rewrite /base_fe_lag Hax; case: power_expansion => [p|//]; case: la_inv => [ai|//]; case: la_inv => [v|//] [<-] /=.
  by rewrite ssqE utuE.
case: El => El Ess; move: Hf; rewrite /fe_lag_obj Ess /np_log.
have -> : n%:R * T%:R = (T * n)%:R :> R by rewrite natrM mulrC.
case: ifP => // S0; case Ej: t_jacob => [j|//] [Ef]; have [D0 Hj] := lu_jacob HU Ej.
have {}S0 : 0 < ssq (ml_u r) by move: S0; rewrite pmulr_lgt0 // invr_gt0 ltr0n.
have Sum b mu : \sum_t ssq (lag_resid y x W rho b mu t) = ssq (w_nt T (1%:M - rho *: W) *m y - x *m b - tile T mu).
  by rewrite -sum_ssq; apply: eq_bigr => t _; rewrite lag_residE.
move: Hm Es Eu; rewrite /= !Er => Hm Es Eu.
have Su : ssq (ml_u r) = ssq (w_nt T (1%:M - rho *: W) *m y - x *m ml_b r - tile T (lag_mu y x W rho (ml_b r))).
  by rewrite -Sum -sum_ssq; apply: eq_bigr => t _; rewrite Eu.
have L : ml_logll r = fe_lag_loglik y x W (ml_b r) rho (lag_mu y x W rho (ml_b r)) (ml_sig2 r).
  rewrite fe_lag_loglikE // Es Sum gl_eq // -?Su //; last by rewrite exprn_gt0 ?normr_gt0.
  by rewrite El -Ef Hj.
split=> // b' mu' s2 s0; rewrite L !fe_lag_loglikE // Es Sum; apply: gl_le => //; rewrite -?Su // Su -!Sum.
by case: (Hm b' mu').
Qed.

(** C81: if the minimiser found the minimum of the concentrated function over a set of values of rho, the estimates maximise the full
    log-likelihood over all coefficients, effects, variances and the rho in that set. *)
Theorem C81_lag_global : forall T n k (y : 'cV[R]_(T * n)) (x : 'M[R]_(T * n, k)) (W : 'M[R]_n) (lu : R -> 'M[R]_n) (P : R -> Prop) rho fn eps mx r ax,
  (0 < T)%N -> (0 < n)%N ->
  lag_aux_of (demean_panel 0 y) (demean_panel 0 x) (w_nt T W) = Some ax -> (forall rho', is_lu (1%:M - rho' *: W) (lu rho')) ->
  (forall rho', P rho' -> \det (1%:M - rho' *: W) != 0) ->
  (forall rho' b' mu', P rho' -> exists t, lag_resid y x W rho' b' mu' t != 0) ->
  fe_lag_obj T (lag_ssr ax rho) (lu rho) = Some fn ->
  (forall rho' fn', P rho' -> fe_lag_obj T (lag_ssr ax rho') (lu rho') = Some fn' -> fn <= fn') ->
  base_fe_lag y x W (rho, fn) eps mx = Some r ->
  forall b' rho' mu' s2, P rho' -> 0 < s2 ->
    fe_lag_loglik y x W b' rho' mu' s2 <= fe_lag_loglik y x W (ml_b r) (ml_rho r) (lag_mu y x W (ml_rho r) (ml_b r)) (ml_sig2 r).
Proof.
move=> T n k y x W lu P rho fn eps mx r ax T0 n0 Hax Hlu PD Hne Hf Hmin Hr b' rho' mu' s2 Pr s0.
have [<- _] := C81_lag_loglik T0 n0 Hax (Hlu rho) Hf Hr.
have N0 : (0 < T * n)%N by rewrite muln_gt0 T0 n0.
have El : ml_logll r = - fn - (T * n)%:R / 2%:R * ln (2%:R * PI) - (T * n)%:R / 2%:R.
  by move: Hr; rewrite /base_fe_lag Hax; case: power_expansion => [p|//]; case: la_inv => [ai|//]; case: la_inv => [v|//] [<-].
have [Eu Eo Hm] := lag_aux_fit rho' Hax; rewrite -w_ntB in Eu; rewrite -w_ntB in Hm.
set b := la_b0 ax - _ in Eu Hm; set u := la_e0 ax - _ in Eu Eo Hm.
have Ess : lag_ssr ax rho' = ssq u by rewrite /lag_ssr ssqE utuE.
have S0 : 0 < ssq u.
  rewrite lt_def utu_ge0 andbT; apply/negP => /eqP S; have [t] := Hne rho' b (lag_mu y x W rho' b) Pr.
  have := lag_split0 y x W T0 rho' b; rewrite -Eu S => /eqP; rewrite psumr_eq0 => [|s _]; last exact: utu_ge0.
  by move/allP/(_ t (mem_index_enum _)) => /=; rewrite ssqE utu_eq0 => ->.
have D0 := PD _ Pr.
have Hc : fe_lag_obj T (lag_ssr ax rho') (lu rho') = Some ((T * n)%:R / 2%:R * ln (ssq u / (T * n)%:R) - ln (`|\det (1%:M - rho' *: W)| ^+ T)).
  rewrite /fe_lag_obj /np_log Ess (lu_jacob_def T (Hlu rho') D0).
  have -> : n%:R * T%:R = (T * n)%:R :> R by rewrite natrM mulrC.
  by rewrite divr_gt0 // ltr0n.
have Hle := Hmin _ _ Pr Hc.
apply: (@le_trans _ _ (gauss_loglik (`|\det (1%:M - rho' *: W)| ^+ T) u (ssq u / (T * n)%:R))).
  rewrite fe_lag_loglikE //; apply: gl_le => //.
  have -> : ssq (w_nt T (1%:M - rho' *: W) *m y - x *m b' - tile T mu') = \sum_t ssq (lag_resid y x W rho' b' mu' t).
    by rewrite -sum_ssq; apply: eq_bigr => t _; rewrite lag_residE.
  by rewrite lag_split // Hm -addrA ler_addl addr_ge0 ?utu_ge0 // mulr_ge0 ?ler0n ?utu_ge0.
by rewrite gl_eq ?exprn_gt0 ?normr_gt0 // El !ler_add2r ler_opp2.
Qed.
