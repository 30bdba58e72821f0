(** C81: invariance to unit effects, definedness, the pooled estimator, and what is reported wrongly. *)
From Coq Require Import Reals Ring Field.
From mathcomp Require Import all_ssreflect all_algebra.
From mathcomp.fingroup Require Import perm.
From Verif Require Import Rinst Mring LinRegModel LinRegProofs LinRegProofs2 FilterModel MLModel MLSpec MLProofs MLTheorems MLTheorems2 MLTheorems3 MLTheorems4 Kron
  PanelModel PanelTheorems PfeModel PfeSpec PfeTheorems PfeTheorems2 PfeTheorems3.
Set Implicit Arguments.
Unset Strict Implicit.
Unset Printing Implicit Defensive.
Import Order.TTheory GRing.Theory Num.Theory.
Local Open Scope ring_scope.

Lemma demean_shift T n c (a : 'M[R]_(T * n, c)) (m : 'M[R]_(n, c)) : (0 < T)%N -> demean_panel 0 (a + constant_units T m) = demean_panel 0 a.
Proof.
move=> T0; rewrite constantE !demean0.
have -> : unit_mean (a + tile T m) = unit_mean a + m.
  have -> : a + tile T m = a - (- tile T m) by rewrite opprK.
  rewrite unit_meanB; have -> : - tile T m = tile T (- m) by apply/matrixP => i j; rewrite !mxE.
  by rewrite tile_mean_tile // opprK.
by apply/matrixP => i j; rewrite !mxE -[RHS]addr0 -(subrr (m (pu i) j)) opprD addrACA.
Qed.

(** C81: adding a constant to y or to a regressor of any unit changes nothing but the unit effects. *)
Theorem C81_shift : forall T n k (y : 'cV[R]_(T * n)) (x : 'M[R]_(T * n, k)) (W : 'M[R]_n) (a : 'cV[R]_n) (c : 'M[R]_(n, k)) res eps mx adj, (0 < T)%N ->
  let y' := y + constant_units T a in let x' := x + constant_units T c in
  [/\ base_fe_lag y' x' W res eps mx = base_fe_lag y x W res eps mx,
      base_fe_err adj y' x' W res = base_fe_err adj y x W res
    & forall b, fe_mu_i y' x' b = fe_mu_i y x b + a - c *m b].
Proof.
move=> T n k y x W a c [rho fn] eps mx adj T0 y' x'.
have Ey : demean_panel 0 y' = demean_panel 0 y by exact: demean_shift.
have Ex : demean_panel 0 x' = demean_panel 0 x by exact: demean_shift.
split.
- rewrite /base_fe_lag Ey Ex; case: lag_aux_of => // ax; case: power_expansion => // p; case: la_inv => // ai.
  set b := la_b0 ax - _; set s2 := utu_of _ / _.
  have -> // : fe_lag_info x' (demean_panel 0 x) (demean_panel 0 x *m b) W ai s2 = fe_lag_info x (demean_panel 0 x) (demean_panel 0 x *m b) W ai s2.
  have := fe_lag_infoE x b W ai s2 T0; have := fe_lag_infoE x' b W ai s2 T0; rewrite Ex => -> -> //.
- by rewrite /base_fe_err Ey Ex.
- move=> b; rewrite /fe_mu_i /y' /x' !constantE mulmxDl -tile_lin.
  have -> : y + tile T a - (x *m b + tile T (c *m b)) = (y - x *m b) - tile T (c *m b - a).
    by apply/matrixP => i j; rewrite tileB !mxE; move: (\sum_q _) (\sum_q _) => s t; mring R_realFieldType.
  by rewrite unit_meanB tile_mean_tile // opprB addrA.
Qed.

(** C81: a regressor that does not vary over time makes both estimators fail (a singular matrix is inverted). *)
Theorem C81_time_invariant : forall T n k (y : 'cV[R]_(T * n)) (x : 'M[R]_(T * n, k)) (W : 'M[R]_n) (j : 'I_k) res eps mx adj,
  (forall s t i, period s x i j = period t x i j) -> base_fe_lag y x W res eps mx = None /\ base_fe_err adj y x W res = None.
Proof.
move=> T n k y x W j [rho fn] eps mx adj H.
have Z : demean_panel 0 x *m delta_mx j 0 = (0 : 'cV[R]_(T * n)).
  have -> : demean_panel 0 x *m (delta_mx j 0 : 'cV[R]_k) = demean_panel 0 (x *m delta_mx j 0) by rewrite /demean_panel mulmxA.
  apply: C41_time_invariant => s t i c; rewrite (ord1 c) -colE !mxE; by have := H s t i; rewrite !mxE.
have nz : (delta_mx j 0 : 'cV[R]_k) <> 0.
  by move/matrixP/(_ j 0); rewrite !mxE !eqxx => /eqP; rewrite oner_eq0.
have inv0 (X : 'M[R]_(T * n, k)) : X *m delta_mx j 0 = (0 : 'cV[R]_(T * n)) -> la_inv (X^T *m X) = None.
  move=> X0; case E: la_inv => [xi|//]; have [U _] := la_invP E; have := iffLR (gram_unit X) U _ X0; by move/nz.
split; rewrite /base_fe_lag /base_fe_err /lag_aux_of inv0 // mulmxBl -scalemxAl -mulmxA Z mulmx0 scaler0 subr0 //.
Qed.

(** C81 refuted for the effects of ML_LagFE: the reported mu_i are averages of y - x b and leave out the spatial lag; they are not the
    effects of the fitted model, and the log-likelihood at the reported effects is smaller than the reported one. *)
Theorem C81_lag_mu_refuted : forall T n k (y : 'cV[R]_(T * n)) (x : 'M[R]_(T * n, k)) (W U : 'M[R]_n) rho fn eps mx r ax, (0 < T)%N -> (0 < n)%N ->
  lag_aux_of (demean_panel 0 y) (demean_panel 0 x) (w_nt T W) = Some ax -> is_lu (1%:M - rho *: W) U ->
  fe_lag_obj T (lag_ssr ax rho) U = Some fn -> base_fe_lag y x W (rho, fn) eps mx = Some r ->
  fe_mu_i y x (ml_b r) = lag_mu y x W rho (ml_b r) + rho *: (W *m over_time y) /\
  (rho *: (W *m over_time y) != 0 -> fe_lag_loglik y x W (ml_b r) rho (fe_mu_i y x (ml_b r)) (ml_sig2 r) < ml_logll r).
Proof.
move=> T n k y x W U rho fn eps mx r ax T0 n0 Hax HU Hf Hr.
have [/= Er Eu Es _ Hm] := C81_lag_fit T0 Hr; have [L _] := C81_lag_loglik T0 n0 Hax HU Hf Hr.
rewrite !Er /= in Es Hm L.
have E : fe_mu_i y x (ml_b r) = lag_mu y x W rho (ml_b r) + rho *: (W *m over_time y).
  by rewrite err_muE // /err_mu /lag_mu addrAC subrK.
split=> // nz; rewrite L.
have N0 : 0 < (T * n)%:R :> R by rewrite ltr0n muln_gt0 T0 n0.
have [D0 s0] : \det (1%:M - rho *: W) != 0 /\ 0 < ml_sig2 r.
  move: Hf; rewrite /fe_lag_obj /np_log; case: ifP => // S0; case Ej: t_jacob => [j|//] _; have [D0 _] := lu_jacob HU Ej; split=> //.
  have Ess : lag_ssr ax rho = ssq (ml_u r).
    by move: Hr; rewrite /base_fe_lag Hax; case: power_expansion => [p|//]; case: la_inv => [ai|//]; case: la_inv => [v|//] [<-] /=; rewrite ssqE utuE.
  move: S0; rewrite Ess Es.
  have <- : ssq (ml_u r) = \sum_t ssq (lag_resid y x W rho (ml_b r) (lag_mu y x W rho (ml_b r)) t).
    by rewrite -sum_ssq; apply: eq_bigr => t _; rewrite Eu Er.
  by rewrite natrM mulrC [(T%:R * n%:R)%R]mulrC [X in _ -> 0 < X]mulrC.
rewrite /fe_lag_loglik /panel_loglik.
have -> mu : \sum_t ssq (period t y - rho *: (W *m period t y) - period t x *m ml_b r - mu) = \sum_t ssq (lag_resid y x W rho (ml_b r) mu t) by [].
rewrite ltr_add2l ltr_opp2 ltr_pmul2r ?invr_gt0 ?mulr_gt0 ?ltr0n //.
rewrite lt_neqAle; case: (Hm (ml_b r) (fe_mu_i y x (ml_b r))) => -> H; rewrite andbT; apply/negP => /eqP /esym /H [_].
by rewrite E => /eqP; rewrite addrC -subr_eq0 addrK (negbTE nz).
Qed.

(** C81 refuted for the deprecated Panel_FE_Lag and Panel_FE_Error: their concentrated functions have the sum of squares where the
    variance belongs.  The estimates are the same, the reported log-likelihood is too small by (n T / 2) ln(n T). *)
(* partial; missing: the log-likelihood of the deprecated classes differs by this constant (C81_old_lag_loglik_refuted) *)
Theorem C81_old_objective_partial : forall T n (S : R) (U : 'M[R]_n) f, (0 < T)%N -> (0 < n)%N ->
  fe_obj_ssr T S U = Some f <-> fe_lag_obj T S U = Some (f - (T * n)%:R / 2%:R * ln (T * n)%:R).
Proof.
move=> T n S U f T0 n0; have N0 : 0 < (T * n)%:R :> R by rewrite ltr0n muln_gt0 T0 n0.
rewrite /fe_obj_ssr /fe_lag_obj /np_log; have -> : n%:R * T%:R = (T * n)%:R :> R by rewrite natrM mulrC.
rewrite pmulr_lgt0 ?invr_gt0 //; have [S0|//] := boolP (0 < S); case: t_jacob => // j.
rewrite ln_split //; split=> [[<-]|[]].
  by congr Some; move: (ln S) (ln _) (_ / 2%:R) => a b c; mring R_realFieldType.
move: (ln S) (ln _) (_ / 2%:R) => a b c /eqP H; congr Some; apply/eqP; rewrite -subr_eq0; rewrite -subr_eq0 in H.
by rewrite -(eqP H); apply/eqP; mring R_realFieldType.
Qed.
Theorem C81_old_lag_loglik_refuted : forall T n k (y : 'cV[R]_(T * n)) (x : 'M[R]_(T * n, k)) (W U : 'M[R]_n) rho fn eps mx r ax, (0 < T)%N -> (0 < n)%N ->
  lag_aux_of (demean_panel 0 y) (demean_panel 0 x) (w_nt T W) = Some ax -> is_lu (1%:M - rho *: W) U ->
  fe_obj_ssr T (lag_ssr ax rho) U = Some fn -> base_fe_lag y x W (rho, fn) eps mx = Some r ->
  let L := fe_lag_loglik y x W (ml_b r) (ml_rho r) (lag_mu y x W (ml_rho r) (ml_b r)) (ml_sig2 r) in
  ml_logll r = L - (T * n)%:R / 2%:R * ln (T * n)%:R /\ ((1 < T * n)%N -> ml_logll r < L).
Proof.
move=> T n k y x W U rho fn eps mx r ax T0 n0 Hax HU Hf Hr L.
have Hf2 := iffLR (C81_old_objective_partial (lag_ssr ax rho) U fn T0 n0) Hf; set f2 := fn - _ in Hf2.
have [r2 [Hr2 E2]] : exists r2, base_fe_lag y x W (rho, f2) eps mx = Some r2 /\
  [/\ ml_b r2 = ml_b r, ml_rho r2 = ml_rho r, ml_sig2 r2 = ml_sig2 r & ml_logll r2 = ml_logll r + (T * n)%:R / 2%:R * ln (T * n)%:R].
  move: Hr; rewrite /base_fe_lag Hax; case: power_expansion => [p|//]; case: la_inv => [ai|//]; case: la_inv => [v|//] [<-] /=.
  eexists; split; [reflexivity|split=> //=]; rewrite /f2; move: (ln _) (ln _) (_ / 2%:R) => a b c; by mring R_realFieldType.
case: E2 => Eb Er Es El; have [L2 _] := C81_lag_loglik T0 n0 Hax HU Hf2 Hr2; move: L2; rewrite Eb Er Es -/L El => L2.
have E : ml_logll r = L - (T * n)%:R / 2%:R * ln (T * n)%:R by rewrite -L2 addrK.
split=> // H1; rewrite E ltr_subl_addr ltr_addl mulr_gt0 ?divr_gt0 ?ltr0n ?(ltn_trans _ H1) //.
by rewrite -ln1; apply: ln_lt_mono; rewrite ?ltr01 // ltr1n.
Qed.
Theorem C81_old_err_loglik_refuted : forall T n k (y : 'cV[R]_(T * n)) (x : 'M[R]_(T * n, k)) (W U : 'M[R]_n) lam fn r, (0 < T)%N -> (0 < n)%N ->
  zero_diag W -> is_lu (1%:M - lam *: W) U -> fe_err_obj y x W lam U = Some fn -> base_fe_err false y x W (lam, fn) = Some r ->
  let L := fe_err_loglik y x W (me_b r) (me_lam r) (fe_mu_i y x (me_b r)) (me_sig2 r) in
  me_logll r = L - (T * n)%:R / 2%:R * ln (T * n)%:R /\ ((1 < T * n)%N -> me_logll r < L).
Proof.
move=> T n k y x W U lam fn r T0 n0 Wd HU Hf Hr L.
have [r2 [Hr2 E2]] : exists r2, base_fe_err true y x W (lam, fn) = Some r2 /\
  [/\ me_b r2 = me_b r, me_lam r2 = me_lam r, me_sig2 r2 = me_sig2 r & me_logll r2 = me_logll r + (T * n)%:R / 2%:R * ln (T * n)%:R].
  by move: Hr; rewrite /base_fe_err; case: la_inv => [p|//]; case: la_inv => [ai|//]; case: la_inv => [v|//] [<-] /=; eexists; split.
case: E2 => Eb Er Es El; have [L2 _] := C81_err_loglik T0 n0 Wd HU Hf Hr2; move: L2; rewrite Eb Er Es -/L El => L2.
have E : me_logll r = L - (T * n)%:R / 2%:R * ln (T * n)%:R by rewrite -L2 addrK.
split=> // H1; rewrite E ltr_subl_addr ltr_addl mulr_gt0 ?divr_gt0 ?ltr0n ?(ltn_trans _ H1) //.
by rewrite -ln1; apply: ln_lt_mono; rewrite ?ltr01 // ltr1n.
Qed.

(** C81, pooled spatial error panel (no effects): the log-likelihood is that of T independent periods with common coefficients. *)
Theorem C81_pooled : forall T n k (y : 'cV[R]_(T * n)) (x : 'M[R]_(T * n, k)) (W : 'M[R]_n) (U : 'M[R]_(T * n)) lam ee fn r,
  (0 < T)%N -> (0 < n)%N -> zero_diag W -> substochastic W -> `|lam| < 1 ->
  err_ssr y x (w_nt T W *m y) (w_nt T W *m x) lam = Some ee -> is_lu (1%:M - lam *: w_nt T W) U -> c_loglik_sp ee U = Some fn ->
  base_pooled_err y x W (lam, fn) = Some r ->
  me_logll r = fe_err_loglik y x W (me_b r) (me_lam r) 0 (me_sig2 r) /\
  forall b' s2, 0 < s2 -> fe_err_loglik y x W b' (me_lam r) 0 s2 <= me_logll r.
Proof.
move=> T n k y x W U lam ee fn r T0 n0 Wd [W0 W1] l1 Hs [L [s [t [H1 H2 H3 H4]]]] Hf Hr.
have D0 := det_pos W0 W1 l1.
have ED lam' : \det (1%:M - lam' *: w_nt T W) = \det (1%:M - lam' *: W) ^+ T by rewrite -w_ntB det_kron1.
have Kd : zero_diag (w_nt T W) by move=> i; rewrite mxE Wd mulr0.
have DK : 0 < \det (1%:M - lam *: w_nt T W) by rewrite ED exprn_gt0.
have Hc : err_c_loglik y x (w_nt T W *m y) (w_nt T W *m x) lam (w_nt T W) = Some fn.
  by rewrite /err_c_loglik Hs -(C30_full_lu ee Kd H1 H2 H3 H4 DK).
have N0 : (0 < T * n)%N by rewrite muln_gt0 T0 n0.
have [E1 E2] := C29_err_loglik N0 Kd Hc Hr; have [Er _ _ _ _] := C29_err_fit Hr; rewrite /= in Er.
have EL b s2 : err_loglik y x (w_nt T W) b lam s2 = fe_err_loglik y x W b lam 0 s2.
  rewrite fe_err_loglikE ?gt_eqF // /err_loglik ED mulmx0; have -> : tile T (0 : 'cV[R]_n) = 0 by apply/matrixP => i j; rewrite !mxE.
  rewrite subr0 -w_ntB mulmxBr mulmxA /gauss_loglik !normrX normr_id //.
rewrite Er EL in E1; split; first by rewrite Er.
by move=> b' s2 s0; have := E2 b' s2 s0; rewrite Er EL.
Qed.
