(** C81, spatial error panel with fixed effects; pooled spatial error panel. *)
From Coq Require Import Reals Ring Field.
From mathcomp Require Import all_ssreflect all_algebra.
From mathcomp.fingroup Require Import perm.
From Verif Require Import Rinst Mring LinRegModel LinRegProofs LinRegProofs2 FilterModel MLModel MLSpec MLProofs MLTheorems Kron PanelModel PanelTheorems
  PfeModel PfeSpec PfeTheorems.
Set Implicit Arguments.
Unset Strict Implicit.
Unset Printing Implicit Defensive.
Import Order.TTheory GRing.Theory Num.Theory.
Local Open Scope ring_scope.

Lemma le3 (a b c : R) : 0 <= b -> 0 <= c -> a <= a + b + c.
Proof. by move=> b0 c0; rewrite -addrA ler_addl addr_ge0. Qed.
Lemma eq3 (a b c : R) : 0 <= b -> 0 <= c -> a + b + c = a -> b = 0 /\ c = 0.
Proof.
move=> b0 c0 /eqP; rewrite -addrA -subr_eq0 addrAC subrr add0r paddr_eq0 // => /andP [/eqP -> /eqP ->] //.
Qed.
Section Err.
Variables (T n k : nat) (y : 'cV[R]_(T * n)) (x : 'M[R]_(T * n, k)) (W : 'M[R]_n).
Hypothesis T0 : (0 < T)%N.
Local Notation A lam := (w_nt T (1%:M - lam *: W)).
Local Notation yd := (demean_panel 0 y).
Local Notation xd := (demean_panel 0 x).
(** the filtered residuals of period t of the model with unit effects *)
Definition err_residF lam b mu (t : 'I_T) : 'cV[R]_n := let u := period t y - period t x *m b - mu in u - lam *: (W *m u).
(** the effects that maximise the likelihood given b *)
Definition err_mu (b : 'cV[R]_k) : 'cV[R]_n := over_time y - over_time x *m b.
Lemma err_muE b : fe_mu_i y x b = err_mu b.
Proof. by rewrite /fe_mu_i /err_mu !over_timeE unit_meanB unit_mean_lin. Qed.
Lemma err_residE lam b mu t : err_residF lam b mu t = period t (A lam *m y - (A lam *m x) *m b - tile T ((1%:M - lam *: W) *m mu)).
Proof.
have -> : A lam *m y - (A lam *m x) *m b - tile T ((1%:M - lam *: W) *m mu) = A lam *m (y - x *m b - tile T mu).
  by rewrite !mulmxBr mulmxA w_tile.
rewrite period_w /err_residF.
have -> : period t (y - x *m b - tile T mu) = period t y - period t x *m b - mu.
  have -> : period t x *m b = period t (x *m b) by apply/matrixP => a c; rewrite !mxE; apply: eq_bigr => q _; rewrite mxE.
  by apply/matrixP => a c; rewrite !mxE pu_pix.
by rewrite mulmxBl mul1mx -scalemxAl.
Qed.
Lemma err_sum lam b mu : \sum_t ssq (err_residF lam b mu t) = ssq (A lam *m y - (A lam *m x) *m b - tile T ((1%:M - lam *: W) *m mu)).
Proof. by rewrite -sum_ssq; apply: eq_bigr => t _; rewrite err_residE. Qed.
Lemma err_split lam b mu : \sum_t ssq (err_residF lam b mu t) =
  ssq (A lam *m (yd - xd *m b)) + T%:R * ssq ((1%:M - lam *: W) *m (err_mu b - mu)).
Proof.
rewrite err_sum !ssqE fe_split // -!demean0 !demean_w [w_nt _ _ *m (yd - _)]mulmxBr [w_nt _ _ *m (xd *m _)]mulmxA; congr (_ + _ * utu_of _).
by rewrite !mean_w /err_mu !over_timeE -mulmxA -!mulmxBr.
Qed.
Lemma err_split0 lam b : \sum_t ssq (err_residF lam b (err_mu b) t) = ssq (A lam *m (yd - xd *m b)).
Proof. by rewrite err_split subrr mulmx0 ssq0 mulr0 addr0. Qed.
End Err.

(** C81: the reported coefficients of the fixed effects spatial error panel and the reported unit effects mu_i minimise the sum of
    squares of the filtered residuals (I - lam W)(y_t - x_t b - mu) at the reported lam, and are the only ones to do so. *)
Theorem C81_err_fit : forall T n k (y : 'cV[R]_(T * n)) (x : 'M[R]_(T * n, k)) (W : 'M[R]_n) adj res r, (0 < T)%N -> zero_diag W ->
  base_fe_err adj y x W res = Some r ->
  let lam := me_lam r in let b := me_b r in let mu := fe_mu_i y x b in
  [/\ lam = res.1, forall t, period t (me_u r) = period t y - period t x *m b - mu,
      forall t, period t (me_efilt r) = err_residF y x W lam b mu t,
      me_sig2 r = (\sum_t ssq (err_residF y x W lam b mu t)) / (T * n)%:R /\ me_predy r + me_u r = y - constant_units T (over_time y)
    & forall b' mu', \sum_t ssq (err_residF y x W lam b mu t) <= \sum_t ssq (err_residF y x W lam b' mu' t) /\
        (\sum_t ssq (err_residF y x W lam b' mu' t) = \sum_t ssq (err_residF y x W lam b mu t) -> b' = b /\ mu' = mu)].
Proof.
move=> T n k y x W adj [lam fn] r T0 Wd; rewrite /base_fe_err.
case E: la_inv => [xi|//]; case E2: la_inv => [ai|//]; case: la_inv => [v|//] [<-] /=.
have UA : 1%:M - lam *: W \in unitmx by case: (la_invP E2); rewrite a_ofE.
set yd := demean_panel 0 y in E *; set xd := demean_panel 0 x in E *.
set X := xd - lam *: (w_nt T W *m xd) in E *; set Y := yd - lam *: (w_nt T W *m yd).
have H : base_ols Y X RobNone None true = Some (ols_of_xtxi Y X RobNone None true xi) by rewrite /base_ols E.
set b := xi *m (X^T *m Y); rewrite err_muE //.
have Eu b' : w_nt T (1%:M - lam *: W) *m (yd - xd *m b') = Y - X *m b' by rewrite w_ntB; exact: err_resid.
have Ef : (yd - xd *m b) - lam *: (w_nt T W *m (yd - xd *m b)) = Y - X *m b by rewrite -Eu w_ntB mulmxBl mul1mx -scalemxAl.
have S0 : \sum_t ssq (err_residF y x W lam b (err_mu y x b) t) = ssq (Y - X *m b) by rewrite err_split0 // Eu.
have Eud : forall t, period t (yd - xd *m b) = period t y - period t x *m b - err_mu y x b.
  move=> t; rewrite /yd /xd !demean0 /err_mu !over_timeE mulmxBl -tile_lin.
  have -> : period t x *m b = period t (x *m b) by apply/matrixP => a c; rewrite !mxE; apply: eq_bigr => q _; rewrite mxE.
  apply/matrixP => i j; rewrite ![period _ _ _ _]mxE [RHS]mxE.
  move: (x *m b) (unit_mean x *m b) => xb ub; rewrite !mxE pu_pix.
  by move: (y _ _) (xb _ _) (ub _ _) (_ / _) => a' c' d' e'; mring R_realFieldType.
rewrite Ef S0; split=> //.
- move=> t; rewrite /err_residF -Eud -Ef.
  have -> : period t (yd - xd *m b - lam *: (w_nt T W *m (yd - xd *m b))) =
    period t (yd - xd *m b) - lam *: period t (w_nt T W *m (yd - xd *m b)) by apply/matrixP => i j; rewrite !mxE.
  by rewrite period_w.
- by split; [rewrite ssqE utuE|rewrite subrK /yd demean0 constantE over_timeE].
- move=> b' mu'; rewrite err_split // Eu; have := ols_min b' H => /=; rewrite -/b => Hm; rewrite !ssqE Hm; split.
    by apply: le3; rewrite ?mulr_ge0 ?ler0n ?utu_ge0.
  move=> H3; have [] := eq3 _ _ H3; rewrite ?mulr_ge0 ?ler0n ?utu_ge0 // => /eqP + /eqP.
  rewrite mulf_eq0 pnatr_eq0 -[T == 0%N]negbK -lt0n T0 /=.
  rewrite !utu_eq0 => /eqP H0 /eqP H1.
  have Eb : b' = b by apply/eqP; rewrite -subr_eq0; apply/eqP; exact: (iffLR (gram_unit X) (ols_gram H)).
  split=> //; apply/esym/eqP; rewrite -subr_eq0 -Eb; apply/eqP; exact: (iffLR (unitmx_inj _) UA).
Qed.

Lemma fe_err_loglikE T n k (y : 'cV[R]_(T * n)) (x : 'M[R]_(T * n, k)) (W : 'M[R]_n) b lam mu s2 : \det (1%:M - lam *: W) != 0 ->
  fe_err_loglik y x W b lam mu s2 = gauss_loglik (`|\det (1%:M - lam *: W)| ^+ T)
    (w_nt T (1%:M - lam *: W) *m y - (w_nt T (1%:M - lam *: W) *m x) *m b - tile T ((1%:M - lam *: W) *m mu)) s2.
Proof. by move=> D; rewrite /fe_err_loglik; apply: panel_gauss => // t; rewrite -err_residE. Qed.

Lemma ln_split (S N : R) : 0 < S -> 0 < N -> ln (S / N) = ln S - ln N.
Proof. by move=> S0 N0; rewrite lnM ?invr_gt0 // lnV. Qed.

Lemma fe_err_core T n k (y : 'cV[R]_(T * n)) (x : 'M[R]_(T * n, k)) (W U : 'M[R]_n) lam fn adj r : (0 < T)%N -> (0 < n)%N ->
  zero_diag W -> is_lu (1%:M - lam *: W) U -> fe_err_obj y x W lam U = Some fn -> base_fe_err adj y x W (lam, fn) = Some r ->
  [/\ \det (1%:M - lam *: W) != 0, 0 < ssq (me_efilt r), me_lam r = lam,
      fn = (T * n)%:R / 2%:R * ln (ssq (me_efilt r)) - ln (`|\det (1%:M - lam *: W)| ^+ T)
    & me_logll r = - fn - (T * n)%:R / 2%:R * ln (2%:R * PI) - (T * n)%:R / 2%:R + (if adj then (T * n)%:R / 2%:R * ln (T * n)%:R else 0)].
Proof.
move=> T0 n0 Wd HU Hf Hr.
have El : me_logll r = - fn - (T * n)%:R / 2%:R * ln (2%:R * PI) - (T * n)%:R / 2%:R + (if adj then (T * n)%:R / 2%:R * ln (T * n)%:R else 0).
  by move: Hr; rewrite /base_fe_err; case: la_inv => [xi|//]; case: la_inv => [ai|//]; case: la_inv => [v|//] [<-] /=; case: adj; rewrite ?addr0.
move: Hf; rewrite /fe_err_obj; case Eo: err_ssr => [S|//]; have [o Ho Es2] := err_ssr_ols Eo.
have Ess : S = ssq (me_efilt r).
  move: Hr; rewrite /base_fe_err; case Ei: la_inv => [xi|//]; case: la_inv => [ai|//]; case: la_inv => [v|//] [<-] /=.
  move: Ho; rewrite /base_ols Ei Es2 => -[<-] /=; congr ssq.
  set b := xi *m _; by rewrite -(err_resid _ _ _ lam b) mulmxBl mul1mx -scalemxAl.
rewrite /fe_obj_ssr /np_log Ess.
have -> : n%:R * T%:R = (T * n)%:R :> R by rewrite natrM mulrC.
case: ifP => // S0; case Ej: t_jacob => [j|//] [Ef]; have [D0 Hj] := lu_jacob HU Ej.
have [/= Er _ _ _ _] := C81_err_fit T0 Wd Hr; by split=> //; rewrite -Ef Hj.
Qed.

(** C81: the log-likelihood reported by ML_ErrorFE is the Gaussian log-likelihood of the model with unit effects at the reported
    estimates, and no other coefficients, effects and variance give a larger one at the reported lam. *)
Theorem C81_err_loglik : forall T n k (y : 'cV[R]_(T * n)) (x : 'M[R]_(T * n, k)) (W U : 'M[R]_n) lam fn r, (0 < T)%N -> (0 < n)%N ->
  zero_diag W -> is_lu (1%:M - lam *: W) U -> fe_err_obj y x W lam U = Some fn -> base_fe_err true y x W (lam, fn) = Some r ->
  me_logll r = fe_err_loglik y x W (me_b r) (me_lam r) (fe_mu_i y x (me_b r)) (me_sig2 r) /\
  forall b' mu' s2, 0 < s2 -> fe_err_loglik y x W b' (me_lam r) mu' s2 <= me_logll r.
Proof.
move=> T n k y x W U lam fn r T0 n0 Wd HU Hf Hr.
have [D0 S0 Er Ef El] := fe_err_core T0 n0 Wd HU Hf Hr.
have [/= _ _ Ee [Es _] Hm] := C81_err_fit T0 Wd Hr; move: Hm Es Ee; rewrite !Er => Hm Es Ee.
have N0 : (0 < T * n)%N by rewrite muln_gt0 T0 n0.
have Su : \sum_t ssq (err_residF y x W lam (me_b r) (fe_mu_i y x (me_b r)) t) = ssq (me_efilt r).
  by rewrite -sum_ssq; apply: eq_bigr => t _; rewrite Ee.
have L : me_logll r = fe_err_loglik y x W (me_b r) lam (fe_mu_i y x (me_b r)) (me_sig2 r).
  rewrite fe_err_loglikE // Es Su; rewrite err_sum in Su; rewrite -Su gl_eq ?Su // ?exprn_gt0 ?normr_gt0 //.
  rewrite ln_split ?ltr0n // El Ef; move: (ln (ssq _)) (ln (_ ^+ T)) (ln (2%:R * _)) (ln (T * n)%:R) (_ / 2%:R) => a b c d e.
  by mring R_realFieldType.
split=> // b' mu' s2 s0; rewrite L !fe_err_loglikE // Es err_sum; rewrite err_sum in Su.
by apply: gl_le => //; rewrite ?Su // -Su -!err_sum; case: (Hm b' mu').
Qed.

Theorem C81_err_global : forall T n k (y : 'cV[R]_(T * n)) (x : 'M[R]_(T * n, k)) (W : 'M[R]_n) (lu : R -> 'M[R]_n) (P : R -> Prop) lam fn r,
  (0 < T)%N -> (0 < n)%N -> zero_diag W -> (forall lam', is_lu (1%:M - lam' *: W) (lu lam')) ->
  (forall lam', P lam' -> \det (1%:M - lam' *: W) != 0) ->
  (forall b' mu', exists t, period t y - period t x *m b' - mu' != 0) -> (forall c : 'cV[R]_k, demean_panel 0 x *m c = 0 -> c = 0) ->
  fe_err_obj y x W lam (lu lam) = Some fn ->
  (forall lam' fn', P lam' -> fe_err_obj y x W lam' (lu lam') = Some fn' -> fn <= fn') ->
  base_fe_err true y x W (lam, fn) = Some r ->
  forall b' lam' mu' s2, P lam' -> 0 < s2 ->
    fe_err_loglik y x W b' lam' mu' s2 <= fe_err_loglik y x W (me_b r) (me_lam r) (fe_mu_i y x (me_b r)) (me_sig2 r).
Proof.
move=> T n k y x W lu P lam fn r T0 n0 Wd Hlu PD Hne Hx Hf Hmin Hr b' lam' mu' s2 Pl s0.
have [<- _] := C81_err_loglik T0 n0 Wd (Hlu lam) Hf Hr.
have [_ _ _ _ El] := fe_err_core T0 n0 Wd (Hlu lam) Hf Hr.
have N0 : (0 < T * n)%N by rewrite muln_gt0 T0 n0.
have D0 := PD _ Pl; have UA : 1%:M - lam' *: W \in unitmx by rewrite unitmxE unitfE.
have UK : w_nt T (1%:M - lam' *: W) \in unitmx by case: (kron_unit (unitmx1 _ T) UA).
set yd := demean_panel 0 y; set xd := demean_panel 0 x.
set X := xd - lam' *: (w_nt T W *m xd); set Y := yd - lam' *: (w_nt T W *m yd).
have EX : X = w_nt T (1%:M - lam' *: W) *m xd by rewrite w_ntB mulmxBl mul1mx -scalemxAl.
have UX : X^T *m X \in unitmx.
  by apply/gram_unit => c; rewrite EX -mulmxA => H; apply: Hx; move: H; apply: (iffLR (unitmx_inj _)).
have [S HS] : exists S, err_ssr yd xd (w_nt T W *m yd) (w_nt T W *m xd) lam' = Some S by rewrite /err_ssr -/X la_inv_unit //; eexists.
have [o Ho Es] := err_ssr_ols HS.
have [_ _ Po Uo _] := ols_fields Ho.
have Eu : o_u o = w_nt T (1%:M - lam' *: W) *m (yd - xd *m o_betas o) by rewrite w_ntB err_resid Uo Po.
have S0 : 0 < ssq (o_u o).
  rewrite lt_def utu_ge0 utu_eq0 andbT Eu; apply/eqP => H0.
  have [t] := Hne (o_betas o) (err_mu y x (o_betas o)).
  have {}H0 : yd - xd *m o_betas o = 0 by exact: (iffLR (unitmx_inj _) UK).
  have := err_split0 y x W T0 0 (o_betas o); rewrite H0 mulmx0 ssq0 => /eqP; rewrite psumr_eq0 => [|s _]; last exact: utu_ge0.
  by move/allP/(_ t (mem_index_enum _)) => /=; rewrite ssqE utu_eq0 /err_residF scale0r subr0 => ->.
have Hc : fe_err_obj y x W lam' (lu lam') = Some ((T * n)%:R / 2%:R * ln (ssq (o_u o)) - ln (`|\det (1%:M - lam' *: W)| ^+ T)).
  rewrite /fe_err_obj HS /fe_obj_ssr /np_log Es S0 (lu_jacob_def T (Hlu lam') D0).
  by have -> : n%:R * T%:R = (T * n)%:R :> R by rewrite natrM mulrC.
have Hle := Hmin _ _ Pl Hc.
apply: (@le_trans _ _ (gauss_loglik (`|\det (1%:M - lam' *: W)| ^+ T) (o_u o) (ssq (o_u o) / (T * n)%:R))).
  rewrite fe_err_loglikE //; apply: gl_le => //; rewrite -err_sum err_split // -/yd -/xd w_ntB err_resid -/X -/Y !ssqE (ols_min b' Ho).
  by apply: le3; rewrite ?mulr_ge0 ?ler0n ?utu_ge0.
rewrite gl_eq ?exprn_gt0 ?normr_gt0 // El ln_split ?ltr0n //.
move: Hle; move: (ln (ssq _)) (ln (_ ^+ T)) (ln (2%:R * _)) (ln (T * n)%:R) (_ / 2%:R) => a b c d e.
rewrite -subr_ge0 => Hle; rewrite -subr_ge0; apply: le_trans Hle _; rewrite le_eqVlt; apply/orP; left; apply/eqP; by mring R_realFieldType.
Qed.
