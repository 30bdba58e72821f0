(** C29, C30: maximum likelihood spatial lag and error models. *)
From Coq Require Import Reals Ring Field.
From mathcomp Require Import all_ssreflect all_algebra.
From mathcomp.fingroup Require Import perm.
From mathcomp.real_closed Require Import complex.
From Verif Require Import Rinst Mring LinRegModel LinRegProofs LinRegProofs2 FilterModel MLModel MLSpec MLProofs.
Set Implicit Arguments.
Unset Strict Implicit.
Unset Printing Implicit Defensive.
Import Order.TTheory GRing.Theory Num.Theory.
Local Open Scope ring_scope.

(** C29, spatial lag: whatever rho the minimiser returned, the reported coefficients and residuals are those of the regression of
    (I - rho W) y on x, so that they minimise its sum of squares; the reported values fit together. *)
Theorem C29_lag_fit : forall n k (y : 'cV[R]_n) (x : 'M[R]_(n, k)) (W Winfo Wlag : 'M[R]_n) res eps mx r,
  base_ml_lag y x W Winfo Wlag res eps mx = Some r ->
  [/\ ml_rho r = res.1,
      ml_u r = (1%:M - ml_rho r *: W) *m y - x *m ml_b r,
      ml_predy r + ml_u r = y /\ ml_predy r = ml_rho r *: (W *m y) + x *m ml_b r,
      x^T *m ml_u r = 0 /\ ml_sig2 r = ssq (ml_u r) / n%:R
    & forall b', ssq (ml_u r) <= ssq ((1%:M - ml_rho r *: W) *m y - x *m b') /\
        (ssq ((1%:M - ml_rho r *: W) *m y - x *m b') = ssq (ml_u r) -> b' = ml_b r)].
Proof.
move=> n k y x W Winfo Wlag [rho fn] eps mx r; rewrite /base_ml_lag.
case E: lag_aux_of => [ax|//]; case: power_expansion => [p|//]; case: la_inv => [ai|//]; case: la_inv => [v|//] [<-] /=.
have [Hu Ho Hm] := lag_aux_fit rho E.
have Ux : x^T *m x \in unitmx by move: E; rewrite /lag_aux_of; case Ei: la_inv => [xi|//] _; case: (la_invP Ei).
set b := la_b0 ax - _ in Hu Hm *; set u := la_e0 ax - _ in Hu Ho Hm *.
split => //.
- split; first by rewrite subrK.
  by rewrite Hu mulmxBl mul1mx -scalemxAl !opprB addrC addrA subrK addrC.
- move=> b'; rewrite Hm; split; first by rewrite ler_addl utu_ge0.
  move/eqP; rewrite -subr_eq0 addrAC subrr add0r utu_eq0 => /eqP H0.
  by apply/eqP; rewrite -subr_eq0; apply/eqP; exact: (iffLR (gram_unit x) Ux).
Qed.

(** C29: the reported log-likelihood is the Gaussian log-likelihood at the reported estimates, and no other coefficients and variance
    give a larger one at the reported rho. *)
Theorem C29_lag_loglik : forall n k (y : 'cV[R]_n) (x : 'M[R]_(n, k)) (W Winfo Wlag : 'M[R]_n) rho fn eps mx r ax,
  (0 < n)%N -> zero_diag W -> lag_aux_of y x W = Some ax ->
  c_loglik_full (lag_ssr ax rho) rho W = Some fn ->
  base_ml_lag y x W Winfo Wlag (rho, fn) eps mx = Some r ->
  ml_logll r = lag_loglik y x W (ml_b r) (ml_rho r) (ml_sig2 r) /\
  forall b' s2, 0 < s2 -> lag_loglik y x W b' (ml_rho r) s2 <= ml_logll r.
Proof.
move=> n k y x W Winfo Wlag rho fn eps mx r ax n0 Wd Hax Hf Hr.
have [Er Eu _ [_ Es] Hm] := C29_lag_fit Hr; rewrite /= in Er.
have El : ml_logll r = - fn - n%:R / 2%:R * ln (2%:R * PI) - n%:R / 2%:R.
  move: Hr; rewrite /base_ml_lag Hax; case: power_expansion => [p|//]; case: la_inv => [ai|//]; case: la_inv => [v|//] [<-] //=.
have Ess : lag_ssr ax rho = ssq (ml_u r).
  move: Hr; rewrite /base_ml_lag Hax; case: power_expansion => [p|//]; case: la_inv => [ai|//]; case: la_inv => [v|//] [<-] /=.
  by rewrite ssqE utuE.
move: Hf; rewrite /c_loglik_full /np_log Ess a_ofE //; case: ifP => // S0; case: ifP => // D0 [Ef].
have {}S0 : 0 < ssq (ml_u r) by move: S0; rewrite pmulr_lgt0 // invr_gt0 ltr0n.
have L : ml_logll r = lag_loglik y x W (ml_b r) (ml_rho r) (ml_sig2 r).
  by rewrite /lag_loglik -Eu Es gl_eq // Er // El -Ef.
split=> // b' s2 s0; rewrite L /lag_loglik -Eu Es; apply: gl_le => //; by case: (Hm b').
Qed.

(** C29: if the minimiser found the minimum of the concentrated function over (-1, 1), the estimates maximise the full
    log-likelihood over all coefficients, all variances and all rho in (-1, 1).  W row standardised; no parameter gives an exact fit. *)
Theorem C29_lag_global : forall n k (y : 'cV[R]_n) (x : 'M[R]_(n, k)) (W Winfo Wlag : 'M[R]_n) rho fn eps mx r ax,
  (0 < n)%N -> zero_diag W -> substochastic W -> lag_aux_of y x W = Some ax ->
  (forall b' rho', `|rho'| < 1 -> (1%:M - rho' *: W) *m y - x *m b' != 0) ->
  c_loglik_full (lag_ssr ax rho) rho W = Some fn ->
  (forall rho' fn', `|rho'| < 1 -> c_loglik_full (lag_ssr ax rho') rho' W = Some fn' -> fn <= fn') ->
  base_ml_lag y x W Winfo Wlag (rho, fn) eps mx = Some r ->
  forall b' rho' s2, `|rho'| < 1 -> 0 < s2 ->
    lag_loglik y x W b' rho' s2 <= lag_loglik y x W (ml_b r) (ml_rho r) (ml_sig2 r).
Proof.
move=> n k y x W Winfo Wlag rho fn eps mx r ax n0 Wd [W0 W1] Hax Hne Hf Hmin Hr b' rho' s2 r1 s0.
have [<- _] := C29_lag_loglik n0 Wd Hax Hf Hr.
have El : ml_logll r = - fn - n%:R / 2%:R * ln (2%:R * PI) - n%:R / 2%:R.
  move: Hr; rewrite /base_ml_lag Hax; case: power_expansion => [p|//]; case: la_inv => [ai|//]; case: la_inv => [v|//] [<-] //=.
have [Eu Eo Hm] := lag_aux_fit rho' Hax; set b := la_b0 ax - _ in Eu Hm; set u := la_e0 ax - _ in Eu Eo Hm.
have Ess : lag_ssr ax rho' = ssq u by rewrite /lag_ssr ssqE utuE.
have S0 : 0 < ssq u by rewrite lt_def utu_ge0 utu_eq0 Eu Hne.
have D0 : 0 < \det (1%:M - rho' *: W) by exact: det_pos.
have Hc : c_loglik_full (lag_ssr ax rho') rho' W = Some (n%:R / 2%:R * ln (ssq u / n%:R) - ln (\det (1%:M - rho' *: W))).
  by rewrite /c_loglik_full /np_log Ess a_ofE // D0 divr_gt0 // ltr0n.
have Hle := Hmin _ _ r1 Hc.
apply: (@le_trans _ _ (gauss_loglik (\det (1%:M - rho' *: W)) u (ssq u / n%:R))).
  by apply: gl_le => //; rewrite Hm ler_addl utu_ge0.
by rewrite gl_eq // El !ler_add2r ler_opp2.
Qed.
(** the condition on exact fits and the row standardisation make the concentrated function finite over the whole range *)
Theorem C29_lag_concentrated_defined : forall n k (y : 'cV[R]_n) (x : 'M[R]_(n, k)) (W : 'M[R]_n) ax,
  (0 < n)%N -> zero_diag W -> substochastic W -> lag_aux_of y x W = Some ax ->
  forall rho, `|rho| < 1 ->
  (exists fn, c_loglik_full (lag_ssr ax rho) rho W = Some fn) <-> forall b', (1%:M - rho *: W) *m y - x *m b' != 0.
Proof.
move=> n k y x W ax n0 Wd [W0 W1] Hax rho r1.
have [Eu Eo Hm] := lag_aux_fit rho Hax.
have Ess : lag_ssr ax rho = ssq (la_e0 ax - rho *: la_e1 ax) by rewrite /lag_ssr ssqE utuE.
rewrite /c_loglik_full /np_log Ess a_ofE // (det_pos W0 W1 r1) pmulr_lgt0 ?invr_gt0 ?ltr0n //; split.
- case=> fn; case: ifP => // S0 _ b'; apply/eqP => H.
  have := Hm b'; rewrite H ssqE /utu_of big1 => [E|i _]; last by rewrite mxE expr0n.
  have : 0 < (0 : R) by rewrite [X in _ < X]E ltr_paddr // utu_ge0.
  by rewrite ltxx.
- move=> H; have -> : 0 < ssq (la_e0 ax - rho *: la_e1 ax) by rewrite lt_def utu_ge0 utu_eq0 Eu H.
  by eexists.
Qed.

Section Err.
Variables (n k : nat) (y : 'cV[R]_n) (x : 'M[R]_(n, k)) (W : 'M[R]_n).
Local Notation fy lam := (y - lam *: (W *m y)).
Local Notation fx lam := (x - lam *: (W *m x)).
Lemma err_resid lam b : (1%:M - lam *: W) *m (y - x *m b) = fy lam - fx lam *m b.
Proof. by rewrite mulmxBr !mulmxBl !mul1mx -!scalemxAl mulmxA. Qed.
Lemma err_ssr_ols lam S : err_ssr y x (W *m y) (W *m x) lam = Some S ->
  exists2 o, base_ols (fy lam) (fx lam) RobNone None true = Some o & S = ssq (o_u o).
Proof.
rewrite /err_ssr.
case E: la_inv => [xi|//] [<-]; have [U Exi] := la_invP E; exists (ols_of_xtxi (fy lam) (fx lam) RobNone None true xi).
  by rewrite /base_ols E.
rewrite ssqE utuE /=; set X := fx lam; set Y := fy lam; set b := xi *m (X^T *m Y).
have N : X^T *m (Y - X *m b) = 0 by rewrite mulmxBr /b !mulmxA Exi mulmxV // mul1mx subrr.
have -> : (Y - X *m b)^T *m (Y - X *m b) = Y^T *m (Y - X *m b).
  by rewrite {1}[(_ - _)^T]linearB /= mulmxBl trmx_mul -mulmxA N mulmx0 subr0.
have subE (A B : 'M[R]_1) : (A - B) 0 0 = A 0 0 - B 0 0 by rewrite mxE [X in _ + X]mxE.
by rewrite [Y^T *m (Y - _)]mulmxBr [in RHS]subE trmx_mul trmxK !mulmxA.
Qed.
End Err.

(** C29, spatial error: the reported coefficients minimise the sum of squares of (I - lam W)(y - x b) at the reported lam. *)
Theorem C29_err_fit : forall n k (y : 'cV[R]_n) (x : 'M[R]_(n, k)) (W Winfo : 'M[R]_n) res r,
  base_ml_err y x W Winfo W res = Some r ->
  let A := 1%:M - me_lam r *: W in
  [/\ me_lam r = res.1, me_u r = y - x *m me_b r /\ me_predy r + me_u r = y /\ me_predy r = x *m me_b r,
      me_efilt r = A *m me_u r, me_sig2 r = ssq (me_efilt r) / n%:R /\ (A *m x)^T *m me_efilt r = 0
    & forall b', ssq (me_efilt r) <= ssq (A *m (y - x *m b')) /\
        (ssq (A *m (y - x *m b')) = ssq (me_efilt r) -> b' = me_b r)].
Proof.
move=> n k y x W Winfo [lam fn] r; rewrite /base_ml_err.
case E: la_inv => [xi|//]; case: la_inv => [ai|//]; case: la_inv => [v|//] [<-] /=.
set X := x - lam *: (W *m x) in E *; set Y := y - lam *: (W *m y).
have H : base_ols Y X RobNone None true = Some (ols_of_xtxi Y X RobNone None true xi) by rewrite /base_ols E.
set b := xi *m (X^T *m Y).
have Eu2 : (1%:M - lam *: W) *m (y - x *m b) = Y - X *m b by exact: err_resid.
have Eu : (y - x *m b) - lam *: (W *m (y - x *m b)) = Y - X *m b by rewrite -Eu2 mulmxBl mul1mx -scalemxAl.
have Ex : (1%:M - lam *: W) *m x = X by rewrite mulmxBl mul1mx -scalemxAl.
rewrite Eu Ex; split => //.
- by split=> //; rewrite subrK; split=> //; rewrite opprB addrC subrK.
- by split; [rewrite ssqE utuE|exact: ols_orth H].
- move=> b'; rewrite err_resid -/X -/Y; have := ols_min b' H => /= Hm; rewrite !ssqE Hm; split; first by rewrite ler_addl utu_ge0.
  move/eqP; rewrite -subr_eq0 addrAC subrr add0r utu_eq0 => /eqP H0.
  by apply/eqP; rewrite -subr_eq0; apply/eqP; exact: (iffLR (gram_unit X) (ols_gram H)).
Qed.

Theorem C29_err_loglik : forall n k (y : 'cV[R]_n) (x : 'M[R]_(n, k)) (W Winfo : 'M[R]_n) lam fn r,
  (0 < n)%N -> zero_diag W -> err_c_loglik y x (W *m y) (W *m x) lam W = Some fn ->
  base_ml_err y x W Winfo W (lam, fn) = Some r ->
  me_logll r = err_loglik y x W (me_b r) (me_lam r) (me_sig2 r) /\
  forall b' s2, 0 < s2 -> err_loglik y x W b' (me_lam r) s2 <= me_logll r.
Proof.
move=> n k y x W Winfo lam fn r n0 Wd Hf Hr.
have [Er _ Ee [Es _] Hm] := C29_err_fit Hr; rewrite /= in Er.
have El : me_logll r = - fn - n%:R / 2%:R * ln (2%:R * PI) - n%:R / 2%:R.
  by move: Hr; rewrite /base_ml_err; case: la_inv => [xi|//]; case: la_inv => [ai|//]; case: la_inv => [v|//] [<-].
move: Hf; rewrite /err_c_loglik; case Eo: err_ssr => [S|//]; have [o Ho Es2] := err_ssr_ols Eo.
have Ess : S = ssq (me_efilt r).
  move: Hr; rewrite /base_ml_err; case Ei: la_inv => [xi|//]; case: la_inv => [ai|//]; case: la_inv => [v|//] [<-] /=.
  move: Ho; rewrite /base_ols Ei Es2 => -[<-] /=; congr ssq.
  set b := xi *m _; by rewrite -(err_resid y x W lam b) mulmxBl mul1mx -scalemxAl.
rewrite /c_loglik_full /np_log Ess a_ofE //; case: ifP => // S0; case: ifP => // D0 [Ef].
have {}S0 : 0 < ssq (me_efilt r) by move: S0; rewrite pmulr_lgt0 // invr_gt0 ltr0n.
have Eb : me_u r = y - x *m me_b r by case: (C29_err_fit Hr) => _ [].
have L : me_logll r = err_loglik y x W (me_b r) (me_lam r) (me_sig2 r).
  by rewrite /err_loglik -Eb -Ee Es gl_eq // Er // El -Ef.
split=> // b' s2 s0; rewrite L /err_loglik -Eb -Ee Es; apply: gl_le => //; by case: (Hm b').
Qed.

Theorem C29_err_global : forall n k (y : 'cV[R]_n) (x : 'M[R]_(n, k)) (W Winfo : 'M[R]_n) lam fn r,
  (0 < n)%N -> zero_diag W -> substochastic W -> (forall c : 'cV[R]_k, x *m c = 0 -> c = 0) ->
  (forall b', y - x *m b' != 0) ->
  err_c_loglik y x (W *m y) (W *m x) lam W = Some fn ->
  (forall lam' fn', `|lam'| < 1 -> err_c_loglik y x (W *m y) (W *m x) lam' W = Some fn' -> fn <= fn') ->
  base_ml_err y x W Winfo W (lam, fn) = Some r ->
  forall b' lam' s2, `|lam'| < 1 -> 0 < s2 ->
    err_loglik y x W b' lam' s2 <= err_loglik y x W (me_b r) (me_lam r) (me_sig2 r).
Proof.
move=> n k y x W Winfo lam fn r n0 Wd [W0 W1] Hx Hne Hf Hmin Hr b' lam' s2 l1 s0.
have [<- _] := C29_err_loglik n0 Wd Hf Hr.
have El : me_logll r = - fn - n%:R / 2%:R * ln (2%:R * PI) - n%:R / 2%:R.
  by move: Hr; rewrite /base_ml_err; case: la_inv => [xi|//]; case: la_inv => [ai|//]; case: la_inv => [v|//] [<-].
have UA := dominance W0 W1 l1.
set X := x - lam' *: (W *m x).
have EX : X = (1%:M - lam' *: W) *m x by rewrite mulmxBl mul1mx -scalemxAl.
have UX : X^T *m X \in unitmx.
  by apply/gram_unit => c; rewrite EX -mulmxA => H; apply: Hx; move: H; apply: (iffLR (unitmx_inj _)).
have [S HS] : exists S, err_ssr y x (W *m y) (W *m x) lam' = Some S by rewrite /err_ssr -/X la_inv_unit //; eexists.
have [o Ho Es] := err_ssr_ols HS.
have [_ _ Po Uo _] := ols_fields Ho.
have Eu : o_u o = (1%:M - lam' *: W) *m (y - x *m o_betas o) by rewrite err_resid Uo Po.
have S0 : 0 < ssq (o_u o).
  rewrite lt_def utu_ge0 utu_eq0 andbT Eu; apply/eqP => H0; have := Hne (o_betas o); move/eqP; apply; exact: (iffLR (unitmx_inj _) UA).
have D0 : 0 < \det (1%:M - lam' *: W) by exact: det_pos.
have Hc : err_c_loglik y x (W *m y) (W *m x) lam' W = Some (n%:R / 2%:R * ln (ssq (o_u o) / n%:R) - ln (\det (1%:M - lam' *: W))).
  by rewrite /err_c_loglik HS /c_loglik_full /np_log Es a_ofE // D0 divr_gt0 // ltr0n.
have Hle := Hmin _ _ l1 Hc.
apply: (@le_trans _ _ (gauss_loglik (\det (1%:M - lam' *: W)) (o_u o) (ssq (o_u o) / n%:R))).
  by apply: gl_le => //; rewrite err_resid !ssqE (ols_min b' Ho) ler_addl utu_ge0.
by rewrite gl_eq // El !ler_add2r ler_opp2.
Qed.
