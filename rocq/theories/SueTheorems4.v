(** C85: the GM estimator of seemingly unrelated regressions with spatial errors. *)
From Coq Require Import Reals.
From mathcomp Require Import all_ssreflect all_algebra.
From Verif Require Import Rinst Mring LinRegModel LinRegProofs LinRegProofs2 FilterModel MLModel MLSpec MLProofs MLTheorems Kron SurModel
  SurTheorems SueModel SueSpec SueProofs SueTheorems SueTheorems3.
Set Implicit Arguments.
Unset Strict Implicit.
Unset Printing Implicit Defensive.
Import Order.TTheory GRing.Theory Num.Theory.
Local Open Scope ring_scope.

Section Gm.
Variables (G n : nat) (K : 'I_G -> nat) (y : 'I_G -> 'cV[R]_n) (X : forall r, 'M[R]_(n, K r)) (W : 'M[R]_n) (optim : 'M[R]_3 * 'cV[R]_3 -> R).
Implicit Types (b : forall r, 'cV[R]_(K r)) (E : 'M[R]_(n, G)).
Lemma moments_eq (U : 'M[R]_(n, G)) r : sue_moments W U r = moments_gm_error (R := R_realFieldType) W (col r U).
Proof.
have D (A B : 'M[R]_(n, G)) : \sum_i A i r * B i r = dot (R := R_realFieldType) (col r A) (col r B).
  by rewrite /dot mxE; apply: eq_bigr => i _; rewrite !mxE.
have C (A : 'M[R]_(n, G)) : col r (W *m A) = W *m col r A by rewrite !colE mulmxA.
have S (a c : 'cV[R]_n) : dot (R := R_realFieldType) a c = dot (R := R_realFieldType) c a.
  by rewrite /dot !mxE; apply: eq_bigr => i _; rewrite !mxE mulrC.
have T : \sum_i \sum_j W i j * W i j = \sum_i (W^T *m W) i i.
  by rewrite exchange_big; apply: eq_bigr => i _; rewrite mxE; apply: eq_bigr => j _; rewrite mxE.
by rewrite /sue_moments /moments_gm_error !D !C T [dot (W *m (W *m col r U)) (W *m col r U)]S.
Qed.
Lemma sur_ols_gm b r o : sur_ols X y = Some b -> base_ols (R := R_realFieldType) (y r) (X r) RobNone None true = Some o -> col r (sur_resids y X b) = o_u o.
Proof.
rewrite /sur_ols; case: ifP => // /forallP U [<-] H; rewrite resid_col; have [_ _ P -> _] := ols_fields H; rewrite P; congr (_ - _ *m _).
have N := ols_normal H; by rewrite /crossXy -N mulKmx.
Qed.
(** ** C85_gm: each equation's spatial coefficient is the one GM_Error gives it alone; the coefficients are generalised least squares on the
    filtered data; with uncorrelated filtered residuals they are GM_Error's as well *)
Theorem C85_gm : forall s, base_sue_gm optim y X W = Some s ->
  let f b r := (1%:M - sg_lam s r 0 *: W) *m (y r - X r *m b r) in
  let Q b := \sum_r \sum_t invmx (sg_sig s) r t * ((f b r)^T *m f b t) 0 0 in
  [/\ forall r g, base_gm_error (R := R_realFieldType) optim (y r) (X r) W = Some g ->
        sg_lam s r 0 = ge_lambda g /\ ((forall t u, t != u -> sg_sig s t u = 0) -> sg_b s r = ge_betas g),
      (exists bo, [/\ sur_ols X y = Some bo & forall r t, sg_sig s r t = ((f bo r)^T *m f bo t) 0 0 / n%:R]),
      pd (sg_sig s) /\ pd (sg_varb s),
      forall b, Q (sg_b s) <= Q b /\ (Q b = Q (sg_b s) -> forall r, b r = sg_b s r)
    & (forall i r, sg_E s i r = (y r - X r *m sg_b s r) i 0) /\
      sg_varb s = invmx (\mxblock_(i, j) (invmx (sg_sig s) i j *: (((1%:M - sg_lam s i 0 *: W) *m X i)^T *m ((1%:M - sg_lam s j 0 *: W) *m X j))))].
Proof.
move=> s; rewrite /base_sue_gm; case Eo: sur_ols => [bo|//]; case Ee: sue_est => [e|//] [<-] /=; cbv zeta.
set lam := \col_r _ in Ee *; have [Es PS] := sue_est_sig Ee.
have F b r : resid (fun r => X r - lam r 0 *: (W *m X r)) (fun r => y r - lam r 0 *: (W *m y r)) b r = (1%:M - lam r 0 *: W) *m (y r - X r *m b r).
  by rewrite fcol sue_filterE resid_col.
split.
- move=> r g; rewrite /base_gm_error; case E1: base_ols => [o1|//]; case E2: base_ols => [o2|//] [<-] /=.
  have L : lam r 0 = optim (moments_gm_error W (o_u o1)) by rewrite mxE moments_eq (sur_ols_gm Eo E1).
  split=> // D; have [N _] := C46_diagonal Ee D; have := N r; rewrite /ols_eq -L in E2 *.
  have N2 := ols_normal E2; have U : (sp_filter (R := R_realFieldType) W (lam r 0) (X r))^T *m sp_filter (R := R_realFieldType) W (lam r 0) (X r) \in unitmx.
    by move: E2; rewrite /base_ols; case I: la_inv => [B|//] _; case: (la_invP I).
  rewrite mulmxBr mulmxA -/(sp_filter _ _ _) -/(sp_filter _ _ _) => /eqP; rewrite subr_eq0 => /eqP N1.
  by rewrite -[LHS](mulKmx U) -[RHS](mulKmx U) N2 N1.
- exists bo; split=> // r t; rewrite Es /sS mxE mulrC; congr (_ / _).
  by rewrite -!F !fcol !mxE; apply: eq_bigr => i _; rewrite !mxE.
- by rewrite Es; split=> //; exact: (C46_varb Ee).
- move=> b; have [m1 m2] := C46_minimum Ee b.
  have Q b' : \sum_r \sum_t invmx (e_sig e) r t * (((1%:M - lam r 0 *: W) *m (y r - X r *m b' r))^T *m ((1%:M - lam t 0 *: W) *m (y t - X t *m b' t))) 0 0 =
      objective (fun r => X r - lam r 0 *: (W *m X r)) (fun r => y r - lam r 0 *: (W *m y r)) (invmx (e_sig e)) b'.
    by apply: eq_bigr => r _; apply: eq_bigr => t _; rewrite !F.
  by rewrite !Q.
- by split=> [i r|]; [rewrite mxE|exact: sue_est_varb Ee].
Qed.
End Gm.
