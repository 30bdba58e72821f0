(** C50: what the impacts mean; cases where the coefficients are mixed up.  C72: observation-level multipliers. *)
From Coq Require Import Strings.String.
From mathcomp Require Import all_ssreflect all_algebra.
From Verif Require Import LinRegModel LinRegProofs MultModel MultTheorems MultTheorems2 MultTheorems3.
Set Implicit Arguments.
Unset Strict Implicit.
Unset Printing Implicit Defensive.
Import Order.TTheory GRing.Theory Num.Theory.
Local Open Scope ring_scope.

Section Meaning.
Variable R : realFieldType.
(** the matrix of partial effects of one variable in the model y = rho W y + b x + sum_l g_l W^l x + ...: d y_i / d x_j *)
Definition partial_effects n (W : 'M[R]_n) (rho b : R) (g : nat -> R) (lags : nat) : 'M[R]_n :=
  reduced W rho *m (b *: 1%:M + \sum_(0 <= l < lags) g l *: mpw W l.+1).

(** ** C50_total_effect: the total effect reported (total multiplier times b + sum of the lag coefficients) is the average over i of the sum over j of the
    partial effects *)
Theorem C50_total_effect : forall n (W : 'M[R]_n.+1) rho b g lags, row_std W -> rho != 1 -> 1%:M - rho *: W \in unitmx ->
  avg_rowsum (partial_effects W rho b g lags) = 1 / (1 - rho) * (b + \sum_(0 <= l < lags) g l).
Proof.
move=> n W rho b g lags st r1 U; pose one := const_mx 1 : 'cV[R]_n.+1.
have E : partial_effects W rho b g lags *m one = ((1 - rho)^-1 * (b + \sum_(0 <= l < lags) g l)) *: one.
  have S : (b *: 1%:M + \sum_(0 <= l < lags) g l *: mpw W l.+1) *m one = (b + \sum_(0 <= l < lags) g l) *: one.
    rewrite mulmxDl -scalemxAl mul1mx scalerDl; congr (_ + _); rewrite mulmx_suml scaler_suml; apply: eq_bigr => l _.
    by rewrite -scalemxAl; move/rows1E: (mpw_std l.+1 st) => ->.
  by rewrite -mulmxA S -scalemxAr reduced_std // scalerA mulrC.
have F i : \sum_j partial_effects W rho b g lags i j = (1 - rho)^-1 * (b + \sum_(0 <= l < lags) g l).
  have T : (partial_effects W rho b g lags *m one) i 0 = (1 - rho)^-1 * (b + \sum_(0 <= l < lags) g l) by rewrite E !mxE mulr1.
  by rewrite -T [RHS]mxE; apply: eq_bigr => j _; rewrite [one _ _]mxE mulr1.
rewrite /avg_rowsum (eq_bigr _ (fun i _ => F i)) sumr_const card_ord -[(_ * _) *+ _]mulr_natr -[LHS]mulrA mulfV ?pnatr_eq0 // mulr1 mul1r //.
Qed.
(** ** C50_direct_effect: without lagged variables, the direct effect of the exact method is the average of d y_i / d x_i; with lagged variables the code leaves
    out the feedback of the lags, by exactly the second term *)
Theorem C50_direct_effect : forall n (W : 'M[R]_n) rho b g lags,
  avg_diag (partial_effects W rho b g lags) = avg_diag (reduced W rho) * b + \sum_(0 <= l < lags) g l * avg_diag (reduced W rho *m mpw W l.+1).
Proof.
move=> n W rho b g lags; have T (A : 'M[R]_n) : avg_diag A = \tr A / n%:R by [].
rewrite !T /partial_effects mulmxDr -scalemxAr mulmx1 linearD /= linearZ /= mulrDl; congr (_ + _); first by rewrite [RHS]mulrC mulrA.
rewrite mulmx_sumr raddf_sum mulr_suml; apply: eq_bigr => l _; by rewrite T -scalemxAr /= mxtraceZ mulrA.
Qed.
(** with two mutual neighbours the term left out is g rho/(1 - rho^2) *)
Theorem C50_direct_effect_refuted : forall rho b g : R, 1 - rho ^+ 2 != 0 ->
  avg_diag (partial_effects (swap2 R) rho b (fun=> g) 1) - avg_diag (reduced (swap2 R) rho) * b = g * (rho / (1 - rho ^+ 2)).
Proof.
move=> rho b g nz; rewrite C50_direct_effect addrC addKr big_nat1; congr (_ * _).
have two : 2%:R != 0 :> R by rewrite pnatr_eq0.
have I : (1%:M - rho *: swap2 R) *m ((1 - rho ^+ 2)^-1 *: (1%:M + rho *: swap2 R)) = 1%:M.
  rewrite -scalemxAr mulmxDr mulmx1 mulmxBl mul1mx -scalemxAr -scalemxAl swap_sq scalerA -expr2 addrA subrK.
  have -> : 1%:M - rho ^+ 2 *: 1%:M = (1 - rho ^+ 2) *: 1%:M :> 'M[R]_2 by rewrite scalerBl scale1r.
  by rewrite scalerA mulVf // scale1r.
have U : 1%:M - rho *: swap2 R \in unitmx by case/mulmx1_unit: I.
have E : reduced (swap2 R) rho = (1 - rho ^+ 2)^-1 *: (1%:M + rho *: swap2 R).
  by have := congr1 (mulmx (reduced (swap2 R) rho)) I; rewrite mulmx1 /reduced mulKmx // => ->.
have T (A : 'M[R]_2) : avg_diag A = \tr A / 2%:R by [].
rewrite T E /= mul1mx -scalemxAl mulmxDl mul1mx -scalemxAl swap_sq linearZ /= linearD /= linearZ /= swap_tr add0r mxtrace1.
by rewrite -mulrA -[_ * 2%:R / _]mulrA mulfV // mulr1 mulrC.
Qed.

(** ** C50_mask_regimes_refuted: regimes A and B, variables x1 and x2, only x1 lagged: the total effect of x2 in regime A contains the constant of regime B,
    and in regime B the spatial coefficient; the argument slx_vars is ignored *)
Definition mask_out (g : string) := [:: Row "o" g true; Row "x" g false; Row "x" g false; Row "wx" g false].
Theorem C50_mask_regimes_refuted : forall (cA x1A x2A wA cB x1B x2B wB rho ati adi aii : R) hs mask,
  let out := mask_out "A" ++ mask_out "B" ++ [:: Row "rho" "_Global" false] in
  let b := [:: cA; x1A; x2A; wA; cB; x1B; x2B; wB; rho] in
  exists bd bi, sp_effects out b (effect_rows out true) ati adi aii 1 hs mask =
    Some ([:: ati * x1A + ati * wA; ati * x2A + ati * cB; ati * x1B + ati * wB; ati * x2B + ati * rho], bd, bi).
Proof. by move=> *; eexists; eexists; rewrite /sp_effects /=; reflexivity. Qed.
(** ** C50_fixed_regimes_refuted: x1 varies by regime, x2 and x3 do not: the total effect of x2 contains the coefficient of x3 instead of that of its own lag *)
Theorem C50_fixed_regimes_refuted : forall (cA x1A w1A cB x1B w1B x2 x3 w2 w3 rho ati adi aii : R) hs mask,
  let out := [:: Row "o" "A" true; Row "x" "A" false; Row "wx" "A" false; Row "o" "B" true; Row "x" "B" false; Row "wx" "B" false;
                 Row "x" "_Global" false; Row "x" "_Global" false; Row "wx" "_Global" false; Row "wx" "_Global" false; Row "rho" "_Global" false] in
  let b := [:: cA; x1A; w1A; cB; x1B; w1B; x2; x3; w2; w3; rho] in
  exists bd bi, sp_effects out b (effect_rows out true) ati adi aii 1 hs mask =
    Some ([:: ati * x1A + ati * w1A; ati * x1B + ati * w1B; ati * x2 + ati * x3; ati * x3 + ati * w2], bd, bi).
Proof. by move=> *; eexists; eexists; rewrite /sp_effects /=; reflexivity. Qed.
(** ** C50_noattr_refuted: estimators that do not store slx_vars (panel lag models): with a list slx_vars selecting one of two variables the coefficient of the
    lag is added to both; selecting two of three raises *)
Theorem C50_noattr_refuted : forall (c x1 x2 w1 rho ati adi aii : R),
  let out := durbin_out 2 1 1 0 in
  exists bd bi, sp_effects out [:: c; x1; x2; w1; rho] (effect_rows out false) ati adi aii 1 false (Some [:: true; false]) =
    Some ([:: ati * x1 + ati * w1; ati * x2 + ati * w1], bd, bi).
Proof. by move=> *; eexists; eexists; rewrite /sp_effects /=; reflexivity. Qed.
Theorem C50_noattr_raises : forall (c x1 x2 x3 w1 w2 rho ati adi aii : R),
  let out := durbin_out 3 2 1 0 in
  sp_effects out [:: c; x1; x2; x3; w1; w2; rho] (effect_rows out false) ati adi aii 1 false (Some [:: true; false; true]) = None.
Proof. by move=> *; rewrite /sp_effects /=. Qed.

(** ** C72: observation-level multipliers *)
(** every row: direct effect plus effect of neighbours is the row sum, direct plus effect on neighbours the column sum, of the inverse *)
Theorem C72_lag : forall n (W : 'M[R]_n) rho im, i_multipliers W rho "lag" = MOk im ->
  1%:M - rho *: W \in unitmx /\ forall i, im_direct im i 0 = reduced W rho i i /\
    im_direct im i 0 + im_of im i 0 = \sum_j reduced W rho i j /\ im_direct im i 0 + im_on im i 0 = \sum_j reduced W rho j i.
Proof.
move=> n W rho im; rewrite /i_multipliers /= /la_inv; case: ifP => // U [<-] /=; split=> // i; rewrite !mxE; split=> //; split.
  rewrite [RHS](bigD1 i) //=; congr (_ + _); rewrite (bigD1 i) //= mxE eqxx add0r; apply: eq_bigr => j ne; by rewrite mxE eq_sym (negbTE ne).
rewrite [RHS](bigD1 i) //=; congr (_ + _); rewrite (bigD1 i) //= mxE eqxx add0r; apply: eq_bigr => j ne; by rewrite mxE (negbTE ne).
Qed.
Lemma sum_of_on n d (ww : 'M[R]_n) : \sum_i im_of (sums d ww) i 0 = \sum_i im_on (sums d ww) i 0.
Proof.
rewrite /sums /= (eq_bigr (fun i => \sum_j ww i j)); last by move=> i _; rewrite mxE.
by rewrite [RHS](eq_bigr (fun j => \sum_i ww i j)); [exact: exchange_big|move=> i _; rewrite mxE].
Qed.
(** what is received equals what is sent, in total *)
Theorem C72_balance : forall n (W : 'M[R]_n) rho model im, i_multipliers W rho model = MOk im -> \sum_i im_of im i 0 = \sum_i im_on im i 0.
Proof.
move=> n W rho model im; rewrite /i_multipliers; case: (String.eqb _ _); first by case=> <-; exact: sum_of_on.
case: (String.eqb _ _); first by case=> <-; exact: sum_of_on.
case: (String.eqb _ _) => //; case: (la_inv _) => // inv [<-]; exact: sum_of_on.
Qed.
(** their averages are the multipliers reported by the exact method, for row-standardised weights *)
Theorem C72_average : forall n (W : 'M[R]_n.+1) rho mtol fuel m im, row_std W -> rho != 1 ->
  spmultiplier W rho "full" mtol fuel = MOk m -> i_multipliers W rho "lag" = MOk im ->
  (\sum_i im_direct im i 0) / n.+1%:R = m_adi m /\ (\sum_i im_of im i 0) / n.+1%:R = m_aii m /\ (\sum_i im_on im i 0) / n.+1%:R = m_aii m.
Proof.
move=> n W rho mtol fuel m im st r1 H1 H2.
case: (C72_lag H2) => U E; have T := C50_total st r1 U H1; have A := C50_adds H1.
have D : m_adi m = avg_diag (reduced W rho) by case: (C50_full W rho mtol fuel) => /(_ U) [m']; rewrite H1; case=> ->.
have d : (\sum_i im_direct im i 0) / n.+1%:R = m_adi m by rewrite D; congr (_ / _); apply: eq_bigr => i _; case: (E i).
have o : (\sum_i im_of im i 0) / n.+1%:R = m_aii m.
  have : m_aii m = m_ati m - m_adi m by rewrite A addrAC subrr add0r.
  rewrite T -d => ->; rewrite /avg_rowsum -mulrBl -sumrB; congr (_ / _); apply: eq_bigr => i _; case: (E i) => _ [<- _]; by rewrite addrAC subrr add0r.
by split=> //; split=> //; rewrite -(C72_balance H2).
Qed.
(** the other two models *)
Theorem C72_slx : forall n (W : 'M[R]_n) coef, exists2 im, i_multipliers W coef "slx" = MOk im &
  forall i, im_direct im i 0 = 0 /\ im_of im i 0 = \sum_j W i j /\ im_on im i 0 = \sum_j W j i.
Proof. by move=> n W coef; eexists; [reflexivity|move=> i /=; rewrite !mxE]. Qed.
Theorem C72_kernel : forall n (W : 'M[R]_n) coef, exists2 im, i_multipliers W coef "kernel" = MOk im &
  forall i, im_direct im i 0 = W i i /\ im_of im i 0 = \sum_(j | j != i) W i j /\ im_on im i 0 = \sum_(j | j != i) W j i.
Proof.
move=> n W coef; eexists; [reflexivity|move=> i /=; rewrite !mxE; split=> //; split].
  rewrite [LHS](bigD1 i) //= mxE eqxx add0r; apply: eq_bigr => j ne; by rewrite mxE eq_sym (negbTE ne).
rewrite [LHS](bigD1 i) //= mxE eqxx add0r; apply: eq_bigr => j ne; by rewrite mxE (negbTE ne).
Qed.
End Meaning.
