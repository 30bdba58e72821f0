(** C50: accuracy and termination of the power method; row-standardised non-negative weights. *)
From Coq Require Import Strings.String.
From mathcomp Require Import all_ssreflect all_algebra.
From Verif Require Import LinRegModel LinRegProofs MultModel MultTheorems.
Set Implicit Arguments.
Unset Strict Implicit.
Unset Printing Implicit Defensive.
Import Order.TTheory GRing.Theory Num.Theory.
Local Open Scope ring_scope.

Section MMatrix.
Variables (R : realFieldType) (n : nat).
Variables (W : 'M[R]_n.+1) (rho : R).
Hypothesis nn : nonneg W.
Hypothesis st : row_std W.
Hypothesis r0 : 0 <= rho.
Hypothesis r1 : rho < 1.
Let A := 1%:M - rho *: W.
(** a vector with A x >= 0 is non-negative: look at its smallest entry *)
Lemma inv_pos (x : 'cV[R]_n.+1) : (forall i, 0 <= (A *m x) i 0) -> forall i, 0 <= x i 0.
Proof.
move=> H i; case: (@arg_minP _ _ _ ord0 predT (fun j => x j 0) isT) => m _ Hm.
apply: le_trans (Hm i isT).
have E : (A *m x) m 0 = x m 0 - rho * \sum_j W m j * x j 0.
  by rewrite mulmxBl mul1mx -scalemxAl !mxE.
have L : x m 0 <= \sum_j W m j * x j 0.
  rewrite -[X in X <= _]mul1r -(st m) mulr_suml; apply: ler_sum => j _; apply: ler_wpmul2l; [exact: nn|exact: Hm].
have := H m; rewrite E subr_ge0 => h.
have : rho * x m 0 <= x m 0 by apply: le_trans h; apply: ler_wpmul2l.
by rewrite -subr_ge0 -[X in X - _]mul1r -mulrBl pmulr_rge0 // subr_gt0.
Qed.
Lemma A_unit : A \in unitmx.
Proof.
apply/unitmx_inj => x H.
have p1 : forall i, 0 <= x i 0 by apply: inv_pos => i; rewrite H mxE.
have p2 : forall i, 0 <= (- x) i 0 by apply: inv_pos => i; rewrite mulmxN H oppr0 mxE.
apply/matrixP => i j; rewrite ord1 [RHS]mxE; apply/eqP; rewrite eq_le p1 andbT; by have := p2 i; rewrite mxE oppr_ge0.
Qed.
Lemma red_nn : nonneg (reduced W rho).
Proof.
move=> i j; have H : forall i, 0 <= (col j (reduced W rho)) i 0.
  apply: inv_pos => k; rewrite colE mulmxA /reduced mulmxV ?A_unit // mul1mx mxE; exact: ler0n.
by have := H i; rewrite mxE.
Qed.
Lemma red_sum p i : \sum_j (mpw W p *m reduced W rho) i j = (1 - rho)^-1.
Proof.
have E := reduced_std st (negbT (lt_eqF r1)) A_unit.
have S : mpw W p *m reduced W rho *m (const_mx 1 : 'cV[R]_n.+1) = (1 - rho)^-1 *: const_mx 1.
  by rewrite -mulmxA E -scalemxAr; move/rows1E: (mpw_std p st) => ->.
have T : (mpw W p *m reduced W rho *m (const_mx 1 : 'cV[R]_n.+1)) i 0 = (1 - rho)^-1 by rewrite S !mxE mulr1.
by rewrite -T [RHS]mxE; apply: eq_bigr => j _; rewrite [const_mx _ _ _]mxE mulr1.
Qed.
Lemma prod_nn p : nonneg (mpw W p *m reduced W rho).
Proof. by move=> i j; rewrite mxE; apply: sumr_ge0 => k _; apply: mulr_ge0; [exact: mpw_nn|exact: red_nn]. Qed.
Lemma avg_le (B : 'M[R]_n.+1) c : (forall i, B i i <= c) -> avg_diag B <= c.
Proof.
move=> H; rewrite /avg_diag ler_pdivr_mulr ?ltr0n //.
have := @ler_sum R _ (index_enum (ordinal_finType n.+1)) predT (fun i => B i i) (fun=> c) (fun i _ => H i).
by rewrite sumr_const card_ord mulr_natr.
Qed.
Lemma avg_ge (B : 'M[R]_n.+1) c : (forall i, c <= B i i) -> c <= avg_diag B.
Proof.
move=> H; rewrite /avg_diag ler_pdivl_mulr ?ltr0n //.
have := @ler_sum R _ (index_enum (ordinal_finType n.+1)) predT (fun=> c) (fun i => B i i) (fun i _ => H i).
by rewrite sumr_const card_ord mulr_natr.
Qed.
Lemma diag_le_row (B : 'M[R]_n.+1) i : nonneg B -> B i i <= \sum_j B i j.
Proof. move=> H; rewrite (bigD1 i) //= ler_addl; exact: sumr_ge0. Qed.

(** ** C50_defined: the exact method always succeeds *)
Theorem C50_defined : forall mtol fuel, exists m, spmultiplier W rho "full" mtol fuel = MOk m.
Proof. by move=> mtol fuel; case: (C50_full W rho mtol fuel) => /(_ A_unit) [m] -> _ _; exists m. Qed.

(** ** C50_bounds: the exact multipliers are ordered 1 <= direct <= total, so the indirect multiplier is non-negative *)
Theorem C50_bounds : forall mtol fuel m, spmultiplier W rho "full" mtol fuel = MOk m -> 1 <= m_adi m <= m_ati m /\ 0 <= m_aii m.
Proof.
move=> mtol fuel m H.
have T := C50_total st (negbT (lt_eqF r1)) A_unit H.
have D : m_adi m = avg_diag (reduced W rho).
  by case: (C50_full W rho mtol fuel) => /(_ A_unit) [m']; rewrite H; case=> ->.
have at_ : m_ati m = (1 - rho)^-1.
  rewrite T /avg_rowsum (eq_bigr (fun=> (1 - rho)^-1)) => [|i _]; last by have := red_sum 0 i; rewrite /= mul1mx.
  by rewrite sumr_const card_ord -[(1 - rho)^-1 *+ _]mulr_natr -mulrA mulfV ?pnatr_eq0 // mulr1.
have l2 : m_adi m <= m_ati m.
  rewrite D at_; apply: avg_le => i; have := red_sum 0 i; rewrite /= mul1mx => <-; exact/diag_le_row/red_nn.
have l1 : 1 <= m_adi m.
  rewrite D; apply: avg_ge => i.
  have -> : reduced W rho = 1%:M + rho *: (W *m reduced W rho).
    by rewrite [LHS](tele 0 A_unit) big_nat1 expr0 scale1r expr1 /= mul1mx.
  rewrite !mxE eqxx ler_addl mulr_ge0 //; apply: sumr_ge0 => j _; apply: mulr_ge0; [exact: nn|exact: red_nn].
by rewrite l1 l2; split=> //; have := C50_adds H; move/eqP; rewrite addrC -subr_eq => /eqP <-; rewrite subr_ge0.
Qed.

(** ** C50_power_bound: the power method never overshoots, and its error is at most rho^(p+1)/(1-rho), p the reported power *)
Theorem C50_power_bound : forall mtol fuel m, mtol < 100%:R -> \tr W = 0 -> spmultiplier W rho "power" mtol fuel = MOk m ->
  0 <= avg_diag (reduced W rho) - m_adi m <= rho ^+ (m_pow m).+1 / (1 - rho).
Proof.
move=> mtol fuel m t tr0 H; rewrite (C50_power_error t tr0 A_unit H); apply/andP; split.
  by apply: mulr_ge0; [exact: exprn_ge0|apply: avg_ge => i; exact: prod_nn].
apply: ler_wpmul2l; [exact: exprn_ge0|apply: avg_le => i].
rewrite -(red_sum (m_pow m).+1 i); exact/diag_le_row/prod_nn.
Qed.
End MMatrix.

(** ** termination, over Archimedean fields *)
Lemma bernoulli (R : realFieldType) (a : R) k : 0 <= a -> 1 + k%:R * a <= (1 + a) ^+ k.
Proof.
move=> a0; elim: k => [|k IH]; first by rewrite mul0r addr0 expr0.
rewrite exprS; have S : (1 + a) * (1 + k%:R * a) <= (1 + a) * (1 + a) ^+ k by apply: ler_wpmul2l => //; rewrite addr_ge0 ?ler01.
apply: le_trans S.
have -> : (1 + a) * (1 + k%:R * a) = (1 + k.+1%:R * a) + k%:R * (a * a).
  by rewrite mulrDr mulr1 mulrDl mul1r -[k.+1]addn1 natrD mulrDl mul1r mulrCA -!addrA; congr (_ + _); rewrite addrCA; congr (_ + _); rewrite addrC addrA.
by rewrite ler_addl !mulr_ge0 ?ler0n.
Qed.
Lemma pow_small (R : archiFieldType) (r eps : R) : 0 <= r -> r < 1 -> 0 < eps -> exists k, r ^+ k <= eps.
Proof.
move=> r0 r1 e0; case: (eqVneq r 0) => [->|rn0]; first by exists 1%N; rewrite expr1 ltW.
have rp : 0 < r by rewrite lt_neqAle eq_sym rn0.
pose a := r^-1 - 1; have ap : 0 < a by rewrite subr_gt0 invf_gt1.
have E : 1 + a = r^-1 by rewrite addrC subrK.
have b0 : 0 <= eps^-1 / a by rewrite mulr_ge0 ?invr_ge0 ?ltW.
have B0 := archi_boundP b0; exists (Num.bound (eps^-1 / a)); move: B0; move: (Num.bound _) => k B0.
have B : eps^-1 < k%:R * a by rewrite -ltr_pdivr_mulr.
have ap1 : 0 < 1 + a by rewrite addr_gt0 ?ltr01.
rewrite -[r]invrK -E exprVn -[eps]invrK lef_pinv ?posrE ?exprn_gt0 ?invr_gt0 //.
by apply: ltW; apply: lt_le_trans B _; apply: le_trans (bernoulli k (ltW ap)); rewrite ler_addr ler01.
Qed.
Theorem C50_power_terminates : forall (R : archiFieldType) n (W : 'M[R]_n.+1) rho mtol, nonneg W -> row_std W -> 0 <= rho < 1 -> 0 < mtol ->
  exists fuel m, spmultiplier W rho "power" mtol fuel = MOk m.
Proof.
move=> R n W rho mtol nn st /andP[r0 r1] mt.
case: (pow_small r0 r1 mt) => k Hk.
have q2 : (2 <= k.+2)%N by [].
have T : series_term W rho k.+2 <= mtol.
  apply: le_trans Hk; apply: (@le_trans _ _ (rho ^+ k.+2)); last by rewrite !exprSr -[X in _ <= X]mulr1 -mulrA ler_wpmul2l ?exprn_ge0 // mulr_ile1 // ltW.
  rewrite /series_term -mulrA -[X in _ <= X]mulr1 ler_wpmul2l ?exprn_ge0 //.
  apply: (@avg_le R n (mpw W k.+2)) => i; rewrite -(mpw_std k.+2 st i); exact/diag_le_row/mpw_nn.
by case: (C50_power_stops q2 T) => fuel [m [H _]]; exists fuel, m.
Qed.

(** ** C50_power_negative: for a negative coefficient the loop always stops at the second or third power, whatever the tolerance *)
Theorem C50_power_negative : forall (R : realFieldType) n (W : 'M[R]_n) rho mtol fuel m, nonneg W -> rho < 0 -> 0 <= mtol < 100%:R ->
  spmultiplier W rho "power" mtol fuel = MOk m -> (m_pow m <= 3)%N.
Proof.
move=> R n W rho mtol fuel m nn r0 /andP[m0 m1] H; case: (C50_power m1 H) => h1 h2 h3 h4.
rewrite leqNgt; apply/negP => h; have := h4 3%N; rewrite h => /(_ isT); rewrite ltNge => /negP; apply.
apply: le_trans m0; rewrite /series_term; apply: mulr_le0_ge0; last by rewrite invr_ge0 ler0n.
apply: mulr_le0_ge0; first by rewrite exprS mulr_le0_ge0 ?sqr_ge0 ?ltW.
by apply: sumr_ge0 => i _; apply: mpw_nn.
Qed.

(** ** C50_power_refuted: "power" does not approximate the exact value to the tolerance.  Two mutual neighbours: the odd powers have no diagonal, so the
    loop stops at power 3 with 1 + rho^2, against the exact 1/(1 - rho^2), whatever tolerance was asked for *)
Section Swap.
Variable R : realFieldType.
Definition swap2 : 'M[R]_2 := \matrix_(i, j) (i != j)%:R.
Lemma swapE i j : swap2 i j = (i != j)%:R. Proof. by rewrite mxE. Qed.
Lemma swap_sq : swap2 *m swap2 = 1%:M.
Proof.
apply/matrixP => i j; rewrite !mxE !big_ord_recl big_ord0 !mxE.
by case: i => [[|[|//]] Hi]; case: j => [[|[|//]] Hj]; rewrite -!val_eqE /= ?mulr0 ?mulr1 ?mul0r ?addr0 ?add0r.
Qed.
Lemma swap_tr : \tr swap2 = 0.
Proof. by apply: big1 => i _; rewrite mxE eqxx. Qed.
Theorem C50_power_refuted : forall rho mtol : R, 0 <= mtol < rho ^+ 2 -> mtol < 100%:R -> 1 - rho ^+ 2 != 0 ->
  nonneg swap2 /\ row_std swap2 /\
  exists m, spmultiplier swap2 rho "power" mtol 2 = MOk m /\ m_pow m = 3%N /\ m_adi m = 1 + rho ^+ 2 /\
  avg_diag (reduced swap2 rho) = 1 / (1 - rho ^+ 2) /\ avg_diag (reduced swap2 rho) - m_adi m = rho ^+ 4 / (1 - rho ^+ 2).
Proof.
move=> rho mtol /andP[m0 m1] m2 nz.
have nn : nonneg swap2 by move=> i j; rewrite mxE ler0n.
have st : row_std swap2.
  by case=> [[|[|//]] Hi]; rewrite !big_ord_recl big_ord0 !mxE -!val_eqE /= ?addr0 ?add0r.
have two : 2%:R != 0 :> R by rewrite pnatr_eq0.
have I : (1%:M - rho *: swap2) *m ((1 - rho ^+ 2)^-1 *: (1%:M + rho *: swap2)) = 1%:M.
  rewrite -scalemxAr mulmxDr mulmx1 mulmxBl mul1mx -scalemxAr -scalemxAl swap_sq scalerA -expr2 addrA subrK.
  have -> : 1%:M - rho ^+ 2 *: 1%:M = (1 - rho ^+ 2) *: 1%:M :> 'M[R]_2 by rewrite scalerBl scale1r.
  by rewrite scalerA mulVf // scale1r.
have U : 1%:M - rho *: swap2 \in unitmx by case/mulmx1_unit: I.
have E : reduced swap2 rho = (1 - rho ^+ 2)^-1 *: (1%:M + rho *: swap2).
  by have := congr1 (mulmx (reduced swap2 rho)) I; rewrite mulmx1 /reduced mulKmx // => ->.
have F : avg_diag (reduced swap2 rho) = 1 / (1 - rho ^+ 2).
  have -> : avg_diag (reduced swap2 rho) = \tr (reduced swap2 rho) / 2%:R by [].
  by rewrite E linearZ /= linearD /= linearZ /= swap_tr mulr0 addr0 mxtrace1 -mulrA mulfV // mulr1 mul1r.
split=> //; split=> //.
rewrite /spmultiplier /= m2.
have -> : \sum_i (swap2 *m swap2) i i = 2%:R by rewrite swap_sq; exact: mxtrace1.
have -> : \sum_i (swap2 *m swap2 *m swap2) i i = 0 by rewrite swap_sq mul1mx; exact: swap_tr.
have -> : rho * rho * 2%:R / 2%:R = rho ^+ 2 by rewrite -mulrA mulfV // mulr1 expr2.
rewrite m1 mulr0 mul0r ltNge m0 /=; eexists; split; first by reflexivity.
rewrite /= addr0; split=> //; split=> //; split=> //; rewrite F.
have -> : 1 + rho ^+ 2 = (1 - rho ^+ 4) / (1 - rho ^+ 2).
  have -> : 1 - rho ^+ 4 = (1 + rho ^+ 2) * (1 - rho ^+ 2).
    by rewrite mulrBr mulr1 mulrDl mul1r -expr2 -exprM addrKA.
  by rewrite -mulrA mulfV // mulr1.
by rewrite -mulrBl opprB addrCA subrr addr0.
Qed.
End Swap.

(** ** witness for the hypotheses of the theorems above: two mutual neighbours, rho = 1/2, tolerance 0 *)
Theorem C50_power_witness : forall R : realFieldType, exists (W : 'M[R]_2) (rho mtol : R) fuel m, nonneg W /\ row_std W /\ 0 <= rho < 1 /\ mtol < 100%:R /\ \tr W = 0 /\
  spmultiplier W rho "power" mtol fuel = MOk m.
Proof.
move=> R; have h : (0 : R) < 2%:R^-1 by rewrite invr_gt0 ltr0n.
have h1 : 2%:R^-1 < 1 :> R by rewrite invf_lt1 ?ltr0n // ltr1n.
have c : (0 <= (0 : R)) && ((0 : R) < (2%:R^-1) ^+ 2) by rewrite lexx exprn_gt0.
have c2 : (0 : R) < 100%:R by rewrite ltr0n.
have c3 : 1 - (2%:R^-1 : R) ^+ 2 != 0 by rewrite subr_eq0 eq_sym lt_eqF // exprn_ilt1 // ltW.
case: (C50_power_refuted c c2 c3) => nn [st [m [H _]]].
by exists (swap2 R), (2%:R^-1), 0, 2%N, m; rewrite (ltW h) h1 swap_tr.
Qed.
