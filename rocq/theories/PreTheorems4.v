(** C82: a case meeting the hypotheses, and a negative variance. *)
From Coq Require Import Reals Ring Field.
From mathcomp Require Import all_ssreflect all_algebra.
From mathcomp.fingroup Require Import perm.
From Verif Require Import Rinst Mring LinRegModel LinRegProofs LinRegProofs2 FilterModel MLModel MLSpec MLProofs MLTheorems MLTheorems3 MLTheorems4 Kron PanelModel PanelTheorems
  PanelTheorems2 PfeModel PfeSpec PfeTheorems PfeTheorems2 PfeTheorems3 PfeTheorems5 PreModel PreSpec PreTheorems PreTheorems2 PreTheorems3.
Set Implicit Arguments.
Unset Strict Implicit.
Unset Printing Implicit Defensive.
Import Order.TTheory GRing.Theory Num.Theory.
Local Open Scope ring_scope.
Add Field Rf : (@p_ft R_realFieldType).

Lemma pm_demeanp p m : demean_panel p (pm m) = pm m.
Proof. by rewrite demeanE avgE -over_timeE pm_mean tile0 scaler0 subr0. Qed.
Lemma pmZ (c : R) m : c *: pm m = pm (c *: m).
Proof. by apply/matrixP => r j; rewrite !mxE; case: (pt r == 0); rewrite ?mulrN. Qed.
Lemma unit22 (a b c d : R) : a * d - b * c != 0 -> (block_mx a%:M b%:M c%:M d%:M : 'M[R]_(1 + 1)) \in unitmx.
Proof.
move=> H; suff E : (block_mx a%:M b%:M c%:M d%:M : 'M[R]_(1 + 1)) *m ((a * d - b * c)^-1 *: block_mx d%:M (- b)%:M (- c)%:M a%:M) = 1%:M.
  by case: (mulmx1_unit E).
rewrite -scalemxAr mulmx_block -!scalar_mxM -!raddfD /= !mulrN [- (a * b) + _]addrC [b * a]mulrC subrr [d * c]mulrC subrr raddf0.
by rewrite [- (c * b) + _]addrC [c * b]mulrC [d * a]mulrC -scalar_mx_block scale_scalar_mx mulVf.
Qed.
Section Case.
Variable c : R.
Hypothesis c0 : 0 < c.
(** two periods, two pairs of units, y scaled by c *)
Definition gy : 'cV[R]_(2 * (2 + 2)) := c *: ey.
Definition gax : lag_aux (2 * (2 + 2)) 1 := LagAux 0 0 (c *: pm wy) (c *: pm wWy).
Lemma gaxE p : lag_aux_of (demean_panel p gy) (demean_panel p ex) (w_nt 2 wW) = Some gax.
Proof.
rewrite /gy /ey /ex pmZ !pm_demeanp /lag_aux_of la_inv_unit; last by apply/gram_unit; exact: exx.
by rewrite pm_w -scalemxAr wWyE !pm_dot -!scalemxAr wxy wxWy  !mulmx0 ?scaler0 ?mulmx0 !subr0 -!pmZ.
Qed.
Lemma gssr rho : lag_ssr gax rho = 16%:R * c ^+ 2 * (1 + rho ^+ 2).
Proof.
rewrite /lag_ssr /= scalerA mulrC -scalerA -scalerBr pm_lin.
rewrite -scalemxAr mxE. 
have -> : (c *: pm (wy - rho *: wWy))^T = c *: (pm (wy - rho *: wWy))^T by apply/matrixP => i j; rewrite !mxE.
rewrite -scalemxAl mxE -utuE -ssqE pm_ssq wssq.
have -> : 16%:R = 2%:R * 8%:R :> R by rewrite -natrM.
mring R_realFieldType.
Qed.
Lemma gobj rho : `|rho| < 1 -> fe_lag_obj 2 (lag_ssr gax rho) (wu rho) = Some (2%:R * wobj rho + 4%:R * ln (c ^+ 2)).
Proof.
move=> r1; have := eobj r1; rewrite essr gssr /fe_lag_obj /np_log.
have n8 : (2 + 2)%N%:R * 2%:R = 8%:R :> R by rewrite -natrM.
rewrite n8; have e8 : 0 < 8%:R :> R by rewrite ltr0n.
have e16 : 0 < 16%:R :> R by rewrite ltr0n.
have P1 := w1p rho; have C2 : 0 < c ^+ 2 by rewrite exprn_gt0.
have A : 0 < 16%:R * (1 + rho ^+ 2) / 8%:R :> R by rewrite divr_gt0 ?mulr_gt0.
rewrite A; case: t_jacob => [j|//] [<-].
have -> : 16%:R * c ^+ 2 * (1 + rho ^+ 2) / 8%:R = (16%:R * (1 + rho ^+ 2) / 8%:R) * c ^+ 2.
  move: (8%:R^-1 : R) (16%:R : R) => v8 v16; mring R_realFieldType.
rewrite mulr_gt0 //; congr Some; rewrite [ln (_ * c ^+ 2)]lnM //.
have -> : 8%:R / 2%:R = 4%:R :> R by rewrite -n8 mulfK ?pnatr_eq0.
by move: (ln (c ^+ 2)) (ln _) => u1 u2; rewrite mulrDr addrAC.
Qed.
(** minimisers for these data *)
Definition gminphi (f : R -> option R) : R := 1.
Definition gminrho (f : R -> option R) : R * R := (0, odflt 0 (f 0)).
Definition gP (rho : R) : Prop := `|rho| < 1.
Definition gQ (phi : R) : Prop := 0 < phi <= 1.
Lemma gmin : minimises gP (re_obj wu gax) (gminrho (re_obj wu gax)).
Proof.
rewrite /minimises /gminrho /re_obj (gobj w01) /=; split; [exact: w01|by []|].
move=> a v Pa; rewrite (gobj Pa) => -[<-]; rewrite ler_add2r ler_pmul2l ?ltr0n //; exact: wmin.
Qed.
Lemma gne b rho : gP rho -> re_lag_resid gy ex wW b rho != 0.
Proof.
move=> r1; apply/eqP => H.
have := lag_aux_fit rho (gaxE 1); rewrite !C41_full_weight => -[_ _ Hm]; have {}Hm := Hm b.
move: Hm; rewrite -w_ntB -re_residE H ssq0 => /eqP; rewrite eq_sym paddr_eq0 ?utu_ge0 // => /andP [+ _].
have -> : ssq (la_e0 gax - rho *: la_e1 gax) = lag_ssr gax rho by rewrite /lag_ssr ssqE utuE.
by rewrite gssr gt_eqF // !mulr_gt0 ?w1p ?ltr0n ?exprn_gt0.
Qed.
Lemma gphi rho b : gP rho -> exists v, minimises gQ (re_phi_obj gy ex wW rho b) (gminphi (re_phi_obj gy ex wW rho b), v).
Proof.
move=> r1.
have Q0 p : gQ p -> 0 < p by case/andP.
have E p : gQ p -> re_phi_obj gy ex wW rho b p = Some (4%:R * ln (ssq (re_lag_resid gy ex wW b rho)) - 4%:R * ln p).
  move=> /Q0 p0; rewrite /re_phi_obj /gy /ey pmZ /ex !pm_demeanp -pmZ -/ey -/ex -/gy.
  have -> : gy - rho *: (w_nt 2 wW *m gy) - ex *m b = re_lag_resid gy ex wW b rho by rewrite re_residE w_ntB mulmxBl mul1mx -scalemxAl.
  rewrite -utuE -ssqE /np_log exprn_gt0 //.
  have -> : 0 < ssq (re_lag_resid gy ex wW b rho) by rewrite lt_def utu_ge0 andbT ssqE utu_eq0 gne.
  rewrite ln_pow //; congr Some.
  have -> : (2 + 2)%N%:R * 2%:R / 2%:R = 4%:R :> R by rewrite mulfK ?pnatr_eq0.
  congr (_ - _); rewrite mulrA mulfVK ?pnatr_eq0 //.
have q1 : gQ 1 by rewrite /gQ ltr01 lexx.
eexists; split=> /=; [exact: q1|exact: (E _ q1)|].
move=> a v Qa; rewrite (E _ Qa) => -[<-]; rewrite ler_add2l ler_opp2 ler_pmul2l ?ltr0n //.
by case/andP: Qa => a0 a1; apply: ln_le_mono.
Qed.
Definition gs : re_state 2 (2 + 2) 1 := ReState 1 0 0 gax (2%:R * wobj 0 + 4%:R * ln (c ^+ 2)).
Lemma gstep rho b : re_lag_step gminphi gminrho wu gy ex wW rho b = Some gs.
Proof. by rewrite /re_lag_step gaxE /gminrho (gobj w01) /gs /= scale0r subr0. Qed.
Lemma giter : re_lag_iter gminphi gminrho wu gy ex wW = Some [:: gs; gs].
Proof.
rewrite /re_lag_iter la_inv_unit; last by apply/gram_unit; exact: exx.
set cr := 1 / 10%:R ^+ 7; have cr0 : 0 < cr by rewrite divr_gt0 ?exprn_gt0 ?ltr01 ?ltr0n.
have C1 : (cr < 1 :> R) by rewrite /cr ltr_pdivr_mulr ?exprn_gt0 ?ltr0n // mul1r -natrX ltr1n.
have C2 : cr < `|1 / 10%:R - 1|.
  rewrite distrC ger0_norm; last by rewrite subr_ge0 ler_pdivr_mulr ?ltr0n // mul1r ler1n.
  have t0 : 10%:R != 0 :> R by rewrite pnatr_eq0.
  have -> : 1 - 1 / 10%:R = 9%:R / 10%:R :> R.
    have -> : 9%:R = 10%:R - 1 :> R by rewrite -[10%N]/(9 + 1)%N natrD addrK.
    by rewrite mulrBl mulfV // .
  rewrite /cr ltr_pdivr_mulr ?exprn_gt0 ?ltr0n // exprS mulrA mulfVK // -natrX -natrM ltr1n //.
have Z : (cr < `|1 - 1|) = false by rewrite subrr normr0 ltNge ltW.
by rewrite [99%N]lock /= C1 gstep -lock /= C2 gstep Z.
Qed.
Lemma gtr : tr1_of wW = 0 /\ tr2_of wW + tr3_of wW = 8%:R.
Proof.
split; first by rewrite /tr1_of big1 // => i _; exact: wzd.
have Wt : wW^T = wW by rewrite /wW tr_block_mx !trmx0 !trmx1.
have WW : wW *m wW = 1%:M by rewrite /wW mulmx_block !mul0mx !mulmx0 !mul1mx !addr0 !add0r -scalar_mx_block.
rewrite /tr2_of /tr3_of Wt WW -!/(mxtrace _) mxtrace1 -natrD //.
Qed.
Lemma gpow mx : power_expansion (w_nt 2 wW) (0 : 'cV[R]_(2 * (2 + 2))) 0 1 mx = Done 0.
Proof.
rewrite /power_expansion; case: mx => [|m]; rewrite [pe_loop _ _ _ _ _ _]/=; first by case: ifP.
rewrite scale0r.
have Z : la_norm (0 : 'cV[R]_(2 * (2 + 2))) = 0.
  rewrite /la_norm big1 ?sqrtr0 // => i _; rewrite big1 // => j _; by rewrite mxE expr0n.
rewrite Z addr0 [test0 _ < 0]ltNge /test0 exprn_ge0 ?ler0n //.
by case: m => [|m]; rewrite /pe_loop -/pe_loop [(1 : R) < 0]ltNge ler01; case: ifP.
Qed.
Lemma gv1 (s2 : R) : 0 < s2 -> re_lag_v1 ex 0 wW 1%:M s2 = block_mx (s2^-1 * 8%:R)%:M 0 0 (16%:R)%:M.
Proof.
move=> s0; rewrite /re_lag_v1 mulmx1 (proj2 gtr) !mulmx0 trmx0 !scaler0 mxE mul0r addr0 -natrM; congr (block_mx _ _ _ _).
rewrite pm_dot; have -> : wx^T *m wx = (4%:R)%:M.
  apply/matrixP => i j; rewrite !ord1 mxE (eq_bigr (fun=> 1)) => [|q _]; last by rewrite !mxE mulr1.
  by rewrite sumr_const card_ord mxE eqxx.
by rewrite !scale_scalar_mx -natrM.
Qed.
Lemma gunit1 (s2 : R) : 0 < s2 -> re_lag_v1 ex 0 wW 1%:M s2 \in unitmx.
Proof.
move=> s0; rewrite gv1 // unitmxE det_lblock !det_scalar1 unitfE !mulf_neq0 ?pnatr_eq0 // invr_neq0 // gt_eqF //.
Qed.
Lemma gunit (s2 : R) : 0 < s2 -> s2 != 1 / 2%:R -> re_lag_info ex 0 wW 1%:M 1 s2 \in unitmx.
Proof.
move=> s0 s1; have z := lt0r_neq0 s0; rewrite /re_lag_info mulmx1 (proj1 gtr) oppr0 mulr0 !mul0r raddf0 row_mx0 !col_mx0 row_mx0.
rewrite unitmxE det_lblock unitrM -!unitmxE gunit1 //=; apply: unit22.
rewrite expr1n divr1; have -> : (2 * (2 + 2))%N%:R = 8%:R :> R by [].
have -> : (2 + 2)%N%:R = 4%:R :> R by [].
have -> : 4%:R * (1 + 1) * (8%:R / (2%:R * s2 ^+ 2)) - - 4%:R / s2 ^+ 2 * (- 4%:R / s2) = 32%:R / s2 ^+ 3 * (s2 - 1 / 2%:R) :> R.
  have -> : 8%:R = 4%:R * 2%:R :> R by rewrite -natrM.
  have -> : 32%:R = 4%:R * 4%:R * 2%:R :> R by rewrite -!natrM.
  have t2 : 2%:R != 0 :> R by rewrite pnatr_eq0.
  rewrite -[1 + 1]/(2%:R); move: (4%:R : R) (2%:R : R) t2 => f tw t2; mfield R_realFieldType; by repeat split; apply/eqP.
by rewrite !mulf_neq0 ?pnatr_eq0 ?invr_neq0 ?expf_neq0 // subr_eq0.
Qed.
Lemma gfinal : c ^+ 2 != 1 / 4%:R -> exists r, base_re_lag true gminphi gminrho wu gy ex wW 1 100 = Some r /\
  [/\ rl_b r = 0, rl_rho r = 0, rl_phi r = 1 & rl_sig2 r = 2%:R * c ^+ 2].
Proof.
move=> c4; rewrite /base_re_lag giter [last _ _]/= /re_lag_final [rs_phi _]/= [rs_rho _]/= [rs_b _]/= [rs_ax _]/=.
move: (100%N) => mx.
rewrite mulmx0 gpow a_ofE; last exact: wzd.
have -> : 1%:M - 0 *: wW = 1%:M by rewrite scale0r subr0.
rewrite [la_inv 1%:M]la_inv_unit ?unitmx1 // invmx1.
have Es : utu_of (la_e0 gax - 0 *: la_e1 gax) / (2 * (2 + 2))%:R = 2%:R * c ^+ 2.
  have := gssr 0; rewrite /lag_ssr -utuE => ->; rewrite expr0n addr0 mulr1.
  have -> : 16%:R = 8%:R * 2%:R :> R by rewrite -natrM.
  by rewrite -[8%:R * 2%:R * _]mulrA [LHS]mulrC mulKf // pnatr_eq0.
have s0 : 0 < 2%:R * c ^+ 2 by rewrite mulr_gt0 ?ltr0n ?exprn_gt0.
have s1 : 2%:R * c ^+ 2 != 1 / 2%:R.
  apply: contraNN c4 => /eqP H; apply/eqP; have t2 : 2%:R != 0 :> R by rewrite pnatr_eq0.
  have -> : c ^+ 2 = 2%:R * c ^+ 2 / 2%:R by rewrite [RHS]mulrC mulKf.
  by rewrite H !mul1r -invfM -natrM.
rewrite Es C41_full_weight la_inv_unit ?gunit // la_inv_unit ?gunit1 //; eexists; split; first by [].
by split.
Qed.
End Case.
(** with y in its original units: the hypotheses of C82_loglik, C82_monotone and C82_fixed_point hold *)
Example C82_witness : exists r, [/\ base_re_lag true gminphi gminrho wu (gy 1) ex wW 1 100 = Some r,
  re_lag_iter gminphi gminrho wu (gy 1) ex wW = Some [:: gs 1; gs 1],
  rl_logll r = re_lag_loglik (gy 1) ex wW (rl_b r) (rl_rho r) (rl_sig2 r) 0 &
  (forall b' rho' s2', `|rho'| < 1 -> 0 < s2' -> re_lag_loglik (gy 1) ex wW b' rho' s2' 0 <= rl_logll r) /\
  (forall s2' smu2', 0 < s2' -> 0 <= smu2' -> re_lag_loglik (gy 1) ex wW (rl_b r) (rl_rho r) s2' smu2' <= rl_logll r)].
Proof.
have c0 : 0 < 1 :> R := ltr01.
have c4 : (1 : R) ^+ 2 != 1 / 4%:R.
  by rewrite expr1n mul1r -[X in X != _]invr1 (inj_eq invr_inj) eq_sym pnatr_eq1.
have [r [Hr [Eb Er Ep Es]]] := gfinal c0 c4; exists r.
have L (rho : R) : is_lu (1%:M - rho *: wW) (wu rho) := w_lu rho.
have PD (rho' : R) : gP rho' -> \det (1%:M - rho' *: wW) != 0 by move=> r1; rewrite wdet expf_neq0 // gt_eqF // wlt.
have T0 : (0 < 2)%N by [].
have n0 : (0 < 2 + 2)%N by [].
have Ax := gaxE 1 (rl_phi r).
have p0 : 0 < rl_phi r by rewrite Ep ltr01.
have [smu2 [s0 Hs Hl Hm]] := C82_loglik T0 n0 L PD (gne c0) Hr p0 Ax (gmin c0).
have Z : smu2 = 0 by rewrite (re_param T0 s0 p0 Hs) Ep expr1n invr1 subrr mulr0 mul0r.
rewrite Z in Hl.
have one (s2 : R) : 0 < s2 -> s2 / (s2 + 2%:R * 0) = 1 by move=> s1; rewrite mulr0 addr0 mulfV // gt_eqF.
have Q0 p : gQ p -> 0 < p by case/andP.
have It := giter c0.
have [_ F2] := C82_fixed_point T0 n0 L PD (gne c0) Q0 (l := [::]) It (erefl _) (gphi c0 _ (w01 : gP (rs_rho (gs 1)))) (gmin c0).
have E2 : iter_s2 (gy 1) ex wW 1 0 0 = rl_sig2 r.
  rewrite iter_s2E ?ltr01 // C41_full_weight Es expr1n mulr1 re_residE scale0r subr0 mulmx0 subr0 /w_nt kron1 mul1mx /gy scale1r.
  rewrite pm_ssq -[wy]subr0 -(scale0r wWy) wssq expr0n addr0 mulr1.
  by rewrite -[(2 * (2 + 2))%N]/(8%N) mulfK // pnatr_eq0.
split=> //; split.
- by move=> b' rho' s2' r1 s1; apply: Hm => //; rewrite Ep expr1n one.
- move=> s2' smu2' s1 m0.
  have d0 : 0 < s2' + 2%:R * smu2' by rewrite ltr_paddr // mulr_ge0 ?ler0n.
  have Qq : gQ (Num.sqrt (s2' / (s2' + 2%:R * smu2'))).
    apply/andP; split; first by rewrite sqrtr_gt0 divr_gt0.
    rewrite -[X in _ <= X]sqrtr1 ler_wsqrtr // (ler_pdivr_mulr _ _ d0) [1 * _]mul1r ler_addl mulr_ge0 ?ler0n //.
  have := F2 _ s2' smu2' Qq s1; rewrite sqr_sqrtr ?divr_ge0 ?(ltW s1) ?(ltW d0) // => /(_ (erefl _)) H.
  rewrite Eb Er Hl Eb Er; apply: le_trans H _.
  by rewrite /iter_loglik [rs_phi _]/= [rs_rho _]/= [rs_b _]/= E2 /re_smu2 expr1n invr1 subrr mulr0 mul0r.
Qed.
(** the same data with y divided by four: the variance reported for phi is negative *)
Theorem C82_negative_variance_refuted : exists r,
  base_re_lag true gminphi gminrho wu (gy (1 / 4%:R)) ex wW 1 100 = Some r /\ rl_vm r (phi_ix 1) (phi_ix 1) < 0.
Proof.
have c0 : 0 < 1 / 4%:R :> R by rewrite divr_gt0 ?ltr01 ?ltr0n.
have c4 : (1 / 4%:R : R) ^+ 2 != 1 / 4%:R.
  have G (c : R) : 0 < c -> c != 1 -> c ^+ 2 != c.
    by move=> d0 d1; rewrite expr2 -[X in _ != X]mulr1 (inj_eq (mulfI (lt0r_neq0 d0))).
  by apply: G => //; rewrite mul1r -[X in _ != X]invr1 (inj_eq invr_inj) pnatr_eq1.
have [r [Hr [Eb Er Ep Es]]] := gfinal c0 c4; exists r; split=> //.
have p0 : 0 < rl_phi r by rewrite Ep ltr01.
have := C82_phi_variance (isT : (0 < 2)%N) (isT : (0 < 2 + 2)%N) wzd Hr Er p0.
rewrite Ep Es.
have -> : (2 + 2)%N%:R * (1 + 1 / 1 ^+ 2 - 2%:R / (2%:R * (2%:R * (1 / 4%:R) ^+ 2))) = - 24%:R :> R.
  have -> : (2 + 2)%N%:R = 4%:R :> R by [].
  have -> : 4%:R = 2%:R * 2%:R :> R by rewrite -natrM.
  have -> : 24%:R = 2%:R * 2%:R * (2%:R * 2%:R * 2%:R - 2%:R) :> R by rewrite -!natrM -natrB // -natrM.
  have t2 : 2%:R != 0 :> R by rewrite pnatr_eq0.
  rewrite -[1 + 1 / 1 ^+ 2](_ : 2%:R = _); last by rewrite expr1n divr1.
  move: (2%:R : R) t2 => tw t2; mfield R_realFieldType.
by split; [exact/eqP|exact: R1_neq_R0].
move=> H; rewrite ltNge; apply/negP => V; have : rl_vm r (phi_ix 1) (phi_ix 1) * - 24%:R <= 0 by rewrite mulrN oppr_le0 mulr_ge0 ?ler0n.
by rewrite H leNgt ltr01.
Qed.
