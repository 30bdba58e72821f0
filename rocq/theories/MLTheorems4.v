(** C60 for the reported covariance matrices, and a case that meets the hypotheses of the C29 and C60 theorems. *)
From Coq Require Import Reals Ring Field.
From mathcomp Require Import all_ssreflect all_algebra.
From Verif Require Import Rinst Mring LinRegModel LinRegProofs LinRegProofs2 FilterModel MLModel MLSpec MLProofs MLTheorems MLTheorems3.
Set Implicit Arguments.
Unset Strict Implicit.
Unset Printing Implicit Defensive.
Import Order.TTheory GRing.Theory Num.Theory.
Local Open Scope ring_scope.


(** principal submatrices *)
Lemma pd_principal k l (A : 'M[R]_l) (f : 'I_k -> 'I_l) : injective f -> pd A -> pd (\matrix_(i, j) A (f i) (f j)).
Proof.
move=> fi [HS HP]; pose P : 'M[R]_(l, k) := \matrix_(a, i) (a == f i)%:R.
have E : \matrix_(i, j) A (f i) (f j) = P^T *m A *m P.
  apply/matrixP => i j; rewrite mxE [RHS]mxE (bigD1 (f j)) //= [X in _ + X]big1 ?addr0.
    rewrite [P _ _]mxE eqxx mulr1 [RHS]mxE (bigD1 (f i)) //= [X in _ + X]big1 ?addr0 => [|a Ha].
      by rewrite [P^T _ _]mxE [P _ _]mxE eqxx mul1r.
    by rewrite [P^T _ _]mxE [P _ _]mxE (negbTE Ha) mul0r.
  by move=> a Ha; rewrite [P a j]mxE (negbTE Ha) mulr0.
split; first by apply/matrixP => i j; rewrite !mxE -{1}HS mxE.
move=> c c0; rewrite E -!mulmxA mulmxA -trmx_mul mulmxA; apply: HP; apply: contra c0 => /eqP H; apply/eqP/matrixP => i j.
move/matrixP: H => /(_ (f i) j); rewrite !mxE (bigD1 i) //= big1 ?addr0 => [|a Ha]; first by rewrite mxE eqxx mul1r.
by rewrite mxE (inj_eq fi) eq_sym (negbTE Ha) mul0r.
Qed.
Lemma pd_diag l (A : 'M[R]_l) i : pd A -> 0 < A i i.
Proof.
case=> _ H; have := H (delta_mx i 0); rewrite trmx_delta -rowE -colE !mxE; apply.
by apply/eqP => /matrixP /(_ i 0); rewrite !mxE !eqxx => /eqP; rewrite oner_eq0.
Qed.

(** C60: whenever the error model returns with a non-zero residual, both reported covariance matrices are positive definite. *)
Theorem C60_err_vm : forall n k (y : 'cV[R]_n) (x : 'M[R]_(n, k)) (W Winfo Wlag : 'M[R]_n) res r,
  (0 < n)%N -> base_ml_err y x W Winfo Wlag res = Some r -> me_efilt r != 0 ->
  pd (me_vm1 r) /\ pd (me_vm r).
Proof.
move=> n k y x W Winfo Wlag [lam fn] r n0; rewrite /base_ml_err.
case E: la_inv => [xi|//]; case E2: la_inv => [ai|//]; case E3: la_inv => [v|//] [<-] /=.
set ef := (y - _) - _; move=> e0; have s0 : 0 < (ef^T *m ef) 0 0 / n%:R.
  by rewrite divr_gt0 ?ltr0n // -utuE lt_def utu_ge0 utu_eq0 e0.
have [U1 Ev] := la_invP E3; have [P _] := C60_err_info (Winfo *m ai) s0 n0.
have Pv : pd v by rewrite Ev; apply: pd_inv; exact: psd_unit_pd P U1.
split=> //; apply: pd_diag_block.
- have [U2 Ex] := la_invP E; rewrite Ex; apply: pd_scale => //; apply: pd_inv; exact: gram_pd.
- by apply: pd_scalar1; exact: pd_diag Pv.
Qed.
(** C60: the same for the lag model. *)
Theorem C60_lag_vm : forall n k (y : 'cV[R]_n) (x : 'M[R]_(n, k)) (W Winfo Wlag : 'M[R]_n) res eps mx r,
  (0 < n)%N -> base_ml_lag y x W Winfo Wlag res eps mx = Some r -> ml_u r != 0 ->
  pd (ml_vm1 r) /\ pd (ml_vm r).
Proof.
move=> n k y x W Winfo Wlag [rho fn] eps mx r n0; rewrite /base_ml_lag.
case E: lag_aux_of => [ax|//]; case: power_expansion => [p|//]; case E2: la_inv => [ai|//]; case E3: la_inv => [v|//] [<-] /=.
move=> u0; set u := la_e0 ax - _ in u0 E3; have s0 : 0 < utu_of u / n%:R.
  by rewrite divr_gt0 ?ltr0n // lt_def utu_ge0 utu_eq0 u0.
have [U1 Ev] := la_invP E3; have [P _] := C60_lag_info x (Wlag *m p) (Winfo *m ai) s0 n0.
have Pv : pd v by rewrite Ev; apply: pd_inv; exact: psd_unit_pd P U1.
split=> //; apply: pd_principal => // i j /cast_ord_inj; exact: lshift_inj.
Qed.
(** C60: when a result is returned.  x of full column rank, W row standardised, |lam| < 1, no exact fit, and W (I - lam W)^-1 with a
    symmetric part that is not a multiple of the identity. *)
Theorem C60_err_defined : forall n k (y : 'cV[R]_n) (x : 'M[R]_(n, k)) (W : 'M[R]_n) lam fn,
  (0 < n)%N -> zero_diag W -> substochastic W -> `|lam| < 1 -> (forall c : 'cV[R]_k, x *m c = 0 -> c = 0) ->
  (forall b, y - x *m b != 0) -> (forall a, wai_of W lam + (wai_of W lam)^T <> a%:M) ->
  exists r, base_ml_err y x W W W (lam, fn) = Some r.
Proof.
move=> n k y x W lam fn n0 Wd [W0 W1] l1 Hx Hne HG; rewrite /base_ml_err.
have UA := dominance W0 W1 l1; set X := x - lam *: (W *m x).
have EX : X = (1%:M - lam *: W) *m x by rewrite mulmxBl mul1mx -scalemxAl.
have UX : X^T *m X \in unitmx.
  by apply/gram_unit => c; rewrite EX -mulmxA => H; apply: Hx; move: H; apply: (iffLR (unitmx_inj _)).
rewrite (la_inv_unit UX); set b := invmx _ *m _; rewrite (la_inv_unit (A := a_of W lam)) ?a_ofE //.
set ef := (y - _) - _; have s0 : 0 < (ef^T *m ef) 0 0 / n%:R.
  rewrite divr_gt0 ?ltr0n // -utuE lt_def utu_ge0 utu_eq0 andbT.
  have -> : ef = (1%:M - lam *: W) *m (y - x *m b) by rewrite mulmxBl mul1mx -scalemxAl.
  apply/eqP => H0; have := Hne b; move/eqP; apply; exact: (iffLR (unitmx_inj _) UA).
have [_ [_ U]] := C60_err_info (W *m invmx (1%:M - lam *: W)) s0 n0.
rewrite la_inv_unit; first by eexists.
by apply: U => a; have := HG a; rewrite /wai_of a_ofE.
Qed.
Theorem C60_lag_defined : forall n k (y : 'cV[R]_n) (x : 'M[R]_(n, k)) (W : 'M[R]_n) rho fn eps mx p ax,
  (0 < n)%N -> zero_diag W -> substochastic W -> `|rho| < 1 -> (forall c : 'cV[R]_k, x *m c = 0 -> c = 0) ->
  (forall b, (1%:M - rho *: W) *m y - x *m b != 0) -> (forall a, wai_of W rho + (wai_of W rho)^T <> a%:M) ->
  lag_aux_of y x W = Some ax -> power_expansion W (x *m (la_b0 ax - rho *: la_b1 ax)) rho eps mx = Done p ->
  exists r, base_ml_lag y x W W W (rho, fn) eps mx = Some r.
Proof.
move=> n k y x W rho fn eps mx p ax n0 Wd [W0 W1] r1 Hx Hne HG Hax Hp; rewrite /base_ml_lag Hax Hp.
have UA := dominance W0 W1 r1; rewrite (la_inv_unit (A := a_of W rho)) ?a_ofE //.
have [Eu _ _] := lag_aux_fit rho Hax; set u := la_e0 ax - _ in Eu *.
have s0 : 0 < utu_of u / n%:R by rewrite divr_gt0 ?ltr0n // lt_def utu_ge0 utu_eq0 Eu Hne.
have [_ U] := C60_lag_info x (W *m p) (W *m invmx (1%:M - rho *: W)) s0 n0.
rewrite la_inv_unit; first by eexists.
by apply: pd_unit; apply: U => // a; have := HG a; rewrite /wai_of a_ofE.
Qed.

(** A case that meets the hypotheses of C29_lag_global and C29_err_global: four observations in two pairs, a constant, y = (2, 0, 0, -2). *)
Section Witness.
Add Field Rf : (@p_ft R_realFieldType).
Definition wW : 'M[R]_(2 + 2) := block_mx 0 1%:M 1%:M 0.
Definition wy : 'cV[R]_(2 + 2) := \col_i (if i == 0%N :> nat then 2%:R else if i == 3%N :> nat then - 2%:R else 0).
Definition wx : 'M[R]_(2 + 2, 1) := const_mx 1.
Definition wWy : 'cV[R]_(2 + 2) := \col_i (if i == 2%N :> nat then 2%:R else if i == 1%N :> nat then - 2%:R else 0).
Lemma wWyE : wW *m wy = wWy.
Proof.
rewrite -[wy]vsubmxK /wW mul_block_col !mul0mx !mul1mx add0r addr0 -[wWy]vsubmxK; congr (col_mx _ _);
 apply/matrixP => i j; rewrite !mxE; by case: i => -[|[|//]] Hi.
Qed.
Lemma wxy : wx^T *m wy = 0.
Proof. by apply/matrixP => i j; rewrite !mxE !big_ord_recl big_ord0 !mxE /= !mul1r !addr0 !add0r subrr. Qed.
Lemma wxWy : wx^T *m wWy = 0.
Proof. by apply/matrixP => i j; rewrite !mxE !big_ord_recl big_ord0 !mxE /= !mul1r !addr0 !add0r addNr. Qed.
Lemma wxW : wW *m wx = wx.
Proof.
have -> : wx = col_mx (const_mx 1) (const_mx 1) :> 'M[R]_(2 + 2, 1).
  by apply/matrixP => i j; rewrite !mxE; case: split => a; rewrite mxE.
by rewrite /wW mul_block_col !mul0mx !mul1mx add0r addr0.
Qed.
Lemma wxx (c : 'cV[R]_1) : wx *m c = 0 -> c = 0.
Proof. move/matrixP => H; apply/matrixP => i j; move: (H 0 j); rewrite !mxE big_ord_recl big_ord0 mxE mul1r addr0 (ord1 i) => -> //. Qed.
Lemma wzd : zero_diag wW.
Proof. by move=> i; rewrite /wW -[i]splitK; case: split => a; rewrite /= ?block_mxEul ?block_mxEdr mxE. Qed.
Lemma wsub : substochastic wW.
Proof.
split=> [i j|i]; rewrite /wW.
  rewrite -[i]splitK -[j]splitK; case: split => a; case: split => b; rewrite /= ?block_mxEul ?block_mxEdr ?block_mxEur ?block_mxEdl ?mxE ?ler0n //.
have -> : \sum_j block_mx 0 1%:M 1%:M 0 i j = (wW *m wx) i 0 by rewrite mxE; apply: eq_bigr => j _; rewrite [wx _ _]mxE mulr1.
by rewrite wxW mxE.
Qed.
Lemma wdet rho : \det (1%:M - rho *: wW) = (1 - rho ^+ 2) ^+ 2.
Proof.
have E : 1%:M - rho *: wW = block_mx 1%:M 0 (- rho)%:M 1%:M *m block_mx 1%:M (- rho)%:M 0 (1 - rho ^+ 2)%:M.
  rewrite mulmx_block !mul1mx !mulmx1 !mul0mx ?mulmx0 !addr0 -scalar_mxM -raddfD /= mulrNN -expr2 [rho ^+ 2 + _]addrC subrK.
  have -> : 1%:M = block_mx 1%:M 0 0 1%:M :> 'M[R]_(2 + 2) by rewrite -scalar_mx_block.
  rewrite /wW scale_block_mx opp_block_mx add_block_mx !scaler0 !oppr0 !addr0 !add0r.
  have -> : (- rho)%:M = - (rho *: 1%:M) :> 'M[R]_2 by rewrite scalemx1 raddfN.
  by [].
by rewrite E det_mulmx det_lblock det_ublock !det1 !mul1r det_scalar.

Qed.
Lemma wssq rho : ssq (wy - rho *: wWy) = 8%:R * (1 + rho ^+ 2).
Proof.
have -> : 8%:R = 2%:R * 2%:R * 2%:R :> R by rewrite -!natrM.
rewrite /ssq !big_ord_recl big_ord0 !mxE /= !expr2; mring R_realFieldType.
Qed.
Lemma wxtx : wx^T *m wx \in unitmx.
Proof. apply/gram_unit; exact: wxx. Qed.
Definition wax : lag_aux (2 + 2) 1 := LagAux 0 0 wy wWy.
Lemma waxE : lag_aux_of wy wx wW = Some wax.
Proof. by rewrite /lag_aux_of (la_inv_unit wxtx) wWyE wxy wxWy !mulmx0 !subr0. Qed.
Definition wobj rho : R := 2%:R * ln (2%:R * (1 + rho ^+ 2)) - ln ((1 - rho ^+ 2) ^+ 2).
Lemma wn : ((2 + 2)%N%:R / 2%:R : R) = 2%:R.
Proof. have T : (2%:R : R_realFieldType) != 0 by rewrite pnatr_eq0.
by rewrite natrD mulrDl (divff T). Qed.
Lemma wlt (rho : R) : `|rho| < 1 -> 0 < 1 - rho ^+ 2.
Proof. by move=> H; rewrite subr_gt0 -real_normK ?num_real // exprn_ilt1. Qed.
Lemma w1p rho : 0 < 1 + rho ^+ 2 :> R. Proof. by rewrite ltr_paddr ?sqr_ge0 ?ltr01. Qed.
Lemma wcE S rho : `|rho| < 1 -> S = 8%:R * (1 + rho ^+ 2) -> c_loglik_full S rho wW = Some (wobj rho).
Proof.
move=> r1 ->; rewrite /c_loglik_full /np_log (a_ofE rho wzd) wdet exprn_gt0 ?wlt //.
have -> : 8%:R * (1 + rho ^+ 2) / (2 + 2)%N%:R = 2%:R * (1 + rho ^+ 2) :> R.
  have -> : 8%:R = 2%:R * (2 + 2)%N%:R :> R by rewrite -natrM.
  by rewrite mulrAC mulfK // pnatr_eq0.
by rewrite mulr_gt0 ?w1p ?ltr0n // wn.
Qed.
Lemma wmin rho : `|rho| < 1 -> wobj 0 <= wobj rho.
Proof.
move=> r1; rewrite /wobj expr0n /= addr0 subr0 expr1n ln1 subr0 mulr1.
rewrite lnM ?ltr0n ?w1p // [(1 - rho ^+ 2) ^+ 2]expr2 lnM ?wlt // mulrDr -addrA ler_addl mulr2n mulrDl mul1r subr_ge0.
have H : ln (1 - rho ^+ 2) <= ln (1 + rho ^+ 2).
  by apply: ln_le_mono; rewrite ?wlt // ler_add2l ge0_cp // sqr_ge0.
exact: ler_add.
Qed.
Lemma wG a : wai_of wW 0 + (wai_of wW 0)^T <> a%:M.
Proof.
rewrite /wai_of (a_ofE _ wzd) scale0r subr0 invmx1 mulmx1 => /matrixP /(_ (lshift 2 0) (rshift 2 0)).
rewrite mxE [(wW^T) _ _]mxE /wW block_mxEur block_mxEdl !mxE eqxx /= ?mulr0n.
by move/eqP; rewrite -mulr2n pnatr_eq0.
Qed.
Lemma wne rho b : `|rho| < 1 -> (1%:M - rho *: wW) *m wy - wx *m b != 0.
Proof.
move=> r1; have [Eu _ Hm] := lag_aux_fit rho waxE; apply/eqP => H0.
have := Hm b; rewrite H0 /= wssq => /eqP; rewrite /ssq big1 => [|i _]; last by rewrite mxE expr0n.
rewrite eq_sym paddr_eq0 ?utu_ge0 ?mulr_ge0 ?(ltW (w1p _)) ?ler0n //.
by rewrite mulf_eq0 pnatr_eq0 /= gt_eqF ?w1p.
Qed.
Lemma w01 : `|0 : R| < 1. Proof. by rewrite normr0 ltr01. Qed.


Lemma wpe mx : power_expansion wW (0 : 'cV[R]_(2 + 2)) 0 1 mx = Done 0.
Proof.
rewrite /power_expansion; case: mx => [|m]; rewrite [pe_loop _ _ _ _ _ _]/=; first by case: ifP.
rewrite scale0r.
have Z : la_norm (0 : 'cV[R]_(2 + 2)) = 0.
  rewrite /la_norm big1 ?sqrtr0 // => i _; rewrite big1 // => j _; by rewrite mxE expr0n.
rewrite Z addr0 [test0 _ < 0]ltNge /test0 exprn_ge0 ?ler0n //.
by case: m => [|m]; rewrite /pe_loop -/pe_loop [(1 : R) < 0]ltNge ler01; case: ifP.
Qed.
Lemma wssrE rho : lag_ssr wax rho = 8%:R * (1 + rho ^+ 2). Proof. by rewrite /lag_ssr -utuE; exact: wssq. Qed.

Example C29_lag_witness : exists r,
  base_ml_lag wy wx wW wW wW (0, wobj 0) 1 100 = Some r /\
  forall b' rho' s2, `|rho'| < 1 -> 0 < s2 -> lag_loglik wy wx wW b' rho' s2 <= lag_loglik wy wx wW (ml_b r) (ml_rho r) (ml_sig2 r).
Proof.
move: (100%N) => mx.
have Hp : power_expansion wW (wx *m (la_b0 wax - 0 *: la_b1 wax)) 0 1 mx = Done 0.
  have -> : la_b0 wax - 0 *: la_b1 wax = 0 by rewrite [la_b1 wax]/= [la_b0 wax]/= scaler0 subr0.
  rewrite mulmx0; exact: wpe.
have [r Hr] := C60_lag_defined (wobj 0) (isT : (0 < 2 + 2)%N) wzd wsub w01 wxx (fun b => wne b w01) wG waxE Hp.
exists r; split=> //; apply: (C29_lag_global _ wzd wsub waxE _ _ _ Hr) => //.
- by move=> b rho; exact: wne.
- exact: wcE w01 (wssrE 0).
- move=> rho fn r1; rewrite (wcE r1 (wssrE rho)); case=> <-; exact: wmin.
Qed.
End Witness.
Print Assumptions C29_lag_witness.
