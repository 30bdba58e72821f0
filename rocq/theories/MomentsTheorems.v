(** Property theorems C25 (filtering a regimes model), C26 (GM moments), C27 (HET/HOM moments), C58 (moment objective),
    C59 (GM error estimates).  spreg/utils.py, spreg/error_sp.py, spreg/error_sp_regimes.py. *)
From mathcomp Require Import all_ssreflect all_algebra.
From Coq Require Import Ring Field.
From Verif Require Import Mring LinRegModel LinRegProofs LinRegProofs3 FilterModel FilterProofs.
Set Implicit Arguments.
Unset Strict Implicit.
Unset Printing Implicit Defensive.
Import Order.TTheory GRing.Theory Num.Theory.
Local Open Scope ring_scope.

Section Dot.
Variable R : realFieldType.
Variable n : nat.
Implicit Types u v z : 'cV[R]_n.
Lemma dotC u v : dot u v = dot v u.
Proof. by rewrite /dot !dotE; apply: eq_bigr => i _; rewrite mulrC. Qed.
Lemma dotDl u v z : dot (u + v) z = dot u z + dot v z.
Proof. by rewrite /dot linearD mulmxDl mxE. Qed.
Lemma dotDr u v z : dot z (u + v) = dot z u + dot z v.
Proof. by rewrite /dot mulmxDr mxE. Qed.
Lemma dotZl a u v : dot (a *: u) v = a * dot u v.
Proof. by rewrite /dot !dotE big_distrr; apply: eq_bigr => i _; rewrite /= mxE mulrA. Qed.
Lemma dotZr a u v : dot u (a *: v) = a * dot u v.
Proof. by rewrite dotC dotZl dotC. Qed.
Lemma dotNl u v : dot (- u) v = - dot u v.
Proof. by rewrite -scaleN1r dotZl mulN1r. Qed.
Lemma dotNr u v : dot u (- v) = - dot u v.
Proof. by rewrite dotC dotNl dotC. Qed.
Lemma dot_adj (A : 'M[R]_n) u v : dot (A *m u) v = dot u (A^T *m v).
Proof. by rewrite /dot trmx_mul mulmxA. Qed.
End Dot.
Definition dotE' := (dotDl, dotDr, dotNl, dotNr, dotZl, dotZr).


Section Moments.
Variable R : realFieldType.
Add Field Rf : (@p_ft R).

(** C26: with e = u - lam W u the moment equations of Kelejian and Prucha: e'e/n - s2, (We)'(We)/n - s2 tr(W'W)/n, e'We/n. *)
Theorem C26_gm_moments : forall n (W : 'M[R]_n) (u : 'cV[R]_n) (lam s2 : R), (0 < n)%N ->
  let m := moments_gm_error W u in
  let e := u - lam *: (W *m u) in
  let d := m.2 - m.1 *m par3 lam s2 in
  d 0 0 = dot e e / n%:R - s2 /\
  d 1 0 = dot (W *m e) (W *m e) / n%:R - s2 * (\tr (W^T *m W) / n%:R) /\
  d 2%:R 0 = dot e (W *m e) / n%:R.
Proof.
move=> n W u lam s2 n0 m e d.
have N0 : n%:R <> 0 :> R by apply/eqP; rewrite pnatr_eq0 -lt0n.
have D i : d i 0 = m.2 i 0 - (m.1 i 0 * lam + m.1 i 1 * lam ^+ 2 + m.1 i 2%:R * s2).
  rewrite /d !mxE !big_ord_recl big_ord0 !mxE /= addr0; congr (_ - _).
  by rewrite !addrA; do 3!congr (_ + _); congr (_ * _); congr (fun_of_matrix _ _ _); apply: val_inj.
rewrite !D /m /moments_gm_error !mxE /= /e.
have -> : W *m (u - lam *: (W *m u)) = W *m u - lam *: (W *m (W *m u)) by rewrite mulmxBr -scalemxAr.
rewrite !dotE' (dotC (W *m u) u) (dotC (W *m (W *m u)) (W *m u)) -/(\tr (W^T *m W)).
move: (\tr (W^T *m W)) => t.
by split; last split; mfield R.
Qed.

(** C26: hence the three conditions hold at (lam, s2) exactly when the filtered residual has mean square s2, its lag has mean square
    s2 tr(W'W)/n, and the two are uncorrelated. *)
Theorem C26_zero_iff : forall n (W : 'M[R]_n) (u : 'cV[R]_n) (lam s2 : R), (0 < n)%N ->
  let e := u - lam *: (W *m u) in
  foptim_par (par3 lam s2) (moments_gm_error W u) = 0 <->
  [/\ dot e e / n%:R = s2, dot (W *m e) (W *m e) / n%:R = s2 * (\tr (W^T *m W) / n%:R) & dot e (W *m e) / n%:R = 0].
Proof.
move=> n W u lam s2 n0 e; have [H0 [H1 H2]] := C26_gm_moments W u lam s2 n0.
have E3 : forall F : 'I_3 -> R, \sum_i F i = F 0 + F 1 + F 2%:R.
  move=> F; rewrite !big_ord_recl big_ord0 addr0 !addrA; congr (_ + _ + _); congr F; exact: val_inj.
rewrite /foptim_par E3 H0 H1 H2 -/e; split.
- move/eqP; rewrite !paddr_eq0 ?addr_ge0 ?sqr_ge0 // !sqrf_eq0 !subr_eq0 => /andP[/andP[/eqP -> /eqP ->] /eqP ->]; by split.
- by move=> [H3 H4 H5]; rewrite H3 H4 H5 !subrr !expr0n /= !addr0.
Qed.

(** C27: the two-equation system: (1/n) (e'A1 e, e' A2 e) for any A1, with e = u - lam W u; A2 is given either as W or as its
    symmetric part, which have the same quadratic form. *)
Theorem C27_two_moments : forall n (A1 W : 'M[R]_n) (u : 'cV[R]_n) (lam : R), (0 < n)%N ->
  let m := moments2eqs A1 W u in
  let e := u - lam *: (W *m u) in
  let d := m.2 - m.1 *m par2 lam in
  d 0 0 = dot e (A1 *m e) / n%:R /\ d 1 0 = dot e (get_A2_hom W *m e) / n%:R /\ d 1 0 = dot e (W *m e) / n%:R.
Proof.
move=> n A1 W u lam n0 m e d.
have N0 : n%:R <> 0 :> R by apply/eqP; rewrite pnatr_eq0 -lt0n.
have D i : d i 0 = m.2 i 0 - (m.1 i 0 * lam + m.1 i 1 * lam ^+ 2).
  rewrite /d !mxE !big_ord_recl big_ord0 !mxE /= addr0; congr (_ - _).
have A2 : dot e (get_A2_hom W *m e) = dot e (W *m e).
  rewrite /get_A2_hom -scalemxAl dotZr mulmxDl dotDr -[dot e (W^T *m e)]dot_adj (dotC (W *m e)).
  have T0 : (1 + 1 : R) <> 0 by apply/eqP; rewrite -(natrD _ 1 1) pnatr_eq0.
  by mfield R.
have Q : (((W *m u)^T *m A1) *m (W *m u)) 0 0 = dot (W *m u) (A1 *m (W *m u)) by rewrite /dot -[((W *m u)^T *m A1) *m _]mulmxA.
rewrite A2 !D /m /moments2eqs Q !mxE /= /e.

have -> : A1 *m (u - lam *: (W *m u)) = A1 *m u - lam *: (A1 *m (W *m u)) by rewrite mulmxBr -scalemxAr.
have -> : W *m (u - lam *: (W *m u)) = W *m u - lam *: (W *m (W *m u)) by rewrite mulmxBr -scalemxAr.
rewrite !dotE' !mulmxDl !dotDr -[dot u (A1^T *m _)]dot_adj -[dot u (W^T *m _)]dot_adj (dotC (A1 *m u)).
by split; last split; mfield R.
Qed.

(** C27: the HET weight matrix has a zero diagonal and otherwise the entries of W'W. *)
Theorem C27_A1_het : forall n (W : 'M[R]_n) i j,
  get_A1_het W i j = if i == j then 0 else (W^T *m W) i j.
Proof. by move=> n W i j; rewrite /get_A1_het !mxE; case: eqP => [->|_]; rewrite ?subrr ?subr0. Qed.

(** C27: the HOM weight matrix has zero trace and is symmetric, with or without the scalar; off the diagonal it is proportional to W'W. *)
Theorem C27_A1_hom : forall n (W : 'M[R]_n) (b : bool), (0 < n)%N ->
  \tr (get_A1_hom W b) = 0 /\ (get_A1_hom W b)^T = get_A1_hom W b /\
  exists c, c != 0 /\ forall i j, i != j -> get_A1_hom W b i j = c * (W^T *m W) i j.
Proof.
move=> n W b n0.
have N0 : n%:R != 0 :> R by rewrite pnatr_eq0 -lt0n.
set t := (\sum_i (W^T *m W) i i) / n%:R.
have T0 : \tr (W^T *m W - t%:M) = 0.
  by rewrite linearB /= mxtrace_scalar /mxtrace /t -mulr_natr mulfVK // subrr.
have S0 : (W^T *m W - t%:M)^T = W^T *m W - t%:M by rewrite linearB /= tr_scalar_mx trmx_mul trmxK.
have O0 i j : i != j -> (W^T *m W - t%:M) i j = (W^T *m W) i j.
  by move=> H; rewrite [LHS]mxE [(- t%:M) i j]mxE [t%:M i j]mxE (negbTE H) mulr0n oppr0 addr0.
rewrite /get_A1_hom -/t; case: b; split.
- by rewrite linearZ /= T0 mulr0.
- split; first by rewrite linearZ /= S0.
  exists (1 + t ^+ 2)^-1; split; last by move=> i j H; rewrite mxE O0.
  by rewrite invr_eq0 gt_eqF // ltr_paddr ?ltr01 ?sqr_ge0.
- exact: T0.
- split; first exact: S0.
  by exists 1; split; [exact: oner_neq0|move=> i j H; rewrite mul1r O0].
Qed.
End Moments.

Section Objective.
Variable R : realFieldType.

Lemma minl_le (l : seq R) a : a \in l -> minl l <= a.
Proof.
have aux (s : seq R) : forall b c, (c \in b :: s) -> foldl Num.min b s <= c.
  elim: s => [|d s IH] b c /=; first by rewrite inE => /eqP ->.
  rewrite !inE => /or3P[/eqP ->|/eqP ->|H].
  - by apply: le_trans (IH (Num.min b d) (Num.min b d) _) _; rewrite ?inE ?eqxx // le_minl lexx.
  - by apply: le_trans (IH (Num.min b d) (Num.min b d) _) _; rewrite ?inE ?eqxx // le_minl lexx orbT.
  - by apply: IH; rewrite inE H orbT.
by case: l => [|b s] //; exact: aux.
Qed.

Lemma foptim_scale m p (c : R) (par : 'cV[R]_p) (mom : 'M[R]_(m, p) * 'cV[R]_m) :
  foptim_par par (c *: mom.1, c *: mom.2) = c ^+ 2 * foptim_par par mom.
Proof.
rewrite /foptim_par big_distrr /=; apply: eq_bigr => i _.
by rewrite -scalemxAl -scalerBr mxE exprMn.
Qed.

(** C58: the function that is minimised is, up to a positive constant, the squared length of g - G p, and the quadratic form of
    g - G p in the inverse of the given covariance matrix when one is given (L is the lower Cholesky factor of that inverse).
    The constant does not depend on p, so that the same parameter vectors are preferred. *)
Theorem C58_objective : forall m p (mom : 'M[R]_(m, p) * 'cV[R]_m), mom_scale mom != 0 ->
  exists c, 0 < c /\ forall par, optim_objective None mom par = c * foptim_par par mom.
Proof.
move=> m p mom S0; exists ((mom_scale mom)^-1 ^+ 2); split; first by rewrite exprn_even_gt0 //= invr_eq0.
by move=> par; rewrite /optim_objective foptim_scale.
Qed.
Theorem C58_weighted_objective : forall m p (mom : 'M[R]_(m, p) * 'cV[R]_m) (V L : 'M[R]_m),
  V \in unitmx -> L *m L^T = invmx V -> mom_scale (weight_moments (Some L) mom) != 0 ->
  exists c, 0 < c /\ forall par, let d := mom.2 - mom.1 *m par in
    optim_objective (Some L) mom par = c * (d^T *m invmx V *m d) 0 0.
Proof.
move=> m p mom V L UV HL S0; exists ((mom_scale (weight_moments (Some L) mom))^-1 ^+ 2); split.
  by rewrite exprn_even_gt0 //= invr_eq0.
move=> par d; rewrite /optim_objective foptim_scale; congr (_ * _).
rewrite /foptim_par /= -mulmxA -mulmxBr -/d -HL.
have -> : d^T *m (L *m L^T) *m d = (L^T *m d)^T *m (L^T *m d) by rewrite trmx_mul trmxK !mulmxA.
by rewrite -utuE.
Qed.
(** C58: preferences between parameter vectors are those of the unscaled objective. *)
Theorem C58_same_minimisers : forall m p (mom : 'M[R]_(m, p) * 'cV[R]_m) par par', mom_scale mom != 0 ->
  (optim_objective None mom par <= optim_objective None mom par') = (foptim_par par mom <= foptim_par par' mom).
Proof. by move=> m p mom par par' /C58_objective [c [c0 H]]; rewrite !H ler_pmul2l. Qed.
(** C58: for the GM error moments the scale is non-zero (negative) unless the residuals have no spatial lag at all. *)
Theorem C58_scale_gm : forall n (W : 'M[R]_n) (u : 'cV[R]_n), (0 < n)%N -> W *m u != 0 -> mom_scale (moments_gm_error W u) < 0.
Proof.
move=> n W u n0 Hu; apply: (@le_lt_trans _ _ ((moments_gm_error W u).1 0 1)).
  apply: minl_le; rewrite mem_cat; apply/orP; left; apply/allpairsP; exists (0, 1); by rewrite !mem_enum.
rewrite mxE /= ltr_pdivr_mulr ?ltr0n // mul0r oppr_lt0 /dot -utuE lt_def utu_eq0 utu_ge0 Hu //.
Qed.
End Objective.

Section GmError.
Variable R : realFieldType.

Lemma sp_filter_resid n k (W : 'M[R]_n) lam (y : 'cV[R]_n) (x : 'M[R]_(n, k)) b :
  sp_filter W lam y - sp_filter W lam x *m b = (y - x *m b) - lam *: (W *m (y - x *m b)).
Proof.
have F p (z : 'M[R]_(n, p)) : sp_filter W lam z = (1%:M - lam *: W) *m z by rewrite /sp_filter mulmxBl mul1mx scalemxAl.
by rewrite -[RHS]/(sp_filter W lam _) !F mulmxBr mulmxA.
Qed.

Lemma sp_filterE n k (W : 'M[R]_n) lam (x : 'M[R]_(n, k)) i c : sp_filter W lam x i c = x i c - lam * \sum_l W i l * x l c.
Proof. by rewrite /sp_filter mxE [X in _ + X]mxE [X in - X]mxE [X in _ * X]mxE. Qed.

(** C59: the GM error model: residual and fit add to y; the filtered residual is the residual of the second regression, its mean
    square is sig2, it is orthogonal to the filtered regressors, and the coefficients minimise its sum of squares at the reported
    lambda. *)
Theorem C59_gm_error : forall n k optim (y : 'cV[R]_n) (x : 'M[R]_(n, k)) (W : 'M[R]_n) r,
  base_gm_error optim y x W = Some r ->
  let A := 1%:M - ge_lambda r *: W in
  [/\ ge_predy r = x *m ge_betas r /\ ge_predy r + ge_u r = y,
      ge_efilt r = A *m ge_u r,
      ge_sig2 r = dot (ge_efilt r) (ge_efilt r) / n%:R,
      (A *m x)^T *m ge_efilt r = 0
    & ge_vm r = ge_sig2 r *: invmx ((A *m x)^T *m (A *m x)) /\
      forall b, dot (ge_efilt r) (ge_efilt r) <= dot (A *m (y - x *m b)) (A *m (y - x *m b))].
Proof.
move=> n k optim y x W r; rewrite /base_gm_error.
case E1: (base_ols y x) => [o1|//]; case E2: base_ols => [o2|//] [<-] /=.
set lam := optim _ in E2 *.
have F (z : 'cV[R]_n) : (1%:M - lam *: W) *m z = sp_filter W lam z by rewrite /sp_filter mulmxBl mul1mx scalemxAl.
have Fx : (1%:M - lam *: W) *m x = sp_filter W lam x by rewrite /sp_filter mulmxBl mul1mx scalemxAl.
have [_ [Hp [Hu _]]] : True /\ o_predy o2 = sp_filter W lam x *m o_betas o2 /\ o_u o2 = sp_filter W lam y - sp_filter W lam x *m o_betas o2 /\ True.
  move: E2; rewrite /base_ols; case: la_inv => // xi [<-]; by [].
have He : (y - x *m o_betas o2) - lam *: (W *m (y - x *m o_betas o2)) = o_u o2 by rewrite Hu sp_filter_resid.
rewrite He Fx; split.
- by rewrite addrCA subrr addr0.
- by rewrite F /sp_filter He.
- by rewrite /sig2_of utuE.
- exact: ols_orth E2.
- split.
  + move: E2; rewrite /base_ols; case E3: la_inv => [xi|//] [<-] /=; by have [_ ->] := la_invP E3.
  + move=> b; rewrite F; have := ols_min b E2; rewrite sp_filter_resid => H.
    by rewrite /dot -!utuE [X in _ <= X]H ler_addl utu_ge0.
Qed.

(** C25: with regimes.  Filtering the data and expanding the filtered columns by regime is the same as filtering the expanded
    design, for all data, exactly when no link of W crosses regimes (or lam = 0). *)
Theorem C25_filter_commutes_iff : forall n m (g : 'I_n -> 'I_m) (W : 'M[R]_n) (lam : R),
  (forall k (x : 'M[R]_(n, k)), regime_x g (sp_filter W lam x) = sp_filter W lam (regime_x g x)) <->
  (lam = 0 \/ forall i j, W i j != 0 -> g i = g j).
Proof.
move=> n m g W lam; split.
- move=> H; have [->|L0] := eqVneq lam 0; [by left|right] => i l Wil; apply/eqP/negPn/negP => Hg.
  have := congr1 (fun M : 'M_(n, _) => M i (mxvec_index (g l) 0)) (H 1%N (delta_mx l 0)).
  rewrite /= sp_filterE !regime_xE (negbTE Hg) add0r (bigD1 l) //= big1 => [|j Hj].
  + rewrite regime_xE eqxx mxE !eqxx mulr1 addr0 => /eqP; by rewrite eq_sym oppr_eq0 mulf_eq0 (negbTE L0) (negbTE Wil).
  + by rewrite regime_xE; case: ifP => _; rewrite ?mulr0 // mxE (negbTE Hj) mulr0.
- move=> H k x; apply/matrixP => i c; case/mxvec_indexP: c => p j.
  rewrite regime_xE !sp_filterE regime_xE.
  case: H => [->|H]; first by rewrite !mul0r !oppr0 !addr0.
  case: ifP => [/eqP Hg|Hg].
  + congr (_ - _ * _); apply: eq_bigr => l _.
    rewrite regime_xE; have [->|Wil] := eqVneq (W i l) 0; first by rewrite !mul0r.
    by rewrite -(H i l Wil) Hg eqxx.
  + rewrite big1 ?mulr0 ?oppr0 ?addr0 // => l _; rewrite regime_xE; have [->|Wil] := eqVneq (W i l) 0; first by rewrite mul0r.
    by rewrite -(H i l Wil) Hg mulr0.
Qed.

(** C25: consequently, without cross-regime links the reported e_filtered is the second-step residual. *)
(* partial; missing: weights with links across regimes, for which the claim is false (C25_refuted) *)
Theorem C25_e_filtered_partial : forall n k m (g : 'I_n -> 'I_m) optim (y : 'cV[R]_n) (x : 'M[R]_(n, k)) (W : 'M[R]_n) r,
  (forall i j, W i j != 0 -> g i = g j) ->
  gm_error_regimes g optim y x W = Some r ->
  ge_efilt r = o_u (ge_ols2 r) /\ ge_sig2 r = dot (ge_efilt r) (ge_efilt r) / n%:R.
Proof.
move=> n k m g optim y x W r HW; rewrite /gm_error_regimes.
case: (base_ols y _) => [o1|//]; case E2: base_ols => [o2|//] [<-] /=; set lam := optim _ in E2 *.
have C : regime_x g (sp_filter W lam x) = sp_filter W lam (regime_x g x) by apply: (C25_filter_commutes_iff g W lam).2; right.
have Hu : o_u o2 = sp_filter W lam y - regime_x g (sp_filter W lam x) *m o_betas o2.
  move: E2; rewrite /base_ols; case: la_inv => // xi [<-]; by [].
by rewrite -sp_filter_resid -C -Hu; split => //; rewrite /sig2_of utuE.
Qed.

(** C25: the same for the lagged design of the ML regimes error model. *)
Theorem C25_x_lag_iff : forall n m (g : 'I_n -> 'I_m) (W : 'M[R]_n),
  (forall k (x : 'M[R]_(n, k)), get_x_lag_regimes g W x = W *m regime_x g x) <-> (forall i j, W i j != 0 -> g i = g j).
Proof.
move=> n m g W; rewrite /get_x_lag_regimes.
have L (k : nat) (x z : 'M[R]_(n, k)) : regime_x g (x + z) = regime_x g x + regime_x g z.
  apply/matrixP => i c; case/mxvec_indexP: c => p j; rewrite [RHS]mxE !regime_xE mxE; by case: ifP; rewrite ?addr0.
have N (k : nat) (x : 'M[R]_(n, k)) : regime_x g (- x) = - regime_x g x.
  apply/matrixP => i c; case/mxvec_indexP: c => p j; rewrite [RHS]mxE !regime_xE mxE; by case: ifP; rewrite ?oppr0.
have Q (k : nat) (x : 'M[R]_(n, k)) : regime_x g (sp_filter W 1 x) = sp_filter W 1 (regime_x g x) <-> regime_x g (W *m x) = W *m regime_x g x.
  rewrite /sp_filter !scale1r L N; split; [by move/addrI/oppr_inj|by move=> ->].
have [H1 H2] := C25_filter_commutes_iff g W 1; split.
- move=> H; have [k x|/eqP|//] := H1; first exact/Q.
  by rewrite oner_eq0.
- by move=> H k x; apply/Q/H2; right.
Qed.
End GmError.

(** C25, without that condition the claim is false: two neighbours in different regimes. *)
Theorem C25_refuted : forall R : realFieldType, exists (W : 'M[R]_2) (g : 'I_2 -> 'I_2) (x : 'M[R]_(2, 1)),
  regime_x g (sp_filter W 1 x) <> sp_filter W 1 (regime_x g x).
Proof.
move=> R; exists (\matrix_(i, j) (i != j)%:R), id, (const_mx 1) => H.
have := congr1 (fun M : 'M_(2, _) => M 0 (mxvec_index (1 : 'I_2) 0)) H.
rewrite /= regime_xE /= /sp_filter [RHS]mxE regime_xE /= add0r mxE mxE mxE !big_ord_recl big_ord0 !regime_xE !mxE /=.
by move/eqP; rewrite mulr0 add0r addr0 !mul1r eq_sym oppr_eq0 oner_eq0.
Qed.

(** C59 is not vacuous: with x of full column rank the model is estimated for every lambda in which I - lambda W is invertible,
    in particular for the lambda chosen. *)
Theorem C59_defined : forall (R : realFieldType) n k optim (y : 'cV[R]_n) (x : 'M[R]_(n, k)) (W : 'M[R]_n),
  (forall c : 'cV[R]_k, x *m c = 0 -> c = 0) -> (forall m, 1%:M - optim m *: W \in unitmx) ->
  exists r, base_gm_error optim y x W = Some r.
Proof.
move=> R n k optim y x W Hx HA; rewrite /base_gm_error (ols_Some _ _ _ _ (iffRL (gram_unit x) Hx)).
set lam := optim _.
have Fx : sp_filter W lam x = (1%:M - lam *: W) *m x by rewrite /sp_filter mulmxBl mul1mx scalemxAl.
rewrite ols_Some; first by eexists; reflexivity.
apply/gram_unit => c; rewrite Fx -mulmxA => H; apply: Hx; move: H; apply: (iffLR (unitmx_inj _)); exact: HA.
Qed.

(** Non-trivial case for C59 and C25: the second-step regression exists (x of full rank, lam = 0 chosen by the optimiser). *)
Example C59_witness (R : realFieldType) :
  exists r, base_gm_error (fun _ => 0) (const_mx 2%:R : 'cV[R]_1) (1%:M : 'M[R]_1) 0 = Some r /\ ge_betas r = const_mx 2%:R.
Proof.
have F (k : nat) (x : 'M[R]_(1, k)) : sp_filter 0 0 x = x by rewrite /sp_filter scale0r subr0.
rewrite /base_gm_error !F /base_ols /la_inv trmx1 mul1mx unitmx1 invmx1 /=.
eexists; split; first reflexivity.
rewrite /= ?trmx1 !mul1mx.
by [].
Qed.
Print Assumptions C26_gm_moments.
Print Assumptions C27_two_moments.
Print Assumptions C59_gm_error.
Print Assumptions C25_filter_commutes_iff.
