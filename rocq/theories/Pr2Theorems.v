(** C88: pseudo R2 and t statistics. *)
From mathcomp Require Import all_ssreflect all_algebra.
From Verif Require Import LinRegModel LinRegProofs LinRegProofs2 LinRegProofs3 LinRegTheorems FilterModel Mring Pr2Model.
Set Implicit Arguments.
Unset Strict Implicit.
Unset Printing Implicit Defensive.
Import Order.TTheory GRing.Theory Num.Theory.
Local Open Scope ring_scope.

Section Pr2.
Variable R : rcfType.
Add Field Ff : (@p_ft R).
Implicit Types (n k h : nat).
(** sample covariance and variance (times n) *)
Definition csum n (x y : 'cV[R]_n) : R := \sum_i (x i 0 - mean_of x) * (y i 0 - mean_of y).
Definition ctr n (x : 'cV[R]_n) : 'cV[R]_n := x - const_mx (mean_of x).
Lemma csumE n (x y : 'cV[R]_n) : csum x y = ((ctr x)^T *m ctr y) 0 0.
Proof. by rewrite dotE; apply: eq_bigr => i _; rewrite !mxE. Qed.
Lemma csumxx n (x : 'cV[R]_n) : csum x x = tss x.
Proof. by apply: eq_bigr => i _; rewrite expr2. Qed.
Lemma csumC n (x y : 'cV[R]_n) : csum x y = csum y x.
Proof. by apply: eq_bigr => i _; rewrite mulrC. Qed.
Lemma nconst n (x : 'cV[R]_n) : ~~ is_const x <-> exists i j, x i 0 != x j 0.
Proof.
rewrite /is_const negb_forall; split=> [/existsP [i]|[i [j H]]].
  by rewrite negb_forall => /existsP [j H]; exists i, j.
by apply/existsP; exists i; rewrite negb_forall; apply/existsP; exists j.
Qed.
Lemma nconst_n n (x : 'cV[R]_n) : ~~ is_const x -> (1 < n)%N.
Proof.
move/nconst=> [i [j H]]; case: n x i j H => [x [] //|[|n] //] x i j; by rewrite [i]ord1 [j]ord1 eqxx.
Qed.
Lemma tss_const n (x : 'cV[R]_n) : is_const x -> tss x = 0.
Proof.
move=> H; case: (posnP n) => [n0|n0]; first by move: x H; rewrite n0 => x _; rewrite /tss big_ord0.
have E : x = const_mx (x (Ordinal n0) 0).
  by apply/matrixP => i j; rewrite [j]ord1 mxE; move/forallP: H => /(_ i)/forallP/(_ (Ordinal n0))/eqP.
by rewrite E tssE mean_const // subrr /utu_of big1 // => i _; rewrite mxE expr0n.
Qed.
(** Cauchy-Schwarz *)
Lemma cs n (a b : 'cV[R]_n) : 0 < utu_of b -> (a^T *m b) 0 0 ^+ 2 <= utu_of a * utu_of b /\
  ((a^T *m b) 0 0 ^+ 2 == utu_of a * utu_of b) = (a == ((a^T *m b) 0 0 / utu_of b) *: b).
Proof.
move=> b0; set c := (a^T *m b) 0 0; set t := c / utu_of b.
have E : utu_of (a - t *: b) * utu_of b = utu_of a * utu_of b - c ^+ 2.
  have E2 : utu_of (t *: b) = t ^+ 2 * utu_of b.
    by rewrite /utu_of mulr_sumr; apply: eq_bigr => i _; rewrite mxE exprMn.
  have E1 : (a^T *m (- (t *: b))) 0 0 = - (t * c) by rewrite mulmxN -scalemxAr [LHS]mxE [X in - X = _]mxE.
  rewrite utuD utuN E1 E2 mulr2n /t {E1 E2}; clear t.
  have nz : utu_of b != 0 by rewrite gt_eqF.
  move: (utu_of a) (utu_of b) c nz => A B C /eqP nz.
  by rewrite !expr2; mfield R.
split; first by rewrite -subr_ge0 -E mulr_ge0 ?utu_ge0 ?ltW.
by rewrite -subr_eq0 -opprB -E oppr_eq0 mulf_eq0 utu_eq0 [utu_of b == 0]gt_eqF // orbF subr_eq0.
Qed.

Definition pr2v n (y p : 'cV[R]_n) : R := csum y p ^+ 2 / (tss y * tss p).
Lemma clip_id (r : R) : r ^+ 2 <= 1 -> clip1 r = r.
Proof.
rewrite -[X in _ <= X](expr1n _ 2) -ler_sqrt ?expr1n ?ltr01 // !sqrtr_sqr sqrtr1 ler_norml => /andP [a b].
by rewrite /clip1 ltNge a /= ltNge b.
Qed.
Lemma pr2E n (y p : 'cV[R]_n) : pr2_aspatial y p = if (n < 2)%N then PRaise else if is_const y || is_const p then PNan else PVal (pr2v y p).
Proof.
rewrite /pr2_aspatial /pearsonr; case: ifP => // n2; case: ifP => // /negbT; rewrite negb_or => /andP [cy cp] /=.
have ty : 0 < tss y by apply: tss_gt0; apply/nconst.
have tp : 0 < tss p by apply: tss_gt0; apply/nconst.
have ce (x : 'cV[R]_n) : \col_i (x i 0 - mean_of x) = ctr x by apply/matrixP => i j; rewrite [j]ord1 !mxE.
rewrite !ce -![utu_of (ctr _)]tssE.
set r := \sum_i _.
have rE : r = csum y p / (Num.sqrt (tss y) * Num.sqrt (tss p)).
  rewrite /r mulr_suml; apply: eq_bigr => i _; rewrite [ctr y i 0]mxE [ctr p i 0]mxE ![(- const_mx _) _ _]mxE ![const_mx _ _ _]mxE.
  by rewrite invfM mulrACA.
have r2 : r ^+ 2 = pr2v y p by rewrite rE /pr2v expr_div_n exprMn !sqr_sqrtr // ltW.
congr PVal; rewrite clip_id r2 // /pr2v ler_pdivr_mulr ?mulr_gt0 // mul1r csumE ![tss _]tssE.
by rewrite tssE in tp; case: (cs (ctr y) tp).
Qed.
(** the mean of a + b y *)
Lemma mean_affine n (a b : R) (y : 'cV[R]_n) : (0 < n)%N -> mean_of (const_mx a + b *: y) = a + b * mean_of y.
Proof.
move=> n0; rewrite /mean_of (eq_bigr (fun i => a + b * y i 0)) => [|i _]; last by rewrite !mxE.
rewrite big_split /= -mulr_sumr sumr_const card_ord -[a *+ n]mulr_natr mulrDl mulfK ?mulrA //.
by rewrite pnatr_eq0 -lt0n.
Qed.
Lemma ctr_affine n (a b : R) (y : 'cV[R]_n) : (0 < n)%N -> ctr (const_mx a + b *: y) = b *: ctr y.
Proof. by move=> n0; rewrite /ctr mean_affine //; apply/matrixP => i j; rewrite !mxE opprD addrACA subrr add0r mulrBr. Qed.
Lemma const_affine n (a b : R) (y : 'cV[R]_n) : b != 0 -> is_const (const_mx a + b *: y) = is_const y.
Proof.
move=> b0; apply: eq_forallb => i; apply: eq_forallb => j; rewrite !mxE.
by rewrite (inj_eq (addrI _)) (inj_eq (mulfI b0)).
Qed.
Lemma utuZ n (t : R) (b : 'cV[R]_n) : utu_of (t *: b) = t ^+ 2 * utu_of b.
Proof. by rewrite /utu_of mulr_sumr; apply: eq_bigr => i _; rewrite mxE exprMn. Qed.
(** The pseudo R2: an exception for fewer than two observations, nan exactly when y or the prediction is constant, otherwise the squared
    covariance over the product of the variances, in [0, 1] *)
Theorem C88_pr2_range n (y p : 'cV[R]_n) : (1 < n)%N ->
  if is_const y || is_const p then pr2_aspatial y p = PNan
  else exists v, [/\ pr2_aspatial y p = PVal v, 0 <= v <= 1 & v = csum y p ^+ 2 / (csum y y * csum p p)].
Proof.
move=> n1; rewrite pr2E ltnNge n1 /=; case E : (is_const y || is_const p) => //; move/negbT: E; rewrite negb_or => /andP [cy cp].
have ty : 0 < tss y by apply: tss_gt0; apply/nconst.
have tp : 0 < tss p by apply: tss_gt0; apply/nconst.
exists (pr2v y p); rewrite !csumxx; split=> //; rewrite /pr2v; apply/andP; split; first by rewrite divr_ge0 ?sqr_ge0 // mulr_ge0 ?tss_ge0.
rewrite ler_pdivr_mulr ?mulr_gt0 // mul1r csumE ![tss _]tssE; by rewrite tssE in tp; case: (cs (ctr y) tp).
Qed.
(** It is one exactly when the prediction is an exact linear function of y *)
Theorem C88_pr2_one n (y p : 'cV[R]_n) : ~~ is_const y -> ~~ is_const p ->
  (pr2_aspatial y p = PVal 1 <-> exists a b : R, forall i, p i 0 = a + b * y i 0).
Proof.
move=> cy cp; have n1 := nconst_n cy; rewrite pr2E ltnNge n1 /= (negbTE cy) (negbTE cp) /=.
have ty : 0 < tss y by apply: tss_gt0; apply/nconst.
have tp : 0 < tss p by apply: tss_gt0; apply/nconst.
have nz : tss y * tss p != 0 by rewrite mulf_neq0 // gt_eqF.
have ty' : 0 < utu_of (ctr y) by rewrite -tssE.
have K : pr2v y p = 1 <-> ctr p == ((ctr p)^T *m ctr y) 0 0 / utu_of (ctr y) *: ctr y.
  rewrite -(cs (ctr p) ty').2 -csumE -!tssE csumC; split=> [|/eqP E]; last by rewrite /pr2v E [tss p * _]mulrC mulfV.
  by rewrite /pr2v => /(congr1 (fun v => v * (tss y * tss p))); rewrite divfK // mul1r [tss y * _]mulrC => ->.
split=> [[/K/eqP E]|[a [b E]]].
  set t := _ / _ in E; exists (mean_of p - t * mean_of y), t => i.
  move/matrixP: E => /(_ i 0); rewrite !mxE => /eqP; rewrite subr_eq => /eqP ->.
  by move: t (y i 0) (mean_of y) (mean_of p) => t a b d; mring R.
have pE : p = const_mx a + b *: y by apply/matrixP => i j; rewrite [j]ord1 E !mxE.
congr PVal; apply/K; rewrite pE ctr_affine ?(ltnW n1) // [(_ *: _)^T]linearZ /= -scalemxAl [X in X / _]mxE -utuE mulfK //.
by rewrite gt_eqF.
Qed.
(** Units and origin of y and of the prediction do not matter *)
Theorem C88_pr2_affine n (y p : 'cV[R]_n) (a b c d : R) : b != 0 -> d != 0 ->
  pr2_aspatial (const_mx a + b *: y) (const_mx c + d *: p) = pr2_aspatial y p.
Proof.
move=> b0 d0; rewrite !pr2E; case: ifP => // /negbT; rewrite -leqNgt => n1; rewrite !const_affine //; case: ifP => // _; congr PVal.
have n0 := ltnW n1.
rewrite /pr2v !csumE ![tss _]tssE -!/(ctr _) !ctr_affine // !utuZ.
have -> : (b *: ctr y)^T *m (d *: ctr p) = (b * d) *: ((ctr y)^T *m ctr p) by rewrite [(b *: _)^T]linearZ /= -scalemxAl -scalemxAr scalerA.
rewrite [X in X ^+ 2 / _]mxE.
rewrite [X in _ / X]mulrACA [in LHS]exprMn [(b * d) ^+ 2]exprMn invfM mulrACA mulfV ?mul1r //.
by rewrite mulf_neq0 // expf_neq0.
Qed.
Section Fit.
Variables (n k : nat) (y : 'cV[R]_n) (x : 'M[R]_(n, k)) (rb : robust_opt) (g : option 'M[R]_n) (s : bool) (o : ols R n k) (c : 'cV[R]_k).
Hypotheses (E : base_ols y x rb g s = Some o) (C1 : x *m c = const_mx 1).
Lemma mean_dot m (v : 'cV[R]_m) : \sum_i v i 0 = ((const_mx 1 : 'cV[R]_m)^T *m v) 0 0.
Proof. by rewrite dotE; apply: eq_bigr => i _; rewrite mxE mul1r. Qed.
Lemma mean_fit : mean_of (o_predy o) = mean_of y.
Proof.
rewrite /mean_of; congr (_ / _); have [_ _ P U _] := ols_fields E; apply/eqP; rewrite eq_sym -subr_eq0 !mean_dot -C1 trmx_mul.
rewrite -!mulmxA; have := ols_orth E; rewrite U mulmxBr => /subr0_eq ->; by rewrite subrr.
Qed.
Lemma ctr_span b : ctr (x *m b) = x *m (b - mean_of (x *m b) *: c).
Proof. by rewrite /ctr mulmxBr -scalemxAr C1; congr (_ - _); apply/matrixP => i j; rewrite !mxE mulr1. Qed.
Lemma csum_fit b : csum y (x *m b) = csum (o_predy o) (x *m b).
Proof.
rewrite !csumE ctr_span; apply/eqP; rewrite -subr_eq0.
have -> (A B : 'M[R]_1) : A 0 0 - B 0 0 = (A - B) 0 0 by rewrite !mxE.
rewrite -mulmxBl -linearB /= {1}/ctr {1}/ctr mean_fit opprB addrA subrK; have [_ _ P U _] := ols_fields E; rewrite -U mulmxA.
have -> : (o_u o)^T *m x = (x^T *m o_u o)^T by rewrite trmx_mul trmxK.
by rewrite (ols_orth E) trmx0 mul0mx mxE.
Qed.
Lemma r2_tss : tss y != 0 -> r2_of o = tss (o_predy o) / tss y.
Proof.
move=> t0; have D := ols_decomp E C1; have [_ Ey _ _ _] := ols_fields E; rewrite /r2_of Ey -/(tss y).
have -> : tss (o_predy o) = tss y - utu_of (o_u o) by rewrite D /tss mean_fit addrK.
by rewrite mulrBl mulfV.
Qed.
End Fit.
(** With a constant among the regressors: for OLS it is the R2 ... *)
Theorem C88_pr2_ols n k (y : 'cV[R]_n) (x : 'M[R]_(n, k)) rb g s o (c : 'cV[R]_k) :
  base_ols y x rb g s = Some o -> x *m c = const_mx 1 -> ~~ is_const y -> ~~ is_const (o_predy o) ->
  pr2_aspatial y (o_predy o) = PVal (r2_of o).
Proof.
move=> E C1 cy cp; rewrite pr2E ltnNge (nconst_n cy) /= (negbTE cy) (negbTE cp) /=; congr PVal.
have ty : tss y != 0 by rewrite gt_eqF //; apply: tss_gt0; apply/nconst.
have tp : tss (o_predy o) != 0 by rewrite gt_eqF //; apply: tss_gt0; apply/nconst.
rewrite (r2_tss E C1) // /pr2v; have [_ _ P _ _] := ols_fields E; rewrite {1}P (csum_fit E C1) -P csumxx invfM expr2 mulrACA.
by rewrite mulfV // mulr1.
Qed.
(** ... and the prediction of any other estimator with the same regressors (2SLS, for instance) has no larger pseudo R2 *)
Theorem C88_pr2_best n k (y : 'cV[R]_n) (x : 'M[R]_(n, k)) rb g s o (c b : 'cV[R]_k) :
  base_ols y x rb g s = Some o -> x *m c = const_mx 1 -> ~~ is_const y -> ~~ is_const (x *m b) ->
  exists2 v, pr2_aspatial y (x *m b) = PVal v & v <= r2_of o.
Proof.
move=> E C1 cy cp; exists (pr2v y (x *m b)); first by rewrite pr2E ltnNge (nconst_n cy) /= (negbTE cy) (negbTE cp).
have ty : 0 < tss y by apply: tss_gt0; apply/nconst.
have tp : 0 < tss (x *m b) by apply: tss_gt0; apply/nconst.
rewrite (r2_tss E C1) ?gt_eqF // /pr2v (csum_fit E C1) ler_pdivr_mulr ?mulr_gt0 // mulrA divfK ?gt_eqF //.
rewrite csumE ![tss _]tssE; rewrite tssE in tp; by case: (cs (ctr (o_predy o)) tp).
Qed.
End Pr2.
