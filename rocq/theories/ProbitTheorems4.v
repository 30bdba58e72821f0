(** C67: the spatial tests of probit models. *)
From Coq Require Import Ring Field.
From mathcomp Require Import all_ssreflect all_algebra.
From Verif Require Import Mring LinRegModel LinRegProofs ProbitModel.
Set Implicit Arguments.
Unset Strict Implicit.
Unset Printing Implicit Defensive.
Import Order.TTheory GRing.Theory Num.Theory.
Local Open Scope ring_scope.

Section Sp.
Variables (F : rcfType) (n : nat).
Add Field Ff : (@p_ft F).
Implicit Types (W : 'M[F]_n) (s u : 'cV[F]_n).

(** one half of sum s_i s_j (w_ij + w_ji)^2 *)
Definition qf W s : F := \sum_i \sum_j s i 0 * s j 0 * (W i j * W j i + W i j ^+ 2).
Lemma qf_half W s : 2%:R * qf W s = \sum_i \sum_j s i 0 * s j 0 * (W i j + W j i) ^+ 2.
Proof.
have -> : 2%:R * qf W s = qf W s + qf W s by rewrite -[2%:R]/(1 + 1) mulrDl mul1r.
rewrite {2}/qf exchange_big /= /qf -big_split; apply: eq_bigr => i _; rewrite -big_split; apply: eq_bigr => j _ /=.
move: (W i j) (W j i) (s i 0) (s j 0) => a b c d; by mring F.
Qed.
Lemma qf_ge0 W s : (forall i, 0 <= s i 0) -> 0 <= qf W s.
Proof.
move=> H; rewrite -(pmulr_rge0 _ (ltr0n F 2)) qf_half; apply: sumr_ge0 => i _; apply: sumr_ge0 => j _.
by apply: mulr_ge0; [apply: mulr_ge0|apply: sqr_ge0].
Qed.
Lemma tr1E W : trww W + \sum_i (W *m W^T) i i = qf W (const_mx 1).
Proof.
rewrite /trww -big_split /qf; apply: eq_bigr => i _; rewrite !mxE -big_split; apply: eq_bigr => j _ /=.
by rewrite !mxE !mul1r expr2.
Qed.
Lemma tr2E W : trww W + \sum_i (W^T *m W) i i = qf W (const_mx 1).
Proof.
rewrite -tr1E; congr (_ + _); have -> (A : 'M[F]_n) : \sum_i A i i = \tr A by [].
have -> (A : 'M[F]_n) : \sum_i A i i = \tr A by []. by rewrite mxtrace_mulC.
Qed.
Lemma kpE W s : \sum_i ((W *m diag_mx s^T) *m (W *m diag_mx s^T) + (W^T *m diag_mx s^T) *m (W *m diag_mx s^T)) i i = qf W s.
Proof.
have D (A : 'M[F]_n) i j : (A *m diag_mx s^T) i j = A i j * s j 0 by rewrite mul_mx_diag !mxE.
have -> : qf W s = \sum_i \sum_j (s i 0 * s j 0 * (W i j * W j i)) + \sum_j \sum_i (s i 0 * s j 0 * W i j ^+ 2).
  rewrite [X in _ = _ + X]exchange_big /= -big_split; apply: eq_bigr => i _; rewrite -big_split; apply: eq_bigr => j _ /=; by rewrite mulrDr.
rewrite -big_split; apply: eq_bigr => i _; rewrite mxE /=; congr (_ + _); rewrite mxE; apply: eq_bigr => j _; rewrite !D ?mxE.
- move: (W i j) (W j i) (s i 0) (s j 0) => a b c d; by mring F.
- move: (W j i) (s i 0) (s j 0) => a c d; by mring F.
Qed.
Lemma quad_sym W u : (u^T *m (((1 / 2%:R) *: (W + W^T)) *m u)) 0 0 = (u^T *m (W *m u)) 0 0.
Proof.
have T : (u^T *m (W^T *m u)) 0 0 = (u^T *m (W *m u)) 0 0.
  have -> : u^T *m (W^T *m u) = (u^T *m (W *m u))^T by rewrite !trmx_mul !trmxK mulmxA.
  by rewrite mxE.
rewrite -scalemxAl -scalemxAr mulmxDl mulmxDr [LHS]mxE [X in _ * X]mxE T; have nz : (2%:R : F) != 0 by rewrite pnatr_eq0.
by move: (_ 0 0) => a; mfield F; apply/eqP.
Qed.
Lemma qf_sym W s : qf ((1 / 2%:R) *: (W + W^T)) s = qf W s.
Proof.
have nz : (2%:R : F) != 0 by rewrite pnatr_eq0.
apply: (mulfI nz); rewrite !qf_half; apply: eq_bigr => i _; apply: eq_bigr => j _; congr (_ * _ ^+ 2); rewrite !mxE.
by move: (W i j) (W j i) => a b; mfield F; apply/eqP.
Qed.

Variables (Ph ph u_naive u_gen : 'cV[F]_n).
(** the statistics in sums: a = sum u_i w_ij u_j over one half of sum s_i s_j (w_ij + w_ji)^2 *)
Lemma quadE W u : (u^T *m (W *m u)) 0 0 = \sum_i \sum_j u i 0 * W i j * u j 0.
Proof.
rewrite mxE; apply: eq_bigr => i _; rewrite !mxE mulr_sumr; apply: eq_bigr => j _; by rewrite mulrA.
Qed.
Lemma qfE W s : qf W s = (\sum_i \sum_j s i 0 * s j 0 * (W i j + W j i) ^+ 2) / 2%:R.
Proof. by rewrite -qf_half mulrC mulKf // pnatr_eq0. Qed.
Theorem C67_values : forall W,
  let V i := Ph i 0 * (1 - Ph i 0) in
  [/\ pinkse W Ph ph u_gen = (\sum_i \sum_j u_gen i 0 * W i j * u_gen j 0) ^+ 2 /
        (((\sum_i ph i 0 ^+ 2 / V i) / n%:R) ^+ 2 * ((\sum_i \sum_j (W i j + W j i) ^+ 2) / 2%:R)),
      moran_kp W Ph u_naive = (\sum_i \sum_j u_naive i 0 * W i j * u_naive j 0) /
        Num.sqrt ((\sum_i \sum_j V i * V j * (W i j + W j i) ^+ 2) / 2%:R) &
      pinkse_slade W Ph u_naive = (\sum_i \sum_j (u_naive i 0 / Num.sqrt (V i)) * W i j * (u_naive j 0 / Num.sqrt (V j))) ^+ 2 /
        ((\sum_i \sum_j (W i j + W j i) ^+ 2) / 2%:R)].
Proof.
move=> W V.
have Q1 : qf W (const_mx 1) = (\sum_i \sum_j (W i j + W j i) ^+ 2) / 2%:R.
  by rewrite qfE; congr (_ / _); apply: eq_bigr => i _; apply: eq_bigr => j _; rewrite !mxE !mul1r.
split; rewrite /pinkse /moran_kp /pinkse_slade ?tr1E ?tr2E ?kpE ?Q1 quadE.
- by congr (_ / ((_ / _) ^+ 2 * _)); apply: eq_bigr => i _; rewrite mxE expr2.
- congr (_ / Num.sqrt _); rewrite qfE; congr (_ / _); by apply: eq_bigr => i _; apply: eq_bigr => j _; rewrite !mxE.
- by congr (_ ^+ 2 / _); apply: eq_bigr => i _; apply: eq_bigr => j _; rewrite !mxE.
Qed.
(** the statistics depend only on the symmetric part of the weights *)
Theorem C67_symmetrised : forall W,
  [/\ pinkse ((1 / 2%:R) *: (W + W^T)) Ph ph u_gen = pinkse W Ph ph u_gen,
      moran_kp ((1 / 2%:R) *: (W + W^T)) Ph u_naive = moran_kp W Ph u_naive &
      pinkse_slade ((1 / 2%:R) *: (W + W^T)) Ph u_naive = pinkse_slade W Ph u_naive].
Proof.
move=> W; split; rewrite /pinkse /moran_kp /pinkse_slade.
- by rewrite !tr1E qf_sym quad_sym.
- by rewrite !kpE qf_sym quad_sym.
- by rewrite !tr2E qf_sym quad_sym.
Qed.
(** and not on their scale *)
Lemma qf_scale W s c : qf (c *: W) s = c ^+ 2 * qf W s.
Proof.
rewrite /qf mulr_sumr; apply: eq_bigr => i _; rewrite mulr_sumr; apply: eq_bigr => j _; rewrite !mxE.
move: (W i j) (W j i) (s i 0) (s j 0) => a b d e; by mring F.
Qed.
Theorem C67_scale_free : forall W c, 0 < c ->
  [/\ pinkse (c *: W) Ph ph u_gen = pinkse W Ph ph u_gen, moran_kp (c *: W) Ph u_naive = moran_kp W Ph u_naive &
      pinkse_slade (c *: W) Ph u_naive = pinkse_slade W Ph u_naive].
Proof.
move=> W c c0; have nz : c != 0 by rewrite lt0r_neq0.
have Q u : (u^T *m (c *: W *m u)) 0 0 = c * (u^T *m (W *m u)) 0 0 by rewrite -scalemxAl -scalemxAr mxE.
have C (d a b : F) : d != 0 -> d * a / (d * b) = a / b by move=> d0; rewrite invfM mulrACA divff // mul1r.
have nz2 : c ^+ 2 != 0 by rewrite expf_neq0.
split; rewrite /pinkse /moran_kp /pinkse_slade.
- by rewrite !tr1E qf_scale Q exprMn [_ * (c ^+ 2 * _)]mulrCA C.
- by rewrite !kpE qf_scale Q sqrtrM ?sqr_ge0 // sqrtr_sqr gtr0_norm // C.
- by rewrite !tr2E qf_scale Q exprMn C.
Qed.
(** non-negative chi-square statistics, the variance under the root is never negative *)
Theorem C67_nonneg : forall W,
  [/\ 0 <= pinkse W Ph ph u_gen, 0 <= pinkse_slade W Ph u_naive &
      (forall i, 0 <= Ph i 0 <= 1) ->
      0 <= \sum_i ((W *m diag_mx (phi_prod Ph)^T) *m (W *m diag_mx (phi_prod Ph)^T) +
        (W^T *m diag_mx (phi_prod Ph)^T) *m (W *m diag_mx (phi_prod Ph)^T)) i i].
Proof.
move=> W; have Q1 : 0 <= qf W (const_mx 1) by apply: qf_ge0 => i; rewrite mxE ler01.
split; rewrite /pinkse /pinkse_slade ?tr1E ?tr2E ?kpE.
- by apply: divr_ge0; [apply: sqr_ge0|apply: (mulr_ge0 (sqr_ge0 _) Q1)].
- by apply: divr_ge0; [apply: sqr_ge0|].
- move=> P; apply: qf_ge0 => i; rewrite mxE; case/andP: (P i) => p0 p1; by rewrite mulr_ge0 // subr_ge0.
Qed.
(** with equal probabilities the squared Kelejian-Prucha statistic is the Pinkse-Slade statistic *)
Theorem C67_equal_probabilities : forall W p, 0 < p < 1 -> (forall i, Ph i 0 = p) ->
  (moran_kp W Ph u_naive) ^+ 2 = pinkse_slade W Ph u_naive.
Proof.
move=> W p /andP [p0 p1] HP; pose v := p * (1 - p).
have v0 : 0 < v by rewrite mulr_gt0 // subr_gt0.
have V : phi_prod Ph = v *: const_mx 1 by apply/matrixP => i j; rewrite !mxE HP mulr1.
have QV : qf W (phi_prod Ph) = v ^+ 2 * qf W (const_mx 1).
  rewrite V /qf mulr_sumr; apply: eq_bigr => i _; rewrite mulr_sumr; apply: eq_bigr => j _; rewrite !mxE !mulr1 mul1r mulrA.
  by rewrite [v ^+ 2]expr2 -[v * p * _]mulrA.
rewrite /moran_kp /pinkse_slade kpE tr2E QV exprMn exprVn sqr_sqrtr; last first.
  by apply: (mulr_ge0 (sqr_ge0 _)); apply: qf_ge0 => i; rewrite mxE ler01.
have -> : \col_i (u_naive i 0 / Num.sqrt (phi_prod Ph i 0)) = (Num.sqrt v)^-1 *: u_naive.
  by apply/matrixP => i j; rewrite ord1 V !mxE mulr1 mulrC.
have -> : (((Num.sqrt v)^-1 *: u_naive)^T *m (W *m ((Num.sqrt v)^-1 *: u_naive))) 0 0 = v^-1 * (u_naive^T *m (W *m u_naive)) 0 0.
  rewrite linearZ /= -scalemxAr -scalemxAl -scalemxAr scalerA mxE; congr (_ * _).
  by rewrite -expr2 exprVn sqr_sqrtr // ltW.
move: (_ 0 0) => a; rewrite [(v^-1 * a) ^+ 2]exprMn exprVn invfM; by rewrite mulrA [v ^- 2 * _]mulrC.
Qed.
End Sp.
