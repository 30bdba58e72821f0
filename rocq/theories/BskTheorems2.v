(** C70: the statistics of BSK_tests are the quadratic forms of the literature. *)
From Coq Require Import Strings.String Ring Field.
From mathcomp Require Import all_ssreflect all_algebra.
From Verif Require Import Mring LinRegModel LinRegProofs LinRegProofs2 Kron BskModel.
Set Implicit Arguments.
Unset Strict Implicit.
Unset Printing Implicit Defensive.
Import Order.TTheory GRing.Theory Num.Theory.
Local Open Scope ring_scope.

Section Quad.
Variables (R : rcfType) (T n : nat) (W : 'M[R]_n).
Add Field Rf : (@p_ft R).
Implicit Types (u : 'cV[R]_(T * n)).
(** np.ones((T, T)) *)
Definition ones : 'M[R]_T := const_mx 1.
Lemma kron_umat (A : 'M[R]_T) (M : 'M[R]_n) u t i : (kron A M *m u) (pix t i) 0 = (A *m umat u *m M^T) t i.
Proof.
rewrite !mxE big_pix exchange_big; apply: eq_bigr => j _; rewrite !mxE mulr_suml; apply: eq_bigr => s _.
by rewrite kronE !mxE mulrAC.
Qed.
Lemma quad_kron (A : 'M[R]_T) (M : 'M[R]_n) u : (u^T *m kron A M *m u) 0 0 = \sum_t \sum_i umat u t i * (A *m umat u *m M^T) t i.
Proof. by rewrite -mulmxA mxE big_pix; apply: eq_bigr => t _; apply: eq_bigr => i _; rewrite kron_umat !mxE. Qed.
Lemma frobE m p (A B : 'M[R]_(m, p)) : \sum_t \sum_i A t i * B t i = \tr (A *m B^T).
Proof. by apply: eq_bigr => t _; rewrite !mxE; apply: eq_bigr => i _; rewrite !mxE. Qed.
Lemma quad_kron_tr (A : 'M[R]_T) (M : 'M[R]_n) u : (u^T *m kron A M *m u) 0 0 = \tr (umat u *m M *m (umat u)^T *m A^T).
Proof. by rewrite quad_kron frobE !trmx_mul trmxK !mulmxA. Qed.
Lemma usq u : u_sq_sum u = (u^T *m u) 0 0.
Proof. by rewrite /u_sq_sum mxE; apply: eq_bigr => r _; rewrite !mxE expr2. Qed.
Lemma sym_tr (A : 'M[R]_T) (M : 'M[R]_n) u : A^T = A -> (u^T *m kron A (M + M^T) *m u) 0 0 = 2%:R * \tr (umat u *m M *m (umat u)^T *m A).
Proof.
move=> SA; rewrite quad_kron_tr SA mulmxDr !mulmxDl linearD /=.
have -> : \tr (umat u *m M^T *m (umat u)^T *m A) = \tr (umat u *m M *m (umat u)^T *m A).
  by rewrite -mxtrace_tr !trmx_mul !trmxK SA mxtrace_mulC !mulmxA.
by rewrite -mulr2n -mulr_natl.
Qed.
(** the one-sided statistics for random effects and for spatial errors *)
Theorem C70_marginal_effects : forall u, bsk_G u = (u^T *m kron ones 1%:M *m u) 0 0 / (u^T *m u) 0 0 - 1.
Proof.
move=> u; rewrite /bsk_G usq quad_kron trmx1 exchange_big; congr (_ / _ - _); apply: eq_bigr => i _.
rewrite expr2 mulr_suml; apply: eq_bigr => t _; congr (_ * _); rewrite mulmx1 !mxE; apply: eq_bigr => s _.
by rewrite !mxE mul1r.
Qed.
Theorem C70_marginal_spatial : forall u,
  bsk_H W u = (u^T *m kron 1%:M (2%:R^-1 *: (W + W^T)) *m u) 0 0 / (u^T *m u) 0 0 /\ bsk_b W = \tr ((W + W^T) *m (W + W^T)) / 2%:R.
Proof.
move=> u; have two : (2%:R : R) != 0 by rewrite pnatr_eq0.
split.
- have -> : (u^T *m kron 1%:M (2%:R^-1 *: (W + W^T)) *m u) 0 0 = 2%:R^-1 * (u^T *m kron 1%:M (W + W^T) *m u) 0 0.
    by rewrite kronZr -scalemxAr -scalemxAl; apply: (mxE).
  rewrite /bsk_H usq sym_tr ?trmx1 // mulmx1 mulKf // big_pix; congr (_ / _).
  have -> : \tr (umat u *m W *m (umat u)^T) = \tr (umat u *m (umat u *m W^T)^T) by rewrite trmx_mul trmxK mulmxA.
  rewrite -frobE; apply: eq_bigr => t _; apply: eq_bigr => i _; by rewrite pt_pix pu_pix [umat u t i]mxE.
- rewrite /bsk_b mulmxDr !mulmxDl !linearD /=.
  have -> : \tr (W^T *m W^T) = \tr (W *m W) by rewrite -trmx_mul mxtrace_tr.
  have -> : \tr (W *m W^T) = \tr (W^T *m W) by rewrite mxtrace_mulC.
  move: (\tr (W *m W)) (\tr (W^T *m W)) => a b; apply: (mulIf two); rewrite divfK //.
  by rewrite -[2%:R]/(1 + 1); mring R.
Qed.
(** means over time *)
Lemma meanE u : (0 < T)%N -> (umat u)^T *m (const_mx 1 : 'cV[R]_T) = T%:R *: cs_mean u.
Proof.
move=> T0; apply/matrixP => i j; rewrite !mxE mulrC divfK ?pnatr_eq0 -?lt0n //; apply: eq_bigr => t _.
by rewrite !mxE mulr1.
Qed.
Lemma ones_mul : ones = (const_mx 1 : 'cV[R]_T) *m (const_mx 1 : 'cV[R]_T)^T.
Proof. by apply/matrixP => i j; rewrite !mxE big_ord_recl big_ord0 addr0 !mxE mulr1. Qed.
Lemma quad_ones (M : 'M[R]_n) u : (0 < T)%N -> \tr (umat u *m M *m (umat u)^T *m ones) = T%:R ^+ 2 * ((cs_mean u)^T *m M *m cs_mean u) 0 0.
Proof.
move=> T0; rewrite ones_mul !mulmxA -[umat u *m M *m _ *m _]mulmxA meanE // -scalemxAr -scalemxAl linearZ /= mxtrace_mulC mulmxA mulmxA.
have -> : (const_mx 1 : 'cV[R]_T)^T *m umat u = T%:R *: (cs_mean u)^T by rewrite -[umat u]trmxK -trmx_mul meanE // linearZ.
by rewrite -!scalemxAl linearZ /= mulrA -expr2 {1}/mxtrace big_ord_recl big_ord0 addr0.
Qed.
(** averages over time and deviations from them *)
Definition JbT : 'M[R]_T := T%:R^-1 *: ones.
Definition Et : 'M[R]_T := 1%:M - JbT.
Definition qf u (A : 'M[R]_(T * n)) : R := (u^T *m A *m u) 0 0.
Lemma qfD u A B : qf u (A + B) = qf u A + qf u B. Proof. by rewrite /qf mulmxDr mulmxDl; apply: (mxE). Qed.
Lemma qfZ u a A : qf u (a *: A) = a * qf u A. Proof. by rewrite /qf -scalemxAr -scalemxAl; apply: (mxE). Qed.
Lemma qfN u A : qf u (- A) = - qf u A. Proof. by rewrite -scaleN1r qfZ mulN1r. Qed.
Lemma tr_ones : ones^T = ones. Proof. exact: trmx_const. Qed.
Lemma tr_JbT : JbT^T = JbT. Proof. by rewrite linearZ /= tr_ones. Qed.
Lemma tr_Et : Et^T = Et. Proof. by rewrite linearB /= tr_JbT trmx1. Qed.
Lemma qf_ones (M : 'M[R]_n) u : (0 < T)%N -> qf u (kron ones M) = T%:R ^+ 2 * ((cs_mean u)^T *m M *m cs_mean u) 0 0.
Proof. by move=> T0; rewrite /qf quad_kron_tr tr_ones quad_ones. Qed.
Lemma qf_JbT (M : 'M[R]_n) u : (0 < T)%N -> qf u (kron JbT M) = T%:R * ((cs_mean u)^T *m M *m cs_mean u) 0 0.
Proof. by move=> T0; rewrite kronZl qfZ qf_ones // expr2 -mulrA mulKf // pnatr_eq0 -lt0n. Qed.
Lemma qf_I (M : 'M[R]_n) u : qf u (kron 1%:M M) = \sum_t \sum_i umat u t i * (umat u *m M^T) t i.
Proof. by rewrite /qf quad_kron mul1mx. Qed.
Lemma qf_tr u A : qf u A^T = qf u A.
Proof. by rewrite /qf -[in RHS](trmxK (u^T *m A *m u)) [in RHS]mxE !trmx_mul trmxK mulmxA. Qed.
Lemma kronBl (A B : 'M[R]_T) (M : 'M[R]_n) : kron (A - B) M = kron A M - kron B M.
Proof. by apply/matrixP => r t; rewrite !mxE mulrBl. Qed.
Lemma qf_Et (M : 'M[R]_n) u : qf u (kron Et M) = qf u (kron 1%:M M) - qf u (kron JbT M).
Proof. by rewrite /Et kronBl qfD qfN. Qed.
Lemma mean_sq u : ((cs_mean u)^T *m 1%:M *m cs_mean u) 0 0 = \sum_i cs_mean u i 0 ^+ 2.
Proof. by rewrite mulmx1 mxE; apply: eq_bigr => i _; rewrite mxE expr2. Qed.
Lemma sig1E u : (0 < T)%N -> cs_sig1 u = qf u (kron JbT 1%:M) / n%:R.
Proof. by move=> T0; rewrite qf_JbT // mean_sq /cs_sig1 mulr_sumr. Qed.
Lemma sum_meanE u i : (0 < T)%N -> \sum_t umat u t i = T%:R * cs_mean u i 0.
Proof. by move=> T0; rewrite mxE mulrC divfK // pnatr_eq0 -lt0n. Qed.
Lemma sigvE u : (0 < T)%N -> cs_sigv u = qf u (kron Et 1%:M) / (n%:R * (T%:R - 1)).
Proof.
move=> T0; congr (_ / _); rewrite qf_Et qf_JbT // mean_sq mulr_sumr qf_I trmx1 mulmx1.
rewrite exchange_big [X in _ = X - _]exchange_big -sumrB; apply: eq_bigr => i _.
have -> : \sum_j (umat u j i - cs_mean u i 0) ^+ 2 = (\sum_j umat u j i * umat u j i) - 2%:R * cs_mean u i 0 * (\sum_j umat u j i) + (\sum_(j < T) cs_mean u i 0 ^+ 2).
  rewrite mulr_sumr -sumrB -big_split; apply: eq_bigr => j _ /=; move: (umat u j i) (cs_mean u i 0) => a b.
  by rewrite -[2%:R]/(1 + 1); mring R.
rewrite sumr_const card_ord -[_ *+ T]mulr_natl sum_meanE //; move: (\sum_j _) (cs_mean u i 0) => a b.
by move: (T%:R) => c; rewrite -[2%:R]/(1 + 1); mring R.
Qed.
Lemma mean_WW u : ((cs_mean u)^T *m (W^T + W) *m cs_mean u) 0 0 = cs_quad_mean W u.
Proof.
rewrite /cs_quad_mean -dotE; set m := cs_mean u.
have -> : m^T *m (W^T + W) *m m = (m^T *m (W *m m))^T + m^T *m (W *m m) by rewrite !trmx_mul trmxK mulmxDr mulmxDl !mulmxA.
by rewrite mxE [X in X + _]mxE mulr_natr mulr2n.
Qed.
Lemma full_WW u : qf u (kron 1%:M (W^T + W)) = cs_quad_full W u.
Proof. by rewrite addrC /qf sym_tr ?trmx1 // mulmx1 /cs_quad_full frobE trmx_mul trmxK mulmxA mulrC. Qed.
(** the test for spatial errors that allows for random effects: score and variance in Kronecker form *)
Theorem C70_conditional_spatial : forall u, (0 < T)%N ->
  let s_v := qf u (kron Et 1%:M) / (n%:R * (T%:R - 1)) in
  let s_1 := qf u (kron JbT 1%:M) / n%:R in
  let score := qf u ((s_v / s_1 ^+ 2) *: kron JbT (W^T + W) + s_v^-1 *: kron Et (W^T + W)) / 2%:R in
  lmc_spatial W u = score / Num.sqrt ((T%:R - 1 + s_v ^+ 2 / s_1 ^+ 2) * (\tr ((W + W^T) *m (W + W^T)) / 2%:R)).
Proof.
move=> u T0; rewrite -sigvE // -sig1E //=; have [_ <-] := C70_marginal_spatial u; congr (_ / _).
rewrite qfD !qfZ qf_Et qf_JbT // mean_WW full_WW /cs_D.
move: (cs_sigv u) (cs_sig1 u) (cs_quad_mean W u) (cs_quad_full W u) => a b c d.
by rewrite !div1r mulrC !mulrA.
Qed.
End Quad.
