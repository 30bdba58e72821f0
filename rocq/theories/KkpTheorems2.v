(** Property theorems C80 continued: the weights Tau and the estimates. *)
From mathcomp Require Import all_ssreflect all_algebra.
From Coq Require Import Ring Field.
From Verif Require Import Mring LinRegModel LinRegProofs LinRegProofs2 LinRegProofs3 FilterModel FilterProofs MomentsTheorems Kron PanelModel PanelTheorems KkpModel KkpTheorems.
Set Implicit Arguments.
Unset Strict Implicit.
Unset Printing Implicit Defensive.
Import Order.TTheory GRing.Theory Num.Theory.
Local Open Scope ring_scope.

Definition i0 : 'I_3 := Ordinal (isT : 0 < 3)%N.
Definition i1 : 'I_3 := Ordinal (isT : 1 < 3)%N.
Definition i2 : 'I_3 := Ordinal (isT : 2 < 3)%N.

Section Perm.
Variable F : realFieldType.
Add Field Ff : (@p_ft F).
Lemma perm5 (a b d e f : F) : b * (f * a * e * d) = f * (b * (d * a)) * e.
Proof. by mring F. Qed.
End Perm.

Section Tau.
Variables (R : rcfType) (n : nat).
Implicit Types W : 'M[R]_n.
(** * Specification: n times the covariance of the quadratic forms e'A_1 e, e'A_2 e, e'A_3 e (over n) of a vector of independent standard normal
    variables is 2 tr(A_i A_j) / n for symmetric A; here A_1 = I, A_2 = W'W, A_3 = (W + W')/2, as in Kapoor, Kelejian and Prucha. *)
Definition mom_mx W (i : 'I_3) : 'M[R]_n :=
  if i == i0 then 1%:M else if i == i1 then W^T *m W else 2%:R^-1 *: (W + W^T).
Definition tau_spec W : 'M[R]_3 := \matrix_(i, j) (2%:R * \tr (mom_mx W i *m mom_mx W j) / n%:R).

Lemma two0 : 2%:R != 0 :> R. Proof. by rewrite pnatr_eq0. Qed.
Lemma tr_prod (A B : 'M[R]_n) : \tr (A *m B) = \sum_i \sum_j A i j * B j i.
Proof. by apply: eq_bigr => i _; rewrite mxE. Qed.
Lemma wtw_sym W i j : (W^T *m W) i j = (W^T *m W) j i.
Proof. by have /matrixP/(_ i j) := gram_sym W; rewrite mxE. Qed.

(** C80: of the six distinct weights the code computes, four are those of the reference *)
Theorem C80_tau_right : forall W, (0 < n)%N -> (forall i, W i i = 0) ->
  [/\ get_Tau W i0 i0 = tau_spec W i0 i0, get_Tau W i0 i2 = tau_spec W i0 i2, get_Tau W i1 i2 = tau_spec W i1 i2,
      get_Tau W i2 i2 = tau_spec W i2 i2 & (get_Tau W)^T = get_Tau W].
Proof.
move=> W n0 Z; have N0 : n%:R != 0 :> R by rewrite pnatr_eq0 -lt0n.
split.
- by rewrite !mxE /= /mom_mx eqxx mul1mx mxtrace1.
- rewrite !mxE /= /mom_mx /= mul1mx mxtraceZ mxtraceD mxtrace_tr.
  by rewrite /mxtrace [X in X + X]big1 // addr0 mulr0 mulr0 mul0r.
- rewrite !mxE /= /mom_mx /=; congr (_ / _); rewrite -scalemxAr mxtraceZ mulrA divff ?two0 // mul1r tr_prod.
  by apply: eq_bigr => i _; apply: eq_bigr => j _; rewrite !mxE addrC.
- rewrite !mxE /= /mom_mx /=; congr (_ / _); rewrite -scalemxAr -scalemxAl !mxtraceZ mulrA divff ?two0 // mul1r.
  rewrite mulmxDl !mulmxDr !mxtraceD (mxtrace_mulC W W^T) -[W^T *m W^T]trmx_mul mxtrace_tr.
  rewrite [X in _ * (_ + X)]addrC -mulr2n -[X in _ * X]mulr_natl mulrA mulVf ?two0 // mul1r -mxtraceD.
  rewrite /mxtrace; apply: eq_bigr => i _; rewrite [RHS]mxE; congr (_ + _); rewrite mxE; by apply: eq_bigr => j _; rewrite mulrC.
- by apply/matrixP => i j; rewrite !mxE; move: i j; do 2!apply: ord3P.
Qed.
(** C80 (refuted): the other two are not.  The weight between the first and the second moment is divided by n once more, and the
    variance of the second lacks the factor 2. *)
Theorem C80_tau_refuted : forall W, (0 < n)%N ->
  get_Tau W i0 i1 = tau_spec W i0 i1 / n%:R /\ get_Tau W i1 i1 = tau_spec W i1 i1 / 2%:R.
Proof.
move=> W n0; split.
- by rewrite !mxE /= /mom_mx /= mul1mx trace_sq /sumsq.
- rewrite !mxE /= /mom_mx /= [RHS]mulrC !mulrA mulVf ?two0 // mul1r; congr (_ / _); rewrite tr_prod.
  by apply: eq_bigr => i _; apply: eq_bigr => j _; rewrite expr2 (wtw_sym W j i).
Qed.
(** the weights of the reference are positive semidefinite for every W *)
Theorem C80_tau_spec_psd : forall W, psd (tau_spec W).
Proof.
move=> W; have S i : (mom_mx W i)^T = mom_mx W i.
  rewrite /mom_mx; case: eqP => _; first exact: trmx1.
  by case: eqP => _; [exact: gram_sym|rewrite linearZ linearD /= trmxK addrC].
split; first by apply/matrixP => i j; rewrite !mxE mxtrace_mulC.
move=> c; pose A := \sum_i c i 0 *: mom_mx W i.
suff -> : (c^T *m tau_spec W *m c) 0 0 = 2%:R * \tr (A^T *m A) / n%:R.
  rewrite divr_ge0 ?ler0n // mulr_ge0 ?ler0n // /mxtrace sumr_ge0 // => i _; rewrite mxE sumr_ge0 // => j _.
  by rewrite mxE -expr2 sqr_ge0.
have -> : A^T = A by rewrite /A [LHS]raddf_sum; apply: eq_bigr => i _ /=; rewrite [LHS]linearZ /= S.
rewrite -mulmxA mxE {1}/A mulmx_suml raddf_sum /= mulr_sumr mulr_suml; apply: eq_bigr => i _.
rewrite mxE [X in _ * X]mxE -scalemxAl mxtraceZ mulmx_sumr raddf_sum /= !mulr_sumr mulr_suml; apply: eq_bigr => j _.
rewrite [tau_spec W i j]mxE -scalemxAr mxtraceZ; move: (\tr _) (c i 0) (c j 0) (n%:R^-1) (2%:R : R) => a b d e f.
exact: perm5.
Qed.
End Tau.

Section CompleteF0.
Variable F : realFieldType.
Add Field Ff : (@p_ft F).
Lemma sq_cancel (r s : F) : r != 0 -> s != 0 -> s * s / (r ^+ 2) * (s^-1 * r * (s^-1 * r)) = 1.
Proof. by move=> /eqP r0 /eqP s0; rewrite expr2; mfield F. Qed.
End CompleteF0.

Section CompleteF.
Variable F : realFieldType.
Add Field Ff : (@p_ft F).
Lemma neg_id (m q0 q1 q2 : F) : m != 0 ->
  let a := m^-1 ^+ 2 + m * ((m - 1) / m ^+ 2) ^+ 2 in
  let b := m * ((m - 1) / m ^+ 2 * (m^-1 + m^-1)) in
  let c := m * m^-1 ^+ 2 + m^-1 in
  0 * q0 + c * (q1 * 0 + a * c + b * - b) + - b * (q2 * 0 + b * c + c * - b) = - (4%:R / m ^+ 5 * (m ^+ 2 - (2%:R + 1) * m + 1)).
Proof. by move=> /eqP m0 /=; rewrite -[4%:R]/(1 + (1 + (1 + 1))) -[2%:R]/(1 + 1) !exprS !expr0; mfield F. Qed.
End CompleteF.

Section Complete.
Variables (R : rcfType) (m : nat).
Hypothesis m3 : (3 <= m)%N.
(** the row-standardised weights of a map in which all m + 1 units are neighbours of each other *)
Definition complete_w : 'M[R]_m.+1 := \matrix_(i, j) (if i == j then 0 else m%:R^-1).
Let M0 : m%:R != 0 :> R. Proof. by rewrite pnatr_eq0 -lt0n (leq_trans _ m3). Qed.

Lemma sum_off (a b : R) (i : 'I_m.+1) : \sum_j (if i == j then a else b) = a + m%:R * b.
Proof.
rewrite (bigD1 i) //= eqxx (eq_bigr (fun=> b)); last by move=> j; rewrite eq_sym => /negbTE ->.
rewrite sumr_const mulr_natl; congr (_ + _ *+ _).
by rewrite -[LHS]/#|[pred j | j != i]| (cardC1 i) card_ord.
Qed.
Lemma wtw_complete i j : (complete_w^T *m complete_w) i j = if i == j then m%:R^-1 else (m%:R - 1) / m%:R ^+ 2.
Proof.
rewrite mxE; case: (i =P j) => [<-|/eqP ij].
  rewrite (eq_bigr (fun l => if i == l then 0 else m%:R^-1 ^+ 2)) ?sum_off ?add0r.
    by rewrite expr2 mulrA divff // mul1r.
  by move=> l _; rewrite !mxE (eq_sym l); case: eqP; rewrite ?mulr0 ?expr2.
rewrite (eq_bigr (fun l => (if i == l then 0 else m%:R^-1 ^+ 2) - (if j == l then m%:R^-1 ^+ 2 else 0))).
  rewrite sumrB !sum_off mulr0 add0r addr0 exprVn -[X in _ - X]mul1r -mulrBl.
  by [].
move=> l _; rewrite !mxE (eq_sym l) (eq_sym l); case: (i =P l) => [<-|_]; last first.
  by case: (j =P l) => _; rewrite ?mulr0 ?subrr ?subr0 ?expr2.
by rewrite eq_sym (negbTE ij) mul0r subr0.
Qed.
Lemma sum_all (F : 'I_m.+1 -> R) c : (forall i, F i = c) -> \sum_i F i = m.+1%:R * c.
Proof. by move=> H; rewrite (eq_bigr (fun=> c)) // sumr_const card_ord -[LHS]mulr_natl. Qed.
Lemma tau_complete : [/\ get_Tau complete_w i1 i1 = m%:R^-1 ^+ 2 + m%:R * ((m%:R - 1) / m%:R ^+ 2) ^+ 2,
  get_Tau complete_w i1 i2 = m%:R * ((m%:R - 1) / m%:R ^+ 2 * (m%:R^-1 + m%:R^-1)), get_Tau complete_w i2 i1 = get_Tau complete_w i1 i2
  & get_Tau complete_w i2 i2 = m%:R * m%:R^-1 ^+ 2 + m%:R^-1].
Proof.
have N0 : m.+1%:R != 0 :> R by rewrite pnatr_eq0.
have D (a b : R) : a = m.+1%:R * b -> a / m.+1%:R = b by move=> ->; rewrite mulrC mulKf.
split.
- rewrite mxE /=; apply: D; apply: sum_all => i; rewrite -(sum_off _ _ i); apply: eq_bigr => j _.
  by rewrite wtw_complete; case: eqP.
- rewrite mxE /=; apply: D; apply: sum_all => i; rewrite -[RHS]add0r -(sum_off _ _ i); apply: eq_bigr => j _.
  by rewrite wtw_complete !mxE (eq_sym j); case: eqP; rewrite ?addr0 ?mulr0.
- by rewrite !mxE.
- rewrite mxE /=; apply: D; apply: sum_all => i; rewrite wtw_complete eqxx; congr (_ + _).
  rewrite -[RHS]add0r -(sum_off _ _ i); apply: eq_bigr => j _.
  by rewrite !mxE (eq_sym j); case: eqP; rewrite ?mulr0 // expr2.
Qed.
Lemma m_pos : 0 < m%:R :> R. Proof. by rewrite ltr0n (leq_trans _ m3). Qed.
Lemma m_quad : 0 < m%:R ^+ 2 - (2%:R + 1) * m%:R + 1 :> R.
Proof.
have M3 : 2%:R + 1 <= m%:R :> R by rewrite -(natrD _ 2 1) ler_nat.
by rewrite ltr_paddl ?ltr01 // subr_ge0 expr2 ler_pmul2r // m_pos.
Qed.
(** C80 (refuted): on such a map the weights with full_weights=True are not positive definite - some combination of the moments
    is given a negative variance. *)
Theorem C80_tau_indefinite_refuted : exists v : 'cV[R]_3, (v^T *m get_Tau complete_w *m v) 0 0 < 0.
Proof.
have [A B B' C] := tau_complete; rewrite B in B'.
move: (get_Tau complete_w) A B B' C => Q A B B' C.
exists (\col_i nth 0 [:: 0; Q i2 i2; - Q i1 i2] i).
have -> : forall c : 'cV[R]_3, (c^T *m Q *m c) 0 0 = \sum_i c i 0 * (\sum_j Q i j * c j 0).
  by move=> c; rewrite -mulmxA mxE; apply: eq_bigr => i _; rewrite [_^T _ _]mxE; congr (_ * _); rewrite mxE.
rewrite !sum3' ![(\col_i _) _ _]mxE /=.
have E1 : (1 : 'I_3) = i1 by exact: val_inj.
by rewrite !E1 -!/i2 A B' C B neg_id // oppr_lt0 mulr_gt0 ?m_quad // divr_gt0 ?ltr0n // exprn_gt0 // m_pos.
Qed.
End Complete.

(** a matrix that gives some vector a negative value has no inverse with a Cholesky factor: numpy.linalg.cholesky(inv(vcX)) raises *)
Lemma no_factor (R : realFieldType) p (V : 'M[R]_p) (v : 'cV[R]_p) : (v^T *m V *m v) 0 0 < 0 -> V \in unitmx ->
  forall L : 'M[R]_p, L *m L^T <> invmx V.
Proof.
move=> neg U L E; have S : V^T = V.
  have I : (invmx V)^T = invmx V by rewrite -E trmx_mul trmxK.
  by rewrite -[LHS]invmxK -trmx_inv I invmxK.
have P : v^T *m V *m v = (L^T *m (V *m v))^T *m (L^T *m (V *m v)).
  rewrite trmx_mul trmxK trmx_mul S -!mulmxA; congr (_ *m _); by rewrite (mulmxA L) E (mulmxA (invmx V)) mulVmx // mul1mx.
by move: neg; rewrite P -utuE ltNge utu_ge0.
Qed.
Lemma kron_neg (R : rcfType) T n (W : 'M[R]_n) (sv s1 : R) (v : 'cV[R]_3) : (1 < T)%N -> 0 < sv ->
  (v^T *m get_Tau W *m v) 0 0 < 0 -> exists w : 'cV[R]_(2 * 3), (w^T *m kkp_Xi T W true sv s1 *m w) 0 0 < 0.
Proof.
move=> T1 sv0 neg; pose z : 'I_2 := ord0; exists (\col_r (if pt r == z then v (pu r) 0 else 0)).
have Q p (c : 'cV[R]_p) A : (c^T *m A *m c) 0 0 = \sum_i c i 0 * (\sum_j A i j * c j 0).
  by rewrite -mulmxA mxE; apply: eq_bigr => i _; rewrite [_^T _ _]mxE; congr (_ * _); rewrite mxE.
set w := (\col_r _); suff -> : (w^T *m kkp_Xi T W true sv s1 *m w) 0 0 = sv * sv / (T%:R - 1) * (v^T *m get_Tau W *m v) 0 0.
  by rewrite pmulr_rlt0 // divr_gt0 ?mulr_gt0 // subr_gt0 ltr1n.
rewrite !Q; move E: (get_Tau W) => X; rewrite big_pix (bigD1 z) //= [X in _ + X]big1 ?addr0; last first.
  by move=> t /negbTE H; apply: big1 => i _; rewrite mxE pt_pix H mul0r.
rewrite mulr_sumr; apply: eq_bigr => i _; rewrite [w _ _]mxE pt_pix eqxx pu_pix mulrCA; congr (_ * _).
rewrite big_pix (bigD1 z) //= [X in _ + X]big1 ?addr0; last first.
  by move=> t /negbTE H; apply: big1 => j _; rewrite [w _ _]mxE pt_pix H mulr0.
rewrite mulr_sumr; apply: eq_bigr => j _; rewrite [w _ _]mxE pt_pix eqxx pu_pix mulrA; congr (_ * _).
by rewrite /kkp_Xi kronE E [diag_mx _ _ _]mxE !mxE eqxx mulr1n.
Qed.
(** C80 (refuted): hence with full_weights=True the model cannot be estimated on such a map, whatever the data *)
Theorem C80_full_weights_refuted : forall (R : rcfType) T m (sv s1 : R), (3 <= m)%N -> (1 < T)%N -> 0 < sv ->
  let Xi := kkp_Xi T (complete_w R m) true sv s1 in
  Xi \in unitmx -> forall L : 'M[R]_(2 * 3), L *m L^T <> invmx Xi.
Proof.
move=> R T m sv s1 m3 T1 sv0 Xi U; have [v neg] := C80_tau_indefinite_refuted R m3.
have [w neg'] := kron_neg s1 T1 sv0 neg; exact: no_factor neg' U.
Qed.
(** the default weights always have a factor *)
(* partial; missing: full_weights=True (C80_full_weights_refuted) *)
Theorem C80_default_weights_partial : forall (R : rcfType) T n (W : 'M[R]_n) (sv s1 : R), (1 < T)%N -> 0 < sv -> 0 < s1 ->
  let Xi := kkp_Xi T W false sv s1 in
  Xi \in unitmx /\ exists L : 'M[R]_(2 * 3), (forall i j, i != j -> L i j = 0) /\ L *m L^T = invmx Xi.
Proof.
move=> R T n W sv s1 T1 sv0 s10 Xi.
have T0 : 0 < T%:R - 1 :> R by rewrite subr_gt0 ltr1n.
pose d : 'rV[R]_2 := \row_i nth 0 [:: sv^-1 * Num.sqrt (T%:R - 1); s1^-1] i.
pose L : 'M[R]_(2 * 3) := kron (diag_mx d) 1%:M.
have LT : L^T = L by rewrite /L kron_tr tr_diag_mx trmx1.
have E : Xi *m (L *m L^T) = 1%:M.
  rewrite LT /Xi /kkp_Xi /L !kron_mul !mul1mx !mulmx_diag -(kron1 R 2 3); congr kron.
  apply/matrixP => i j; rewrite !mxE; congr (_ *+ _); case: i => [[|[|//]] H] /=.
    have T0' := lt0r_neq0 T0; move: (sqr_sqrtr (ltW T0)) T0'; move: (Num.sqrt _) => r <-.
    by rewrite sqrf_eq0 => r0; apply: sq_cancel; rewrite // lt0r_neq0.
  by rewrite -invfM mulfV // mulf_neq0 ?lt0r_neq0.
have [U _] := mulmx1_unit E; split=> //; exists L; split; last by rewrite -[LHS](mulKmx U) E mulmx1.
move=> i j ij; rewrite /L [LHS]mxE [diag_mx _ _ _]mxE [1%:M _ _]mxE.
case: eqP => [Et|_]; last by rewrite mulr0n mul0r.
case: eqP => [Eu|_]; last by rewrite mulr0.
by case/eqP: ij; rewrite -(@pix_pt_pu 2 3 i) Et Eu pix_pt_pu.
Qed.
