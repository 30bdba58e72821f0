(** Property theorems C80: the moment equations, weights and estimates of the random effects panel model with spatial errors
    (spreg/sp_panels.py GM_KKP, spreg/panel.py GM_ErrorRE). *)
From mathcomp Require Import all_ssreflect all_algebra.
From Coq Require Import Ring Field.
From Verif Require Import Mring LinRegModel LinRegProofs LinRegProofs2 LinRegProofs3 FilterModel FilterProofs MomentsTheorems Kron PanelModel PanelTheorems KkpModel.
Set Implicit Arguments.
Unset Strict Implicit.
Unset Printing Implicit Defensive.
Import Order.TTheory GRing.Theory Num.Theory.
Local Open Scope ring_scope.

(** * Specification: variables observed for T periods and n units *)
Section Spec.
Variables (R : realFieldType) (T n : nat).
Implicit Types (a b : 'I_T -> 'I_n -> R) (W : 'M[R]_n).
(** mean of unit i over the periods *)
Definition umean a i : R := (\sum_t a t i) / T%:R.
(** within and between sums of products *)
Definition within a b : R := \sum_t \sum_i (a t i - umean a i) * (b t i - umean b i).
Definition between a b : R := T%:R * \sum_i umean a i * umean b i.
(** spatial lag, and spatially filtered variable, period by period *)
Definition slag W a : 'I_T -> 'I_n -> R := fun t i => \sum_j W i j * a t j.
Definition sfilt lam W a : 'I_T -> 'I_n -> R := fun t i => a t i - lam * slag W a t i.
(** the variable stored in a long column: row t * n + i is unit i in period t *)
Definition pv (u : 'cV[R]_(T * n)) : 'I_T -> 'I_n -> R := fun t i => u (pix t i) 0.
(** sum of squares of the entries of W: the trace of W'W *)
Definition sumsq W : R := \tr (W^T *m W).
End Spec.

Section Forms.
Variables (R : rcfType) (T n : nat).
Implicit Types (u v : 'cV[R]_(T * n)) (W : 'M[R]_n).

Lemma mat_Tw W u : mat_of (kkp_Tw T W *m u) = (W *m (mat_of u)^T)^T.
Proof.
apply/matrixP => t i; rewrite !mxE big_pix (bigD1 t) //= [X in _ + X]big1 ?addr0; last first.
  by move=> s H; apply: big1 => j _; rewrite kronE mxE (eq_sym t) (negbTE H) !mul0r.
by apply: eq_bigr => j _; rewrite kronE !mxE eqxx mul1r.
Qed.
Lemma mat_Q1 u : mat_of (kkp_Q1 R T n *m u) = txn_Q true (mat_of u).
Proof.
apply/matrixP => t i; rewrite !mxE big_pix mulr_suml; apply: eq_bigr => s _.
rewrite (bigD1 i) //= [X in _ + X]big1 ?addr0; first by rewrite kronE !mxE eqxx ?mulr1n !mulr1 mulrC.
by move=> j H; rewrite kronE [X in _ * X * _]mxE (eq_sym i) (negbTE H) mulr0 mul0r.
Qed.
Lemma Q0E : kkp_Q0 R T n = 1%:M - kkp_Q1 R T n.
Proof. by rewrite /kkp_Q0 -scaleN1r kronDl kron1 kronZl scaleN1r. Qed.
Lemma mat_Q0 u : mat_of (kkp_Q0 R T n *m u) = txn_Q false (mat_of u).
Proof.
have /matrixP E := mat_Q1 u; apply/matrixP => t i; move: (E t i); rewrite Q0E mulmxBl mul1mx.
move: (kkp_Q1 R T n *m u) => v; rewrite /txn_Q /=; move: (col_mean _) => c; by rewrite !mxE => <-.
Qed.
Lemma mat_E u t i : mat_of u t i = pv u t i. Proof. by rewrite mxE. Qed.
Lemma dot_mat u v : dot u v = sum_prod (mat_of u) (mat_of v).
Proof. by rewrite /dot dotE /sum_prod big_pix; apply: eq_bigr => t _; apply: eq_bigr => i _; rewrite !mxE. Qed.
Lemma Q1_avg : kkp_Q1 R T n = avg R T n. Proof. by []. Qed.
Lemma Q1_tr : (kkp_Q1 R T n)^T = kkp_Q1 R T n. Proof. exact: avg_tr. Qed.
Lemma Q0_tr : (kkp_Q0 R T n)^T = kkp_Q0 R T n.
Proof. by rewrite Q0E [(_ - _)^T]linearB /= trmx1 Q1_tr. Qed.
Hypothesis T0 : (0 < T)%N.
Lemma Q1_idem : kkp_Q1 R T n *m kkp_Q1 R T n = kkp_Q1 R T n. Proof. exact: avg_idem. Qed.
Lemma Q0_idem : kkp_Q0 R T n *m kkp_Q0 R T n = kkp_Q0 R T n.
Proof. by rewrite Q0E mulmxBl mul1mx mulmxBr mulmx1 Q1_idem subrr subr0. Qed.
Lemma Q01 : kkp_Q0 R T n *m kkp_Q1 R T n = 0.
Proof. by rewrite Q0E mulmxBl mul1mx Q1_idem subrr. Qed.
Lemma Q10 : kkp_Q1 R T n *m kkp_Q0 R T n = 0.
Proof. by rewrite Q0E mulmxBr mulmx1 Q1_idem subrr. Qed.
Lemma dot_sym (Q : 'M[R]_(T * n)) u v : Q^T = Q -> dot u (Q *m v) = dot v (Q *m u).
Proof. by move=> S; rewrite dotC dot_adj S. Qed.
Lemma dot_idem (Q : 'M[R]_(T * n)) u v : Q^T = Q -> Q *m Q = Q -> dot u (Q *m v) = dot (Q *m u) (Q *m v).
Proof. by move=> S I; rewrite dot_adj S mulmxA I. Qed.

Lemma umeanE u i : umean (pv u) i = col_mean (mat_of u) 0 i.
Proof. by rewrite mxE; congr (_ / _); apply: eq_bigr => t _; rewrite mat_E. Qed.
Lemma withinE u v : dot u (kkp_Q0 R T n *m v) = within (pv u) (pv v).
Proof.
rewrite dot_idem ?Q0_tr ?Q0_idem // dot_mat !mat_Q0 /sum_prod /within.
by apply: eq_bigr => t _; apply: eq_bigr => i _; rewrite !umeanE -!mat_E /txn_Q /=; move: (col_mean (mat_of u)) (col_mean (mat_of v)) => a b; rewrite !mxE.
Qed.
Lemma betweenE u v : dot u (kkp_Q1 R T n *m v) = between (pv u) (pv v).
Proof.
rewrite dot_idem ?Q1_tr ?Q1_idem // dot_mat !mat_Q1 /sum_prod /between.
transitivity (\sum_(t < T) \sum_i umean (pv u) i * umean (pv v) i); last by rewrite sumr_const card_ord -[LHS]mulr_natl.
apply: eq_bigr.
by move=> t _; apply: eq_bigr => i _; rewrite !umeanE /txn_Q /=; move: (col_mean _) (col_mean _) => a b; rewrite !mxE.
Qed.
Lemma pv_Tw W u t i : pv (kkp_Tw T W *m u) t i = slag W (pv u) t i.
Proof. by rewrite -mat_E mat_Tw mxE !mxE; apply: eq_bigr => j _; rewrite !mxE. Qed.
Lemma pv_filt W lam u t i : pv (u - lam *: (kkp_Tw T W *m u)) t i = sfilt lam W (pv u) t i.
Proof. by rewrite /sfilt -pv_Tw; rewrite /pv; move: (kkp_Tw T W *m u) => v; rewrite !mxE. Qed.
Lemma eq_within (a b c d : 'I_T -> 'I_n -> R) : (forall t i, a t i = b t i) -> (forall t i, c t i = d t i) -> within a c = within b d.
Proof.
move=> E F; have U (p q : 'I_T -> 'I_n -> R) : (forall t i, p t i = q t i) -> forall i, umean p i = umean q i.
  by move=> H i; congr (_ / _); apply: eq_bigr.
by apply: eq_bigr => t _; apply: eq_bigr => i _; rewrite E F (U _ _ E) (U _ _ F).
Qed.
Lemma eq_between (a b c d : 'I_T -> 'I_n -> R) : (forall t i, a t i = b t i) -> (forall t i, c t i = d t i) -> between a c = between b d.
Proof.
move=> E F; have U (p q : 'I_T -> 'I_n -> R) : (forall t i, p t i = q t i) -> forall i, umean p i = umean q i.
  by move=> H i; congr (_ / _); apply: eq_bigr.
by congr (_ * _); apply: eq_bigr => i _; rewrite (U _ _ E) (U _ _ F).
Qed.
End Forms.

(** C80: the two implementations - with Kronecker products of order T n (the deprecated class) and with T x n arrays - give the
    same moment equations. *)
Theorem C80_same_moments : forall (R : rcfType) T n (W : 'M[R]_n) (u : 'cV[R]_(T * n)),
  moments_kkp0 W u = moments_re0 W u /\ moments_kkp1 W u = moments_re1 W u.
Proof.
move=> R T n W u; have S (i : bool) (Q : 'M[R]_(T * n)) : (forall v, mat_of (Q *m v) = txn_Q i (mat_of v)) -> kron_sums W Q u = txn_sums W i u.
  by move=> H; rewrite /kron_sums /txn_sums !dot_mat !H !mat_Tw.
by split; [rewrite /moments_kkp0 (S false)|rewrite /moments_kkp1 (S true)] => // v; rewrite ?mat_Q0 ?mat_Q1.
Qed.

Section MomF.
Variable F : realFieldType.
Add Field Ff : (@p_ft F).
Lemma mom_id1 (uu ub bb lam c : F) : c != 0 ->
  uu / c - (2%:R * ub / c * lam + - bb / c * lam ^+ 2) = (uu - lam * ub + (- (lam * ub) - - (lam * (lam * bb)))) / c.
Proof. by move=> /eqP c0; rewrite -[2%:R]/(1 + 1) expr2; mfield F. Qed.
Lemma mom_id3 (ub uB bb bB lam c : F) : c != 0 ->
  ub / c - ((uB + bb) / c * lam + - bB / c * lam ^+ 2) = (ub - lam * uB + (- (lam * bb) - - (lam * (lam * bB)))) / c.
Proof. by move=> /eqP c0; rewrite expr2; mfield F. Qed.
End MomF.

Section Main.
Variables (R : rcfType) (T n : nat).
Implicit Types (u v : 'cV[R]_(T * n)) (W : 'M[R]_n).
Lemma trace_sq W : trace_w2 W = sumsq W.
Proof.
rewrite /trace_w2 /sumsq /mxtrace exchange_big; apply: eq_bigr => j _; rewrite mxE; apply: eq_bigr => i _.
by rewrite mxE expr2.
Qed.

(** The three left-hand sides, without the variance columns, for a symmetric weighting Q *)
Lemma sums_core W (Q : 'M[R]_(T * n)) u lam (c : R) : Q^T = Q -> c != 0 ->
  let s := kron_sums W Q u in
  let e := u - lam *: (kkp_Tw T W *m u) in
  [/\ nth 0 s.2 0 / c - (nth 0 s.1 0 / c * lam + nth 0 s.1 1 / c * lam ^+ 2) = dot e (Q *m e) / c,
      nth 0 s.2 1 / c - (nth 0 s.1 2 / c * lam + nth 0 s.1 3 / c * lam ^+ 2) = dot (kkp_Tw T W *m e) (Q *m (kkp_Tw T W *m e)) / c
    & nth 0 s.2 2 / c - (nth 0 s.1 4 / c * lam + nth 0 s.1 5 / c * lam ^+ 2) = dot e (Q *m (kkp_Tw T W *m e)) / c].
Proof.
move=> S c0 /=; set ub := kkp_Tw T W *m u; set ubb := kkp_Tw T W *m ub.
have -> : kkp_Tw T W *m (u - lam *: ub) = ub - lam *: ubb by rewrite mulmxBr -scalemxAr.
have E (a b : 'cV[R]_(T * n)) : Q *m (a - lam *: b) = Q *m a - lam *: (Q *m b) by rewrite mulmxBr -scalemxAr.
rewrite !E !dotE' (dot_sym ub u S) (dot_sym ubb ub S).
move: (dot u (Q *m u)) (dot u (Q *m ub)) (dot ub (Q *m ub)) (dot u (Q *m ubb)) (dot ub (Q *m ubb)) (dot ubb (Q *m ubb)) => a b d e f g.
by split; rewrite ?mom_id1 ?mom_id3.
Qed.
Lemma sum3' (F : 'I_3 -> R) : \sum_i F i = F 0 + F 1 + F (Ordinal (isT : 2 < 3)%N).
Proof. by rewrite !big_ord_recl big_ord0 addr0 !addrA; congr (_ + _ + _); congr F; exact: val_inj. Qed.
Lemma sum4' (F : 'I_4 -> R) : \sum_i F i = F 0 + F 1 + F (Ordinal (isT : 2 < 4)%N) + F (Ordinal (isT : 3 < 4)%N).
Proof. by rewrite !big_ord_recl big_ord0 addr0 !addrA; congr (_ + _ + _ + _); congr F; exact: val_inj. Qed.
Lemma ord3P (P : 'I_3 -> Prop) : P 0 -> P 1 -> P (Ordinal (isT : 2 < 3)%N) -> forall i, P i.
Proof.
move=> a b c [[|[|[|//]]] H].
- by rewrite (_ : Ordinal H = 0) //; exact: val_inj.
- by rewrite (_ : Ordinal H = 1) //; exact: val_inj.
- by rewrite (_ : Ordinal H = Ordinal (isT : 2 < 3)%N) //; exact: val_inj.
Qed.

Section Conditions.
Variables (W : 'M[R]_n) (u : 'cV[R]_(T * n)) (lam sv s1 : R).
Hypotheses (n0 : (0 < n)%N) (T1 : (1 < T)%N).
Let e := sfilt lam W (pv u).
Let we := slag W e.
Definition within_conditions : 'cV[R]_3 := \col_i nth 0
  [:: within e e / (n%:R * (T%:R - 1)) - sv;
      within we we / (n%:R * (T%:R - 1)) - sv * (sumsq W / n%:R);
      within e we / (n%:R * (T%:R - 1))] i.
Definition between_conditions : 'cV[R]_3 := \col_i nth 0
  [:: between e e / n%:R - s1;
      between we we / n%:R - s1 * (sumsq W / n%:R);
      between e we / n%:R] i.

Let T0 : (0 < T)%N := ltnW T1.
Let N0 : n%:R != 0 :> R. Proof. by rewrite pnatr_eq0 -lt0n. Qed.
Let T1' : T%:R - 1 != 0 :> R. Proof. by rewrite subr_eq0 pnatr_eq1 gtn_eqF. Qed.
Let C0 : n%:R * (T%:R - 1) != 0 :> R. Proof. by rewrite mulf_neq0. Qed.
Let ev := u - lam *: (kkp_Tw T W *m u).
Let lagE t i : pv (kkp_Tw T W *m ev) t i = we t i.
Proof. by rewrite pv_Tw; apply: eq_bigr => j _; rewrite /ev pv_filt. Qed.

(** C80: the first three equations, at (lambda, sigma_v^2), are the conditions of Kapoor, Kelejian and Prucha on the within variation
    of the filtered residuals and their spatial lag. *)
Theorem C80_within_moments :
  (moments_kkp0 W u).2 - (moments_kkp0 W u).1 *m par3 lam sv = within_conditions.
Proof.
have [A B C] := sums_core W u lam (Q0_tr R T n) C0; rewrite -/ev in A B C.
have WE : dot ev (kkp_Q0 R T n *m ev) = within e e by rewrite withinE //; apply: eq_within => t i; rewrite /ev pv_filt.
have WW : dot (kkp_Tw T W *m ev) (kkp_Q0 R T n *m (kkp_Tw T W *m ev)) = within we we.
  by rewrite withinE //; apply: eq_within => t i; rewrite lagE.
have WV : dot ev (kkp_Q0 R T n *m (kkp_Tw T W *m ev)) = within e we.
  by rewrite withinE //; apply: eq_within => t i; rewrite ?lagE // /ev pv_filt.
rewrite {}WE in A; rewrite {}WW in B; rewrite {}WV in C.
rewrite /moments_kkp0 /of_sums0 /within_conditions -/e -/we; move: (kron_sums W (kkp_Q0 R T n) u) A B C => [s g] /= A B C.
move: (within e e) (within we we) (within e we) A B C => a b c A B C; rewrite /with6 /with3 trace_sq.
apply/matrixP => i j; rewrite ord1 {j}; move: i; apply: ord3P; rewrite [RHS]mxE [LHS]mxE [(- _ : 'cV[R]_3) _ _]mxE [(_ *m _) _ _]mxE sum3'.
all: rewrite ![kkp_G0 _ _ _ _ _ _ _ _ _ _ _]mxE ![kkp_g _ _ _ _ _ _ _ _]mxE ![par3 _ _ _ _]mxE /=.
- by rewrite -{}A divff // mul1r opprD addrA.
- by rewrite -{}B opprD addrA; congr (_ - _); rewrite -mulf_div divff ?T1' // mulr1 mulrC.
- by rewrite -{}C !mul0r addr0.
Qed.
Lemma par4E : par4 lam sv s1 = col_mx (par3 lam sv) (s1%:M : 'M[R]_1) :> 'cV[R]_(3 + 1).
Proof.
rewrite -[LHS](@vsubmxK R 3 1 1); congr col_mx; apply/matrixP => i j; rewrite !ord1.
- by rewrite !mxE; move: i; apply: ord3P.
- by rewrite !mxE.
Qed.
Lemma between_moments :
  (moments_kkp1 W u).2 - (moments_kkp1 W u).1 *m par4 lam sv s1 = between_conditions.
Proof.
have [A B C] := sums_core W u lam (Q1_tr R T n) N0; rewrite -/ev in A B C.
have WE : dot ev (kkp_Q1 R T n *m ev) = between e e by rewrite betweenE //; apply: eq_between => t i; rewrite /ev pv_filt.
have WW : dot (kkp_Tw T W *m ev) (kkp_Q1 R T n *m (kkp_Tw T W *m ev)) = between we we.
  by rewrite betweenE //; apply: eq_between => t i; rewrite lagE.
have WV : dot ev (kkp_Q1 R T n *m (kkp_Tw T W *m ev)) = between e we.
  by rewrite betweenE //; apply: eq_between => t i; rewrite ?lagE // /ev pv_filt.
rewrite {}WE in A; rewrite {}WW in B; rewrite {}WV in C.
rewrite /moments_kkp1 /of_sums1 /between_conditions -/e -/we; move: (kron_sums W (kkp_Q1 R T n) u) A B C => [s g] /= A B C.
move: (between e e) (between we we) (between e we) A B C => a b c A B C; rewrite /with6 /with3 trace_sq.
apply/matrixP => i j; rewrite ord1 {j}; move: i; apply: ord3P; rewrite [RHS]mxE [LHS]mxE [(- _ : 'cV[R]_3) _ _]mxE [(_ *m _) _ _]mxE sum4'.
all: rewrite ![kkp_G1 _ _ _ _ _ _ _ _ _ _]mxE ![kkp_g _ _ _ _ _ _ _ _]mxE ![par4 _ _ _ _ _]mxE /=.
- by rewrite mulr1 !mul0r addr0 divff // mul1r opprD addrA A.
- by rewrite mulr1 !mul0r addr0 opprD addrA B; congr (_ - _); rewrite mulrC.
- by rewrite mulr1 !mul0r !addr0 C.
Qed.

(** C80: the six equations in (lambda, sigma_v^2, sigma_1^2). *)
Theorem C80_six_moments :
  (moments6 (moments_kkp0 W u) (moments_kkp1 W u)).2 - (moments6 (moments_kkp0 W u) (moments_kkp1 W u)).1 *m par4 lam sv s1
  = col_mx within_conditions between_conditions.
Proof.
rewrite /moments6 /= mul_col_mx opp_col_mx add_col_mx between_moments; congr col_mx.
have E (A : 'M[R]_3) : (row_mx A (0 : 'cV[R]_3) : 'M[R]_(3, 4)) *m par4 lam sv s1 = A *m par3 lam sv.
  apply: (etrans (congr1 (mulmx (row_mx A (0 : 'cV[R]_3))) par4E)); by rewrite mul_row_col mul0mx addr0.
by rewrite E C80_within_moments.
Qed.
End Conditions.
End Main.
