(** Positive definite matrices: Schur complement, Cholesky factor, log-determinant and trace, Hadamard's inequality. *)
From Coq Require Import Reals.
From mathcomp Require Import all_ssreflect all_algebra.
From Verif Require Import Rinst Mring LinRegModel LinRegProofs LinRegProofs2 MLModel MLSpec MLProofs MLTheorems3 MLTheorems4.
Set Implicit Arguments.
Unset Strict Implicit.
Unset Printing Implicit Defensive.
Import Order.TTheory GRing.Theory Num.Theory.
Local Open Scope ring_scope.

Section Schur.
Variable (F : rcfType).
Lemma pd_congr k l (A : 'M[F]_k) (L : 'M[F]_(k, l)) : pd A -> (forall c : 'cV[F]_l, L *m c = 0 -> c = 0) -> pd (L^T *m A *m L).
Proof.
move=> [S P] I; split; first by rewrite !trmx_mul trmxK S mulmxA.
move=> c c0; have -> : c^T *m (L^T *m A *m L) *m c = (L *m c)^T *m A *m (L *m c) by rewrite trmx_mul !mulmxA.
by apply: P; apply: contra c0 => /eqP /I ->.
Qed.
Lemma pd_unit_congr k (A L : 'M[F]_k) : pd A -> L \in unitmx -> pd (L^T *m A *m L).
Proof. by move=> P U; apply: pd_congr => // c; move/(proj1 (unitmx_inj _)): U; apply. Qed.
Lemma pd_ul k l (A : 'M[F]_k) B C (D : 'M[F]_l) : pd (block_mx A B C D) -> pd A.
Proof.
move=> P; have -> : A = (col_mx 1%:M 0 : 'M[F]_(k + l, k))^T *m block_mx A B C D *m col_mx 1%:M 0.
  by rewrite tr_col_mx trmx1 trmx0 mul_row_block mul_row_col !mul1mx !mul0mx !addr0 mulmx1 mulmx0 addr0.
by apply: pd_congr => // c; rewrite mul_col_mx mul1mx mul0mx => /(congr1 usubmx); rewrite col_mxKu linear0.
Qed.
Lemma pd_dr k l (A : 'M[F]_k) B C (D : 'M[F]_l) : pd (block_mx A B C D) -> pd D.
Proof.
move=> P; have -> : D = (col_mx 0 1%:M : 'M[F]_(k + l, l))^T *m block_mx A B C D *m col_mx 0 1%:M.
  by rewrite tr_col_mx trmx1 trmx0 mul_row_block mul_row_col !mul1mx !mul0mx !add0r mulmx1 mulmx0 add0r.
by apply: pd_congr => // c; rewrite mul_col_mx mul1mx mul0mx => /(congr1 dsubmx); rewrite col_mxKd linear0.
Qed.
Section Top.
Variable m : nat.
Definition schur1 (a : F) (b : 'cV[F]_m) (D : 'M[F]_m) : 'M[F]_m := D - a^-1 *: (b *m b^T).
Definition elim1 (a : F) (b : 'cV[F]_m) : 'M[F]_(1 + m) := block_mx 1%:M (a^-1 *: b^T) 0 1%:M.
Lemma det_elim1 a b : \det (elim1 a b) = 1.
Proof. by rewrite det_ublock !det1 mulr1. Qed.
Lemma elim1E a b D : a != 0 -> (elim1 a b)^T *m block_mx a%:M 0 0 (schur1 a b D) *m elim1 a b = block_mx a%:M b^T b D.
Proof.
move=> a0; rewrite /elim1 tr_block_mx !trmx1 trmx0 linearZ /= trmxK !mulmx_block !mul1mx !mul0mx !mulmx0 !mulmx1 !addr0 !add0r mul_scalar_mx scalerA mulfV // scale1r.
congr block_mx; first by rewrite mul_mx_scalar scalerA mulfV // scale1r.
by rewrite mul_mx_scalar scalerA mulfV // scale1r -scalemxAr /schur1 addrC subrK.
Qed.
Lemma pd_top (A : 'M[F]_(1 + m)) : pd A -> exists a b D, [/\ A = block_mx a%:M b^T b D, 0 < a, pd (schur1 a b D) & pd D].
Proof.
move=> P; have [S Q] := P; exists (ulsubmx A 0 0), (dlsubmx A), (drsubmx A).
have E : A = block_mx (ulsubmx A 0 0)%:M (dlsubmx A)^T (dlsubmx A) (drsubmx A).
  by rewrite -[LHS]submxK; congr block_mx; [exact: mx11_scalar|rewrite trmx_dlsub S].
move: E; set a := ulsubmx A 0 0; set b := dlsubmx A; set D := drsubmx A => E; rewrite E in P.
have a0 : 0 < a.
  by have [_ /(_ 1%:M)] := pd_ul P; rewrite trmx1 mul1mx mulmx1 mxE eqxx mulr1n; apply; rewrite matrix_nonzero1.
split=> //; last exact: pd_dr P.
have U : elim1 a b \in unitmx by rewrite unitmxE det_elim1 unitr1.
have UI : invmx (elim1 a b) \in unitmx by rewrite unitmx_inv.
move: P; rewrite -elim1E ?gt_eqF // => P; have := pd_unit_congr P UI.
set M := block_mx _ _ _ _; have -> : (invmx (elim1 a b))^T *m ((elim1 a b)^T *m M *m elim1 a b) *m invmx (elim1 a b) = M.
  by rewrite -!mulmxA mulmxV // mulmx1 mulmxA -trmx_mul mulmxV // trmx1 mul1mx.
exact: pd_dr.
Qed.
Lemma det_top a b D : a != 0 -> \det (block_mx a%:M b^T b D) = a * \det (schur1 a b D).
Proof. by move=> a0; rewrite -elim1E // !det_mulmx det_tr det_elim1 mul1r mulr1 det_ublock det_scalar1. Qed.
End Top.
(** Cholesky factor *)
Lemma chol m (A : 'M[F]_m) : pd A -> exists2 L, L \in unitmx & A = L^T *m L.
Proof.
elim: m A => [|m IH] A P; first by exists 1%:M; [rewrite unitmx1|apply/matrixP => -[]].
have [a [b [D [-> a0 /IH [L U E] _]]]] := pd_top P.
pose L0 : 'M[F]_(1 + m) := block_mx (Num.sqrt a)%:M 0 0 L; exists (L0 *m elim1 a b).
  rewrite unitmx_mul !unitmxE det_elim1 unitr1 andbT (_ : \det L0 = Num.sqrt a * \det L) ?unitrM ?unitfE ?sqrtr_eq0 -?ltNge ?a0 -?unitfE -?unitmxE //.
  by rewrite /L0 det_ublock det_scalar1.
rewrite -(elim1E _ _ (lt0r_neq0 a0)) trmx_mul -[in RHS]mulmxA [L0^T *m _]mulmxA -mulmxA; congr (_ *m (_ *m _)).
rewrite /L0 tr_block_mx !trmx0 tr_scalar_mx mulmx_block !mulmx0 !mul0mx !addr0 add0r -scalar_mxM -E -expr2 sqr_sqrtr //; exact: ltW.
Qed.
Lemma pd_det m (A : 'M[F]_m) : pd A -> 0 < \det A.
Proof.
move=> /chol [L U ->]; rewrite det_mulmx det_tr -expr2 exprn_even_gt0 //=; by rewrite -unitfE -unitmxE.
Qed.
Lemma quad_ge0 m (A : 'M[F]_m) (c : 'cV[F]_m) : pd A -> 0 <= (c^T *m A *m c) 0 0.
Proof.
case=> _ P; case: (eqVneq c 0) => [->|/P /ltW //]; by rewrite mulmx0 mxE.
Qed.
Lemma pd_diag_gt0 m (A : 'M[F]_m) i : pd A -> 0 < A i i.
Proof.
case=> _ H; have := H (delta_mx i 0); rewrite trmx_delta -rowE -colE !mxE; apply.
by apply/eqP => /matrixP /(_ i 0); rewrite !mxE !eqxx => /eqP; rewrite oner_eq0.
Qed.
Lemma prod_block m a (b : 'cV[F]_m) D : \prod_(i < 1 + m) (block_mx a%:M b^T b D : 'M[F]_(1 + m)) i i = a * \prod_i D i i.
Proof.
rewrite big_split_ord big_ord1 /= block_mxEul mxE eqxx mulr1n; congr (_ * _); by apply: eq_bigr => i _; rewrite block_mxEdr.
Qed.
(** Hadamard: the determinant is at most the product of the diagonal *)
Lemma hadamard m (A : 'M[F]_m) : pd A -> \det A <= \prod_i A i i.
Proof.
elim: m A => [|m IH] A P; first by rewrite det_mx00 big_ord0.
have [a [b [D [E a0 PS PD]]]] := pd_top P; rewrite E det_top ?gt_eqF // (prod_block a b D) ler_pmul2l //.
apply: le_trans (IH _ PS) _; apply: ler_prod => i _; rewrite (ltW (pd_diag_gt0 i PS)) /=.
rewrite /schur1 !mxE big_ord1 mxE ger_addl oppr_le0 mulr_ge0 ?invr_ge0 ?(ltW a0) // -expr2; exact: sqr_ge0.
Qed.
End Schur.

Lemma tr_block1 (F : rcfType) m a (b : 'cV[F]_m) D : \tr (block_mx a%:M b^T b D : 'M[F]_(1 + m)) = a + \tr D.
Proof. by rewrite mxtrace_block mxtrace_scalar mulr1n. Qed.
(** ln det A <= tr A - m *)
Lemma ln_det_tr m (A : 'M[R]_m) : pd A -> ln (\det A) <= \tr A - m%:R.
Proof.
elim: m A => [|m IH] A P; first by rewrite det_mx00 ln1 /mxtrace big_ord0 subrr.
have [a [b [D [E a0 PS PD]]]] := pd_top P; rewrite E det_top ?gt_eqF // lnM ?pd_det // (tr_block1 a b D) -addn1 natrD.
have T : \tr (schur1 a b D) <= \tr D.
  apply: ler_sum => i _; rewrite /schur1 !mxE big_ord1 mxE ger_addl oppr_le0 mulr_ge0 ?invr_ge0 ?(ltW a0) // -expr2; exact: sqr_ge0.
have H := ler_add (ln_le_sub1 a0) (le_trans (IH _ PS) (ler_sub T (lexx m%:R))).
apply: le_trans H _; by rewrite [_ - 1 + _]addrACA [- 1 + _]addrC opprD.
Qed.
(** for positive definite S and Sig: ln det S + m <= ln det Sig + tr (Sig^-1 S) *)
Lemma kl_bound m (S Sig : 'M[R]_m) : pd S -> pd Sig -> ln (\det S) + m%:R <= ln (\det Sig) + \tr (invmx Sig *m S).
Proof.
move=> PS PG; have [L U E] := chol PS; have UL : L^T \in unitmx by rewrite unitmx_tr.
have := ln_det_tr (pd_unit_congr (pd_inv PG) UL); rewrite trmxK -mulmxA mxtrace_mulC -mulmxA -E.
rewrite !det_mulmx det_tr det_inv mulrCA -expr2.
have -> : \det L ^+ 2 = \det S by rewrite E det_mulmx det_tr expr2.
have dS := pd_det PS; have dG := pd_det PG.
rewrite [ln (_ * _)]lnM ?invr_gt0 // lnV // => H.
rewrite -ler_subr_addr; apply: le_trans (_ : _ <= ln (\det Sig) + (\tr (invmx Sig *m S) - m%:R)) _; last by rewrite addrA.
by rewrite -ler_subl_addl addrC.
Qed.
