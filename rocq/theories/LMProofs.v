From mathcomp Require Import all_ssreflect all_algebra.
From Coq Require Import Ring Field.
From Verif Require Import Mring LinRegModel LinRegProofs LinRegProofs2 FilterModel MLTheorems3 LMModel LMSpec.
Set Implicit Arguments.
Unset Strict Implicit.
Unset Printing Implicit Defensive.
Import Order.TTheory GRing.Theory Num.Theory.
Local Open Scope ring_scope.

Section P.
Variable R : realFieldType.
Add Field Rf : (@p_ft R).

Lemma add00 (X Y : 'M[R]_1) : (X + Y) 0 0 = X 0 0 + Y 0 0. Proof. by rewrite mxE. Qed.
Lemma sub00 (X Y : 'M[R]_1) : (X - Y) 0 0 = X 0 0 - Y 0 0. Proof. by rewrite mxE [(- Y) 0 0]mxE. Qed.
Lemma sc00 (X : 'M[R]_1) a : (a *: X) 0 0 = a * X 0 0. Proof. by rewrite mxE. Qed.
Lemma tr00 (X : 'M[R]_1) : X^T 0 0 = X 0 0. Proof. by rewrite mxE. Qed.
Lemma sm00 (a : R) : (a%:M : 'M[R]_1) 0 0 = a. Proof. by rewrite mxE eqxx mulr1n. Qed.
Lemma trD m p (A B : 'M[R]_(m, p)) : (A + B)^T = A^T + B^T. Proof. by apply/matrixP => i j; rewrite !mxE. Qed.
Lemma trB m p (A B : 'M[R]_(m, p)) : (A - B)^T = A^T - B^T. Proof. by apply/matrixP => i j; rewrite !mxE. Qed.
Lemma trZ m p a (A : 'M[R]_(m, p)) : (a *: A)^T = a *: A^T. Proof. by apply/matrixP => i j; rewrite !mxE. Qed.

Lemma score_sol k (s c : 'cV[R]_k) (J : 'M[R]_k) : J \in unitmx -> J *m c = s -> score_stat s J = (s^T *m c) 0 0.
Proof. by move=> U <-; rewrite /score_stat -mulmxA mulKmx. Qed.
Lemma score_ge0 k (s : 'cV[R]_k) (J : 'M[R]_k) : pd J -> 0 <= score_stat s J.
Proof.
move=> HJ; have [_ H] := pd_inv HJ; rewrite /score_stat.
by have [->|N] := eqVneq s 0; [rewrite mulmx0 mxE|exact: ltW (H _ N)].
Qed.
(** a larger set of restrictions gives a larger statistic *)
Lemma score_mono k l (A : 'M[R]_k) (B : 'M[R]_(k, l)) (D : 'M[R]_l) (a : 'cV[R]_k) (b : 'cV[R]_l) :
  pd (block_mx A B B^T D) -> score_stat b D <= score_stat (col_mx a b) (block_mx A B B^T D) /\
                             score_stat a A <= score_stat (col_mx a b) (block_mx A B B^T D).
Proof.
set J := block_mx A B B^T D; move=> HJ.
have UJ := pd_unit HJ; have [SJ PJ] := HJ.
have main (c : 'cV[R]_(k + l)) : (c^T *m J *m c) 0 0 = ((col_mx a b)^T *m c) 0 0 ->
    ((col_mx a b)^T *m c) 0 0 <= score_stat (col_mx a b) J.
  move=> E; rewrite /score_stat; set s := col_mx a b in E *; set d := invmx J *m s.
  have G : 0 <= ((d - c)^T *m J *m (d - c)) 0 0.
    by have [->|N] := eqVneq (d - c) 0; [rewrite mulmx0 mxE|exact: ltW (PJ _ N)].
  move: G; rewrite trB !mulmxBl !mulmxBr !sub00 E.
  have -> : (d^T *m J *m d) 0 0 = (s^T *m invmx J *m s) 0 0.
    by rewrite /d trmx_mul invmx_sym // mulmxKV // mulmxA.
  have -> : (d^T *m J *m c) 0 0 = (s^T *m c) 0 0 by rewrite /d trmx_mul invmx_sym // mulmxKV.
  have -> : (c^T *m J *m d) 0 0 = (s^T *m c) 0 0 by rewrite -mulmxA mulKVmx // -tr00 trmx_mul trmxK.
  by rewrite opprB addrA subrK subr_ge0.
have PA : pd A by exact: pd_block HJ.
have PD : pd D.
  split; first by move: SJ; rewrite tr_block_mx => /eq_block_mx [].
  move=> c c0; have := PJ (col_mx 0 c); rewrite quad_block trmx0 !mul0mx !mulmx0 !z00 !add0r; apply.
  by apply/eqP => /(congr1 dsubmx); rewrite col_mxKd linear0 => /eqP; apply/negP.
have UA := pd_unit PA; have UD := pd_unit PD; split.
- have := main (col_mx 0 (invmx D *m b)).
  rewrite /J quad_block trmx0 !mul0mx !mulmx0 !z00 !add0r tr_col_mx mul_row_col mulmx0 add0r.
  rewrite trmx_mul invmx_sym ?(proj1 PD) // mulmxKV // mulmxA; exact.
- have := main (col_mx (invmx A *m a) 0).
  rewrite /J quad_block trmx0 !mul0mx !mulmx0 !z00 !addr0 tr_col_mx mul_row_col mulmx0 addr0.
  rewrite trmx_mul invmx_sym ?(proj1 PA) // mulmxKV // mulmxA; exact.
Qed.

(** T = tr(W'W + WW) is half the sum of squares of W + W' *)
Lemma d_tE n (W : 'M[R]_n) : d_t W = \tr (W *m W + W^T *m W).
Proof. by rewrite /d_t mulmxDl addrC. Qed.
Lemma trcE n (W : 'M[R]_n) : trcWtW_WW W = d_t W. Proof. by rewrite /d_t mulmxDl. Qed.
Lemma d_t_sq n (W : 'M[R]_n) : 2%:R * d_t W = \sum_i \sum_j (W + W^T) i j ^+ 2.
Proof.
have := MLTheorems3.tr23E W; rewrite /MLModel.tr2_of /MLModel.tr3_of => <-; rewrite /d_t mulmxDl -big_split /=.
by congr (_ * _); apply: eq_bigr => i _; rewrite addrC mxE.
Qed.
Lemma d_t_ge0 n (W : 'M[R]_n) : 0 <= d_t W.
Proof.
have T2 : 0 < 2%:R :> R by rewrite ltr0n.
by rewrite -(pmulr_rge0 _ T2) d_t_sq; do 2 (apply: sumr_ge0 => ? _); exact: sqr_ge0.
Qed.
Lemma d_t_gt0 n (W : 'M[R]_n) : (0 < d_t W) = (W + W^T != 0).
Proof.
rewrite lt_def d_t_ge0 andbT; congr (~~ _).
have T2 : 2%:R != 0 :> R by rewrite pnatr_eq0.
apply/eqP/eqP => H.
- have E : \sum_i \sum_j (W + W^T) i j ^+ 2 = 0 by rewrite -d_t_sq H mulr0.
  apply/matrixP => i j; rewrite [RHS]mxE; apply/eqP; rewrite -sqrf_eq0.
  move/eqP: E; rewrite psumr_eq0 => [|a _]; last by apply: sumr_ge0 => ? _; exact: sqr_ge0.
  move/allP => /(_ i (mem_index_enum _)) /=; rewrite psumr_eq0 => [|a _]; last exact: sqr_ge0.
  by move/allP => /(_ j (mem_index_enum _)).
- apply: (mulfI T2); rewrite d_t_sq mulr0 H big1 // => i _; rewrite big1 // => j _; by rewrite mxE expr0n.
Qed.

(** the annihilator *)
Section Ann.
Variables (n k : nat) (x : 'M[R]_(n, k)).
Hypothesis U : x^T *m x \in unitmx.
Lemma ann_sym : (ann x)^T = ann x.
Proof. by rewrite /ann trB trmx1 !trmx_mul trmxK invmx_sym ?gram_sym // mulmxA. Qed.
Lemma ann_x : ann x *m x = 0.
Proof. by rewrite /ann mulmxBl mul1mx -!mulmxA mulVmx // mulmx1 subrr. Qed.
Lemma ann_idem : ann x *m ann x = ann x.
Proof. by rewrite {2}/ann mulmxBr mulmx1 !mulmxA ann_x !mul0mx subr0. Qed.
Lemma ann_quad m p (A : 'M[R]_(n, m)) (B : 'M[R]_(n, p)) :
  A^T *m B - (x^T *m A)^T *m (invmx (x^T *m x) *m (x^T *m B)) = (ann x *m A)^T *m (ann x *m B).
Proof. by rewrite [(ann x *m A)^T]trmx_mul ann_sym -mulmxA (mulmxA (ann x)) ann_idem /ann mulmxBl mul1mx mulmxBr trmx_mul trmxK !mulmxA. Qed.
Lemma ann_ker (v : 'cV[R]_n) : ann x *m v = 0 <-> exists c, v = x *m c.
Proof.
split=> [|[c ->]]; last by rewrite mulmxA ann_x mul0mx.
rewrite /ann mulmxBl mul1mx -!mulmxA => /eqP; rewrite subr_eq0 => /eqP E; eexists; exact: E.
Qed.
Lemma ann_tr : \tr (ann x) = n%:R - k%:R.
Proof. by rewrite /ann linearB /= mxtrace1 mxtrace_mulC mulmxA mulmxV // mxtrace1. Qed.
End Ann.

(** nuisance parameters: the statistic in the full information matrix is that in the Schur complement *)
Lemma score_schur k l (A : 'M[R]_k) (B : 'M[R]_(k, l)) (C : 'M[R]_(l, k)) (D : 'M[R]_l) (s : 'cV[R]_l) :
  A \in unitmx -> D - C *m invmx A *m B \in unitmx ->
  block_mx A B C D \in unitmx /\ score_stat (col_mx 0 s) (block_mx A B C D) = score_stat s (D - C *m invmx A *m B).
Proof.
move=> UA; set S := D - _ => US.
have U : block_mx A B C D \in unitmx.
  apply/unitmx_inj => c; rewrite -[c]vsubmxK mul_block_col => /eqP; rewrite col_mx_eq0 => /andP [/eqP H1 /eqP H2].
  have E1 : usubmx c = - (invmx A *m B *m dsubmx c).
    by move/eqP: H1; rewrite addr_eq0 => /eqP H1; rewrite -[usubmx c](mulKmx UA) H1 mulmxN !mulmxA.
  have : S *m dsubmx c = 0 by rewrite mulmxBl -H2 E1 mulmxN !mulmxA addrC.
  by move/(iffLR (unitmx_inj S) US) => E2; rewrite E1 E2 mulmx0 oppr0 col_mx0.
split=> //; rewrite (score_sol (c := col_mx (- (invmx A *m B *m (invmx S *m s))) (invmx S *m s)) U).
  by rewrite tr_col_mx trmx0 mul_row_col mul0mx add0r /score_stat mulmxA.
rewrite mul_block_col !mulmxN; congr col_mx; first by rewrite !mulmxA mulmxV // mul1mx addNr.
by rewrite !mulmxA addrC -!mulmxBl mulmxV // mul1mx.
Qed.
Lemma score_scale k (s : 'cV[R]_k) (J : 'M[R]_k) a : a != 0 -> J \in unitmx -> score_stat s (a *: J) = a^-1 * score_stat s J.
Proof. by move=> a0 U; rewrite /score_stat invmxZ ?unitmxZ ?unitfE // -scalemxAr -scalemxAl sc00. Qed.
Lemma inv_block_diag k l (A : 'M[R]_k) (D : 'M[R]_l) : A \in unitmx -> D \in unitmx ->
  block_mx A 0 0 D \in unitmx /\ invmx (block_mx A 0 0 D) = block_mx (invmx A) 0 0 (invmx D).
Proof.
move=> UA UD; have E : block_mx A 0 0 D *m block_mx (invmx A) 0 0 (invmx D) = 1%:M.
  by rewrite mulmx_block !mulmx0 !mul0mx !addr0 !add0r !mulmxV // -scalar_mx_block.
have [U _] := mulmx1_unit E; split=> //.
by rewrite -[RHS]mul1mx -(mulVmx U) -mulmxA E mulmx1.
Qed.
End P.
