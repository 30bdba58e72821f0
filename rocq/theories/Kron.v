(** Kronecker products, as numpy.kron and scipy.sparse.kron: row t * n + i of the product belongs to row t of the first and i of the second. *)
From Coq Require Import Ring Field.
From mathcomp Require Import all_ssreflect all_algebra.
From Verif Require Import Mring.
Set Implicit Arguments.
Unset Strict Implicit.
Unset Printing Implicit Defensive.
Import GRing.Theory Num.Theory.
Local Open Scope ring_scope.

Lemma pix_lt T n (t : 'I_T) (i : 'I_n) : (t * n + i < T * n)%N.
Proof. by apply: (@leq_trans (t.+1 * n)%N); rewrite ?leq_mul2r ?ltn_ord ?orbT // mulSn addnC ltn_add2r. Qed.
Lemma pt_lt T n (r : 'I_(T * n)) : (r %/ n < T)%N.
Proof. by case: n r => [|n] r; [case: r => m; rewrite muln0|rewrite ltn_divLR // ltn_ord]. Qed.
Lemma pu_lt T n (r : 'I_(T * n)) : (r %% n < n)%N.
Proof. by case: n r => [|n] r; [case: r => m; rewrite muln0|rewrite ltn_pmod]. Qed.
Definition pix T n (t : 'I_T) (i : 'I_n) : 'I_(T * n) := Ordinal (pix_lt t i).
Definition pt T n (r : 'I_(T * n)) : 'I_T := Ordinal (pt_lt r).
Definition pu T n (r : 'I_(T * n)) : 'I_n := Ordinal (pu_lt r).
Lemma pt_pix T n (t : 'I_T) (i : 'I_n) : pt (pix t i) = t.
Proof. by apply/val_inj; rewrite /= divnMDl ?divn_small ?addn0 // (leq_ltn_trans _ (ltn_ord i)). Qed.
Lemma pu_pix T n (t : 'I_T) (i : 'I_n) : pu (pix t i) = i.
Proof. by apply/val_inj; rewrite /= modnMDl modn_small. Qed.
Lemma pix_pt_pu T n (r : 'I_(T * n)) : pix (pt r) (pu r) = r.
Proof. by apply/val_inj; rewrite /= -divn_eq. Qed.
Lemma pix_bij T n : bijective (fun p : 'I_T * 'I_n => pix p.1 p.2).
Proof. by exists (fun r => (pt r, pu r)) => [[t i]|r]; rewrite ?pt_pix ?pu_pix ?pix_pt_pu. Qed.
Lemma big_pix (V : zmodType) T n (F : 'I_(T * n) -> V) : \sum_r F r = \sum_t \sum_i F (pix t i).
Proof.
rewrite (reindex (fun p : 'I_T * 'I_n => pix p.1 p.2)); last exact: onW_bij (pix_bij T n).
by rewrite pair_bigA.
Qed.

Section Kron.
Variable R : comUnitRingType.
Definition kron T n T' n' (A : 'M[R]_(T, T')) (B : 'M[R]_(n, n')) : 'M[R]_(T * n, T' * n') := \matrix_(r, s) (A (pt r) (pt s) * B (pu r) (pu s)).
Lemma kronE T n T' n' (A : 'M[R]_(T, T')) (B : 'M[R]_(n, n')) t i s j : kron A B (pix t i) (pix s j) = A t s * B i j.
Proof. by rewrite mxE !pt_pix !pu_pix. Qed.
Lemma kron_mul T n T' n' T'' n'' (A : 'M[R]_(T, T')) (B : 'M[R]_(n, n')) (C : 'M[R]_(T', T'')) (D : 'M[R]_(n', n'')) :
  kron A B *m kron C D = kron (A *m C) (B *m D).
Proof.
apply/matrixP => r s; rewrite !mxE big_pix mulr_suml; apply: eq_bigr => t _; rewrite mulr_sumr; apply: eq_bigr => i _.
by rewrite !mxE !pt_pix !pu_pix mulrACA.
Qed.
Lemma kron_tr T n T' n' (A : 'M[R]_(T, T')) (B : 'M[R]_(n, n')) : (kron A B)^T = kron A^T B^T.
Proof. by apply/matrixP => r s; rewrite !mxE. Qed.
Lemma kron1 T n : kron (1%:M : 'M[R]_T) (1%:M : 'M[R]_n) = 1%:M.
Proof.
apply/matrixP => r s; rewrite !mxE -natrM mulnb; congr (nat_of_bool _)%:R.
by apply/andP/eqP => [[/eqP a /eqP b]|->]; [rewrite -(pix_pt_pu r) a b pix_pt_pu|rewrite !eqxx].
Qed.
Lemma kronDl T n T' n' (A A' : 'M[R]_(T, T')) (B : 'M[R]_(n, n')) : kron (A + A') B = kron A B + kron A' B.
Proof. by apply/matrixP => r s; rewrite !mxE mulrDl. Qed.
Lemma kronDr T n T' n' (A : 'M[R]_(T, T')) (B B' : 'M[R]_(n, n')) : kron A (B + B') = kron A B + kron A B'.
Proof. by apply/matrixP => r s; rewrite !mxE mulrDr. Qed.
Lemma kronZl T n T' n' a (A : 'M[R]_(T, T')) (B : 'M[R]_(n, n')) : kron (a *: A) B = a *: kron A B.
Proof. by apply/matrixP => r s; rewrite !mxE mulrA. Qed.
Lemma kronZr T n T' n' a (A : 'M[R]_(T, T')) (B : 'M[R]_(n, n')) : kron A (a *: B) = a *: kron A B.
Proof. by apply/matrixP => r s; rewrite !mxE mulrCA. Qed.
Lemma kron_unit T n (A : 'M[R]_T) (B : 'M[R]_n) : A \in unitmx -> B \in unitmx ->
  kron A B \in unitmx /\ invmx (kron A B) = kron (invmx A) (invmx B).
Proof.
move=> UA UB; have E : kron A B *m kron (invmx A) (invmx B) = 1%:M by rewrite kron_mul !mulmxV // kron1.
have [U _] := mulmx1_unit E; split=> //; by rewrite -[RHS]mul1mx -(mulVmx U) -mulmxA E mulmx1.
Qed.
End Kron.
