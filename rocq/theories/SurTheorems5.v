(** C74: the test on equal coefficients across the equations of a SUR. *)
From mathcomp Require Import all_ssreflect all_algebra.
From Verif Require Import LinRegModel LinRegProofs LinRegProofs2 SurModel SurTheorems SurTheorems3 SurTheorems4.
Set Implicit Arguments.
Unset Strict Implicit.
Unset Printing Implicit Defensive.
Import Order.TTheory GRing.Theory Num.Theory.
Local Open Scope ring_scope.

Section Chow.
Variables (R : realFieldType) (G k : nat).
Implicit Types (b : 'I_G.+1 -> 'cV[R]_k) (i : 'I_k) (j : 'I_G).
Definition at1 (r : 'I_G.+1) (i : 'I_k) : 'I_(\sum_(r < G.+1) k) := @at_ G.+1 (fun=> k) r i.
Lemma at1_val (r : 'I_G.+1) i : at1 r i = (r * k + i)%N :> nat.
Proof.
rewrite [LHS]at_val; congr (_ + _)%N; rewrite sum_nat_const; congr (_ * _)%N.
by rewrite -sum1_card (big_ord_narrow (ltnW (ltn_ord r))) sum1_card card_ord.
Qed.
Lemma chowE i j c : chow_R R G k i j c = (c == at1 ord0 i)%:R - (c == at1 (lift ord0 j) i)%:R.
Proof.
have a0 : (c == at1 ord0 i) = ((c : nat) == i).
  by rewrite -val_eqE; congr (_ == _); rewrite [LHS]at1_val mul0n.
have a1 : (c == at1 (lift ord0 j) i) = ((c : nat) == (k + i + j * k)%N).
  by rewrite -val_eqE; congr (_ == _); rewrite [LHS]at1_val lift0 mulSn addnAC.
rewrite mxE a0 a1; move: (nat_of_ord c) => d.
case: (d =P (k + i + j * k)%N) => [ec|_]; last by rewrite subr0; case: eqP.
have k0 : (0 < k)%N by apply: leq_ltn_trans (ltn_ord i).
case: eqP => [e|_]; last by rewrite sub0r.
have : (i < k + i + j * k)%N by rewrite addnAC -[X in (X < _)%N]add0n ltn_add2r addn_gt0 k0.
by rewrite -ec e ltnn.
Qed.
(** ** C74_contrast: row j of the restrictions for coefficient i compares equation 0 with equation j+1 *)
Theorem C74_contrast : forall b i j, (chow_R R G k i *m (\mxcol_r b r)) j 0 = b ord0 i 0 - b (lift ord0 j) i 0.
Proof.
move=> b i j; have ca r : (\mxcol_r b r) (at1 r i) 0 = b r i 0 := col_at b i.
rewrite -!ca; move: (\mxcol_r b r) (at1 ord0 i) (at1 (lift ord0 j) i) (chowE i j) => v c0 c1 H.
rewrite mxE; under eq_bigr => c _ do rewrite H mulrBl.
rewrite sumrB; congr (_ - _).
  by rewrite (bigD1 c0) //= eqxx mul1r [X in _ + X]big1 ?addr0 // => c nc; rewrite (negbTE nc) mul0r.
by rewrite (bigD1 c1) //= eqxx mul1r [X in _ + X]big1 ?addr0 // => c nc; rewrite (negbTE nc) mul0r.
Qed.
(** ** C74_chow: with a positive definite covariance, the test of coefficient i is defined and non-negative, and zero exactly when that
    coefficient is the same in all the equations *)
Theorem C74_chow : forall b (varb : 'M[R]_(\sum_(r < G.+1) k)) i, pd varb ->
  exists w, sur_chow b varb i = Some w /\ 0 <= w /\ (w = 0 <-> forall r t, b r i 0 = b t i 0).
Proof.
move=> b varb i P; have P2 : pd (chow_R R G k i *m (varb *m (chow_R R G k i)^T)).
  apply: rvr_pd => // c /matrixP Z; apply/matrixP => j l; rewrite (ord1 l) [RHS]mxE.
  have := Z (at1 (lift ord0 j) i) 0; rewrite [RHS]mxE mxE.
  under eq_bigr => t _ do rewrite mxE chowE.
  have inj r r' : (at1 r i == at1 r' i) = (r == r').
    apply/eqP/eqP => [e|-> //]; by have := congr1 (fun z => tagnat.sig1 z) e; rewrite /at1 /at_ !tagnat.Rank1K.
  under eq_bigr => t _ do rewrite !inj (inj_eq lift_inj) [_ == ord0]eq_sym (negbTE (neq_lift _ _)) sub0r mulNr.
  rewrite sumrN (bigD1 j) //= eqxx mul1r [X in _ + X]big1 ?addr0; last by move=> t nt; rewrite eq_sym (negbTE nt) mul0r.
  by move/eqP; rewrite oppr_eq0 => /eqP.
rewrite /sur_chow /wald_w la_inv_unit; last exact: pd_unit.
eexists; split; first reflexivity.
set v := _ - 0; have vE j : v j 0 = b ord0 i 0 - b (lift ord0 j) i 0 by rewrite /v subr0 C74_contrast.
have S : v = 0 <-> forall r t, b r i 0 = b t i 0.
  split=> [/matrixP z|H]; last by apply/matrixP => j l; rewrite (ord1 l) vE mxE (H _ (lift ord0 j)) subrr.
  have e r : b r i 0 = b ord0 i 0.
    case: (unliftP ord0 r) => [j ->|->] //; have := z j 0; rewrite vE mxE => /eqP; by rewrite subr_eq0 => /eqP.
  by move=> r t; rewrite e [RHS]e.
rewrite mulmxA; case: (eqVneq v 0) => [z|z].
  rewrite z mulmx0 mxE; split=> //; split=> // _; exact/S.
have h := proj2 (pd_inv P2) _ z; split; first exact: ltW.
split=> [e|/S H]; first by move: h; rewrite e ltxx.
by case/eqP: z.
Qed.
End Chow.
