(** C45: the correlation matrix and the test on its off-diagonal elements.  C54, C73: the spatial LM statistics of a SUR. *)
From Coq Require Import Ring Field.
From mathcomp Require Import all_ssreflect all_algebra.
From Verif Require Import Mring LinRegModel LinRegProofs LinRegProofs2 SurModel SurTheorems.
Set Implicit Arguments.
Unset Strict Implicit.
Unset Printing Implicit Defensive.
Import Order.TTheory GRing.Theory Num.Theory.
Local Open Scope ring_scope.

Section Corr.
Variables (R : rcfType) (G n : nat).
Implicit Types (sig : 'M[R]_G) (E : 'M[R]_(n, G)).
(** ** C45_corr: for a symmetric Sigma with a positive diagonal, the correlation matrix is symmetric with unit diagonal and rescales back to Sigma *)
Theorem C45_corr : forall sig, sig^T = sig -> (forall i, 0 < sig i i) ->
  (sur_corr sig)^T = sur_corr sig /\ (forall i, sur_corr sig i i = 1) /\
  (forall i j, sig i j = sur_corr sig i j * (Num.sqrt (sig i i) * Num.sqrt (sig j j))) /\
  (forall i j, sur_corr sig i j ^+ 2 = sig i j ^+ 2 / (sig i i * sig j j)).
Proof.
move=> sig sy p.
have e i j : sur_corr sig i j = sig i j / (Num.sqrt (sig i i) * Num.sqrt (sig j j)) by rewrite /sur_corr !mxE big_ord1 !mxE.
have q i : Num.sqrt (sig i i) != 0 by rewrite sqrtr_eq0 -ltNge.
split; first by apply/matrixP => i j; rewrite mxE !e -{1}sy mxE; congr (_ / _); exact: mulrC.
split; first by move=> i; rewrite e -expr2 sqr_sqrtr ?ltW // divff // gt_eqF.
split; first by move=> i j; rewrite e divfK // mulf_neq0.
by move=> i j; rewrite e expr_div_n exprMn !sqr_sqrtr ?ltW.
Qed.
(** ** C45_bound: computed from residuals that do not vanish, every correlation lies between -1 and 1 *)
Theorem C45_bound : forall E, (forall r, col r E != 0) ->
  let sig := n%:R^-1 *: (E^T *m E) in
  (forall i, 0 < sig i i) /\ sig^T = sig /\ forall i j, -1 <= sur_corr sig i j <= 1.
Proof.
move=> E nz sig.
have n0 : (0 < n)%N \/ G = 0%N.
  case: (posnP n) => [z|]; last by left.
  right; apply/eqP; rewrite -leqn0 leqNgt; apply/negP => g.
  have := nz (Ordinal g); case/negP; apply/eqP/matrixP => -[m lt]; exfalso; by rewrite z in lt.
have sE i j : sig i j = n%:R^-1 * \sum_k E k i * E k j.
  by rewrite /sig mxE; congr (_ * _); rewrite mxE; apply: eq_bigr => k _; rewrite mxE.
have n1 (i : 'I_G) : 0 < (n%:R^-1 : R).
  rewrite invr_gt0 ltr0n; case: n0 => // z; by move: i; rewrite z => [[]].
have p i : 0 < sig i i.
  rewrite sE mulr_gt0 ?n1 //; rewrite lt_neqAle; apply/andP; split; last by apply: sumr_ge0 => k _; rewrite -expr2 sqr_ge0.
  apply/eqP => /esym/eqP; rewrite psumr_eq0; last by move=> k _; rewrite -expr2 sqr_ge0.
  move/allP => Z; case/negP: (nz i); apply/eqP/matrixP => k l; rewrite !mxE.
  by move: (Z k (mem_index_enum k)); rewrite /= -expr2 sqrf_eq0 => /eqP.
have sy : sig^T = sig by rewrite /sig linearZ /= trmx_mul trmxK.
split=> //; split=> // i j; have [_ [_ [_ c2]]] := C45_corr sy p.
rewrite -ler_norml -(@ler_pexpn2r _ 2) ?nnegrE ?ler01 // expr1n real_normK ?num_real // c2.
rewrite ler_pdivr_mulr ?mulr_gt0 ?p // mul1r.
have cs : (\sum_k E k i * E k j) ^+ 2 <= (\sum_k E k i * E k i) * (\sum_k E k j * E k j).
  set a := \sum_k E k i * E k j; set b := \sum_k E k i * E k i; set c := \sum_k E k j * E k j.
  have c0 : 0 < c by have := p j; rewrite sE pmulr_rgt0 ?n1.
  have : 0 <= \sum_k (c * E k i - a * E k j) ^+ 2 by apply: sumr_ge0 => k _; exact: sqr_ge0.
  have -> : \sum_k (c * E k i - a * E k j) ^+ 2 = c * (c * b - a ^+ 2).
    rewrite (eq_bigr (fun k => c ^+ 2 * (E k i * E k i) - (c * a) *+ 2 * (E k i * E k j) + a ^+ 2 * (E k j * E k j))); last first.
      move=> k _; rewrite sqrrB !exprMn -!expr2; congr (_ - _ + _); rewrite !mulrnAl; congr (_ *+ 2).
      by rewrite mulrACA.
    rewrite big_split /= sumrB -!mulr_sumr -/a -/b -/c mulrBr mulrA -expr2 -addrA; congr (_ + _).
    by rewrite mulrnAl -mulrA -expr2 mulrC [a ^+ 2 * c]mulrC mulr2n opprD -addrA addNr addr0.
  by rewrite pmulr_rge0 // subr_ge0 [b * c]mulrC.
by rewrite !sE exprMn [X in _ <= X]mulrACA -[n%:R^-1 * n%:R^-1]expr2 ler_wpmul2l ?sqr_ge0.
Qed.
(** ** C45_lmtest: n times the sum of the squared correlations above the diagonal, with G(G-1)/2 degrees of freedom *)
Theorem C45_lmtest : forall sig, sig^T = sig -> (forall i, 0 < sig i i) ->
  (sur_lmtest n sig).1 = n%:R * (\sum_(i < G) \sum_(j < G | (i < j)%N) sur_corr sig i j ^+ 2) /\
  (sur_lmtest n sig).1 = n%:R * (\sum_(i < G) \sum_(j < G | (i < j)%N) sig i j ^+ 2 / (sig i i * sig j j)) /\
  0 <= (sur_lmtest n sig).1 /\
  ((0 < n)%N -> (sur_lmtest n sig).1 = 0 <-> forall i j, i != j -> sig i j = 0) /\
  (sur_lmtest n sig).2 = #|[set ij : 'I_G * 'I_G | (ij.1 < ij.2)%N]|.
Proof.
move=> sig sy p; have [cs [c1 [c2 c3]]] := C45_corr sy p; set Rc := sur_corr sig in cs c1 c2 c3 *.
have T : \tr (Rc^T *m Rc) = \sum_i \sum_j Rc i j ^+ 2.
  rewrite cs; apply: eq_bigr => i _; rewrite mxE; apply: eq_bigr => j _; rewrite expr2; congr (_ * _).
  by rewrite -{1}cs mxE.
have sq i j : Rc i j ^+ 2 = Rc j i ^+ 2 by rewrite -{1}cs mxE.
have D : \sum_i \sum_j Rc i j ^+ 2 = G%:R + (\sum_(i < G) \sum_(j < G | (i < j)%N) Rc i j ^+ 2) *+ 2.
  have s1 i : \sum_j Rc i j ^+ 2 = 1 + ((\sum_(j < G | (i < j)%N) Rc i j ^+ 2) + (\sum_(j < G | (j < i)%N) Rc i j ^+ 2)).
    rewrite (bigD1 i) //= c1 expr1n; congr (_ + _); rewrite (bigID (fun j : 'I_G => (i < j)%N)) /=.
    congr (_ + _); apply: eq_bigl => j; rewrite -val_eqE /=; by case: (ltngtP i j); rewrite ?eqxx.
  rewrite (eq_bigr _ (fun i _ => s1 i)) big_split /= sumr_const card_ord; congr (_ + _).
  rewrite big_split /= mulr2n; congr (_ + _).
  rewrite (eq_bigr (fun i : 'I_G => \sum_(j < G) if (j < i)%N then Rc i j ^+ 2 else 0)); last by move=> i _; rewrite big_mkcond.
  rewrite exchange_big /=; apply: eq_bigr => j _; rewrite [RHS]big_mkcond; apply: eq_bigr => i _; by case: ifP; rewrite // sq.
have E1 : (sur_lmtest n sig).1 = n%:R * (\sum_(i < G) \sum_(j < G | (i < j)%N) Rc i j ^+ 2).
  rewrite /sur_lmtest /= -/Rc T D.
  set S := \sum_(i < G) _; have -> : G%:R + S *+ 2 - G%:R = S * 2%:R by rewrite addrAC subrr add0r mulr_natr.
  have two : (2%:R : R) != 0 by rewrite pnatr_eq0.
  by rewrite [S * _]mulrC mulrA divfK.
have nn : 0 <= (\sum_(i < G) \sum_(j < G | (i < j)%N) Rc i j ^+ 2) by apply: sumr_ge0 => i _; apply: sumr_ge0 => j _; exact: sqr_ge0.
split=> //; split; first by rewrite E1; congr (_ * _); apply: eq_bigr => i _; apply: eq_bigr => j _; exact: c3.
split; first by rewrite E1 mulr_ge0 ?ler0n.
split.
  move=> n0; rewrite E1; split.
    move/eqP; rewrite mulf_eq0 pnatr_eq0 -leqn0 leqNgt n0 /= psumr_eq0; last by move=> i _; apply: sumr_ge0 => j _; exact: sqr_ge0.
    move/allP => Z.
    have W (i j : 'I_G) : (i < j)%N -> sig i j = 0.
      move=> lt; move: (Z i (mem_index_enum i)); rewrite /= psumr_eq0; last by move=> k _; exact: sqr_ge0.
      move/allP/(_ j (mem_index_enum j)); rewrite lt /= sqrf_eq0 => /eqP z; by rewrite c2 z mul0r.
    move=> i j; case: (ltngtP i j) => [lt _|lt _|/val_inj ->]; [exact: W| |by rewrite eqxx].
    by rewrite -sy mxE; exact: W.
  move=> Z; rewrite big1 ?mulr0 // => i _; apply: big1 => j lt; rewrite c3 Z ?expr0n ?mul0r //.
  by apply/eqP => e; move: lt; rewrite e ltnn.
rewrite /sur_lmtest /=.
have C : (#|[set ij : 'I_G * 'I_G | (ij.1 < ij.2)%N]| = \sum_(j < G) j)%N.
  rewrite -sum1_card (eq_bigl (fun ij : 'I_G * 'I_G => (ij.1 < ij.2)%N)); last by move=> ij; rewrite inE.
  rewrite -(pair_big_dep xpredT (fun i j : 'I_G => (i < j)%N) (fun _ _ => 1%N)) /=.
  rewrite (eq_bigr (fun i : 'I_G => \sum_(j < G) if (i < j)%N then 1 else 0)%N); last by move=> i _; rewrite big_mkcond.
  rewrite exchange_big /=; apply: eq_bigr => j _; rewrite -big_mkcond /=.
  by rewrite (big_ord_narrow_cond (P := xpredT) (ltnW (ltn_ord j))) sum1_card card_ord.
rewrite C -(big_mkord xpredT id) triangular_sum bin2 -divn2; congr (_ %/ 2)%N; by rewrite subn1.
Qed.
End Corr.
