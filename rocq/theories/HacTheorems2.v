(** C98: a concrete case of robust.hac_multi with two regimes. *)
From mathcomp Require Import all_ssreflect all_algebra.
From Verif Require Import LinRegModel LinRegProofs2 HacModel HacTheorems.
Set Implicit Arguments.
Unset Strict Implicit.
Unset Printing Implicit Defensive.
Import Order.TTheory GRing.Theory Num.Theory.
Local Open Scope ring_scope.

Section Ex.
Variable R : realFieldType.
(** four observations, the first two in one regime; a constant as the only regressor and instrument; y = 1, -1, 3, -3 *)
Definition ex_g (i : 'I_4) : 'I_2 := if (i < 2)%N then ord0 else ord_max.
Definition ex_y : 'cV[R]_4 := \col_i nth 0 [:: 1; -1; 3; -3] i.
Definition ex_x : 'cV[R]_4 := const_mx 1.

Lemma ex_card r : #|members ex_g r| = 2%N.
Proof. by rewrite -sum1_card big_mkcond !big_ord_recl big_ord0 /=; case: r => [[|[|//]] ?]; rewrite !inE. Qed.
Lemma ex_xx r : (rows_of ex_g ex_x r)^T *m rows_of ex_g ex_x r = 2%:R%:M.
Proof.
apply/matrixP=> i j; rewrite !ord1 !mxE eqxx mulr1n (eq_bigr (fun=> 1)); last by move=> l _; rewrite !mxE mulr1.
by rewrite sumr_const card_ord ex_card.
Qed.
Lemma ex_xy r : (rows_of ex_g ex_x r)^T *m rows_of ex_g ex_y r = 0.
Proof.
apply/matrixP=> i j; rewrite !ord1 !mxE (eq_bigr (fun l => ex_y (enum_val l) 0)); last first.
  by move=> l _; rewrite !mxE mul1r.
rewrite -(big_enum_val (A := members ex_g r) (fun i => ex_y i 0)) big_mkcond !big_ord_recl big_ord0 /= !mxE /=.
by case: r => [[|[|//]] ?]; rewrite !inE /= !add0r ?addr0 ?subrr.
Qed.
Lemma ex_u2 : (2%:R%:M : 'M[R]_1) \in unitmx.
Proof. by rewrite unitmxE det_scalar expr1 unitfE pnatr_eq0. Qed.
Lemma ex_inv : invmx (2%:R%:M : 'M[R]_1) = 2%:R^-1%:M.
Proof. by rewrite invmx_scalar. Qed.

Definition ex_fits : fits R 1 1 ex_g := fun r =>
  Tsls (rows_of ex_g ex_x r) (rows_of ex_g ex_x r) 0 2%:R^-1%:M 1%:M 0 (rows_of ex_g ex_y r)
    (sig2_of 1 false (rows_of ex_g ex_y r)) (sig2_of 1 false (rows_of ex_g ex_y r) *: 2%:R^-1%:M).

Lemma ex_fit r : regime_fit ex_g ex_y ex_x ex_x false r = Some (ex_fits r).
Proof.
rewrite /regime_fit /base_tsls /la_inv ex_xx ex_u2.
have -> : (2%:R%:M : 'M[R]_1) *m invmx 2%:R%:M = 1%:M by rewrite mulmxV ?ex_u2.
rewrite tr_scalar_mx mul1mx ex_u2 ex_xy mulmx0 mulmx0 subr0 ex_inv.
by [].
Qed.

Lemma ex_score r (i : 'I_4) : score ex_y ex_x ex_x ex_fits r (const_mx 1) i = ex_y i 0 / 2%:R.
Proof.
rewrite /score /resid big_ord1 [t_betas _ _ _]mxE mulr0 subr0; congr (_ * _).
by rewrite big_ord1 mulmx1 tr_scalar_mx mul_scalar_mx !mxE mul1r mulr1.
Qed.

(** C98: here the regression of the first regime alone has the variance 1/2; hac_multi gives 5 *)
Theorem C98_multi_wrong : exists vm t, [/\ gm_lag_regimes_hac ex_fits 1%:M = Some vm,
  own_hac ex_g ex_y ex_x ex_x false 1%:M ord0 = Some t, t_vm t 0 0 = 2%:R^-1 & vm ord0 0 0 = 5%:R].
Proof.
have [vm [E V]] := C98_value ex_fit 1%:M; have [t [Et _ O]] := C98_own ex_fit 1%:M ord0.
have F11 (A : 'M[R]_1) : form A (const_mx 1) (const_mx 1) = A 0 0.
  by rewrite /form !(mxE, big_ord1) mul1r mulr1.
have D (P : pred 'I_4) : \sum_(i | P i) \sum_(j | P j) (1%:M : 'M[R]_4) i j *
    score ex_y ex_x ex_x ex_fits ord0 (const_mx 1) i * score ex_y ex_x ex_x ex_fits ord0 (const_mx 1) j
  = (\sum_(i | P i) ex_y i 0 ^+ 2) / 4%:R.
  rewrite mulr_suml; apply: eq_bigr => i Pi; rewrite (bigD1 i) //= mxE eqxx mul1r big1 ?addr0 => [|j /andP[_ /negbTE N]].
    by rewrite !ex_score mulrACA -expr2 -invfM -natrM.
  by rewrite mxE eq_sym N !mul0r.
exists vm, t; split=> //.
- rewrite -F11 O D big_mkcond !big_ord_recl big_ord0 /= !mxE /= expr1n sqrrN expr1n !addr0.
  have -> : (1 + 1 : R) = 2%:R by rewrite -mulr2n.
  have -> : 4%:R = 2%:R * 2%:R :> R by rewrite -natrM.
  by rewrite invfM mulrA mulfV ?mul1r // pnatr_eq0.
- rewrite -F11 V (D predT) !big_ord_recl big_ord0 /= !mxE /= !sqrrN !expr1n addr0.
  have -> : 1 + (1 + (3%:R ^+ 2 + 3%:R ^+ 2)) = (5 * 4)%:R :> R by rewrite -!natrX -!natrD -!mulrS.
  by rewrite natrM mulfK // pnatr_eq0.
Qed.
End Ex.
