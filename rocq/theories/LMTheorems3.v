(** Concrete cases for C31 and C43: two regions observed in two periods. *)
From mathcomp Require Import all_ssreflect all_algebra.
From Verif Require Import LinRegModel LinRegProofs LinRegProofs2 FilterModel LMModel LMSpec LMProofs LMTheorems LMTheorems2.
Set Implicit Arguments.
Unset Strict Implicit.
Unset Printing Implicit Defensive.
Import Order.TTheory GRing.Theory Num.Theory.
Local Open Scope ring_scope.

Section W.
Variable R : realFieldType.
Definition ex_w : 'M[R]_2 := \matrix_(i, j) ((i : nat) != j)%:R.
Definition ex_wnt : 'M[R]_(2 * 2) := kron_id 2 ex_w.
Definition ex_x : 'M[R]_(2 * 2, 1) := \matrix_(i, j) ((i : nat) == 0%N)%:R.
Definition ex_y : 'cV[R]_(2 * 2) := \col_i (nth 0 [:: 3%:R; 0; 1; -1] i).
Lemma sum4 (F : 'I_(2 * 2) -> R) (G : nat -> R) : (forall i, F i = G i) -> \sum_i F i = G 0%N + (G 1%N + (G 2%N + G 3%N)).
Proof.
move=> H; rewrite (eq_bigr (fun i : 'I_(2 * 2) => G i)) //.
transitivity (\sum_(i < 4) G i); first by [].
by rewrite !big_ord_recl big_ord0 addr0.
Qed.
Lemma ex_wntE a b : ex_wnt a b = ((a %/ 2 == b %/ 2) && (a %% 2 != b %% 2))%N%:R.
Proof. by rewrite !mxE !inordK ?ltn_mod //; case: (_ == _). Qed.
Lemma ex_gram : ex_x^T *m ex_x = 1%:M.
Proof.
apply/matrixP => i j; rewrite !ord1 !mxE (sum4 (G := fun a => (a == 0%N)%:R * (a == 0%N)%:R)) => [|a]; last by rewrite !mxE.
by rewrite /= !mulr0 !addr0 mulr1.
Qed.
Definition ex_o : ols R (2 * 2) 1 := ols_of_xtxi ex_y ex_x RobNone None true (invmx (ex_x^T *m ex_x)).
Lemma ex_ols : base_ols ex_y ex_x RobNone None true = Some ex_o.
Proof. by apply: ols_Some; rewrite ex_gram unitmx1. Qed.
Lemma ex_beta : o_betas ex_o = 3%:R%:M.
Proof.
have := ols_normal ex_ols; rewrite ex_gram mul1mx => ->; apply/matrixP => i j; rewrite !ord1 mxE.
rewrite (sum4 (G := fun a => (a == 0%N)%:R * nth 0 [:: 3%:R; 0; 1; -1] a)) => [|a]; last by rewrite !mxE.
by rewrite /= !mul0r !addr0 mul1r !mxE.
Qed.
Lemma ex_fit a : o_predy ex_o a 0 = 3%:R * ((a : nat) == 0%N)%:R.
Proof. by have [_ _ -> _ _] := ols_fields ex_ols; rewrite ex_beta mul_mx_scalar !mxE. Qed.
Lemma ex_u a : o_u ex_o a 0 = nth 0 [:: 0; 0; 1; -1] a.
Proof.
have [_ _ _ -> _] := ols_fields ex_ols; rewrite mxE [X in _ + X]mxE ex_fit mxE.
by case: a => [[|[|[|[|a]]]] //= Ha]; rewrite ?mulr1 ?subrr ?mulr0 ?subr0.
Qed.
Lemma ex_lag a : (ex_wnt *m (ex_x *m o_betas ex_o)) a 0 = 3%:R * ((a : nat) == 1%N)%:R.
Proof.
have [_ _ <- _ _] := ols_fields ex_ols; rewrite mxE.
rewrite (sum4 (G := fun b => (((a %/ 2 == b %/ 2) && (a %% 2 != b %% 2))%N)%:R * (3%:R * (b == 0%N)%:R))) => [|b]; last by rewrite ex_wntE ex_fit.
by rewrite !mulr0 !addr0 mulr1; case: a => [[|[|[|[|a]]]] //= Ha]; rewrite ?mul1r ?mulr1 ?mul0r ?mulr0.
Qed.
Lemma ex_uwy : ((o_u ex_o)^T *m (ex_wnt *m ex_y)) 0 0 = - 2%:R.
Proof.
rewrite mxE (sum4 (G := fun a => nth 0 [:: 0; 0; 1; -1] a * nth 0 [:: 0; 3%:R; -1; 1] a)) => [|a].
  by rewrite /= !mul0r !add0r mul1r mulr1 -opprD.
rewrite mxE ex_u; congr (_ * _); rewrite mxE.
rewrite (sum4 (G := fun b => (((a %/ 2 == b %/ 2) && (a %% 2 != b %% 2))%N)%:R * nth 0 [:: 3%:R; 0; 1; -1] b)) => [|b].
  by case: a => [[|[|[|[|a]]]] //= Ha]; rewrite ?mul1r ?mul0r ?addr0 ?add0r.
by rewrite ex_wntE !mxE.
Qed.
Lemma two0 : 2%:R != 0 :> R. Proof. by rewrite pnatr_eq0. Qed.
Lemma ex_u0 : o_u ex_o != 0.
Proof. by apply/eqP => /matrixP /(_ (inord 2) 0); rewrite ex_u mxE inordK //= => /eqP; rewrite oner_eq0. Qed.
Lemma ex_link : ex_wnt + ex_wnt^T != 0.
Proof.
apply/eqP => /matrixP /(_ (inord 0) (inord 1)); rewrite mxE [X in _ + X]mxE !ex_wntE mxE !inordK //= -natrD => /eqP.
by rewrite (negbTE two0).
Qed.
Lemma ex_new c : ex_wnt *m (ex_x *m o_betas ex_o) <> ex_x *m c.
Proof.
move/matrixP => /(_ (inord 1) 0); rewrite ex_lag mxE big_ord_recl big_ord0 addr0 mxE inordK //= mul0r mulr1 => /eqP.
by rewrite pnatr_eq0.
Qed.
(** the hypotheses of C31_sarma hold for these data *)
Example C31_witness : [/\ base_ols ex_y ex_x RobNone None true = Some ex_o, o_u ex_o != 0, ex_wnt + ex_wnt^T != 0
  & forall c, ex_wnt *m (ex_x *m o_betas ex_o) <> ex_x *m c].
Proof. by split; [exact: ex_ols|exact: ex_u0|exact: ex_link|exact: ex_new]. Qed.

Lemma ex_tr : \tr (ex_w *m ex_w + ex_w^T *m ex_w) = 4%:R.
Proof.
have E : ex_w^T = ex_w by apply/matrixP => i j; rewrite !mxE eq_sym.
rewrite E linearD /= /mxtrace !big_ord_recl !big_ord0 /= !mxE !big_ord_recl !big_ord0 !mxE /=.
by rewrite !mulr0 !mulr1 !addr0 !add0r -!natrD.
Qed.
(** C43 fails for LM lag: two regions, two periods. *)
Theorem C43_refuted : exists (y : 'cV[R]_(2 * 2)) (x : 'M[R]_(2 * 2, 1)) (W : 'M[R]_2) o,
  [/\ base_ols y x RobNone None true = Some o, 0 < o_sig2 o
    & panel_LMlag o W (kron_id 2 W) + panel_rLMerror o W (kron_id 2 W) <> panel_LMerror o W (kron_id 2 W) + panel_rLMlag o W (kron_id 2 W)].
Proof.
have S0 : 0 < o_sig2 ex_o.
  rewrite /= /sig2_of /= divr_gt0 //; last by rewrite subr_gt0 ltr_nat.
  by rewrite lt_def utu_ge0 utu_eq0 andbT; exact: ex_u0.
exists ex_y, ex_x, ex_w, ex_o; split => //; first exact: ex_ols.
have L : ex_w + ex_w^T != 0.
  apply/eqP => /matrixP /(_ 0 1); rewrite !mxE /= -natrD => /eqP; by rewrite (negbTE two0).
have [_ /iffLR H] := C43_decomposition_partial ex_ols S0 (isT : (0 < 2)%N) L ex_new.
move/H => []; first by rewrite ex_uwy => /eqP; rewrite oppr_eq0 (negbTE two0).
by rewrite ex_tr => /eqP; rewrite eqr_nat.
Qed.
End W.
Print Assumptions C31_sarma.
Print Assumptions C31_durbin.
Print Assumptions C31_durbin_defined.
Print Assumptions C61_moran_moments.
Print Assumptions C61_ak.
Print Assumptions C43_decomposition_partial.
Print Assumptions C43_trace.
Print Assumptions C43_refuted.
Print Assumptions C62_hausman_refuted.
Print Assumptions C63_comfac.
