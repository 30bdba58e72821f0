(** A case for C86: four observations in two pairs, spatial coefficients 1/2 and -1/2, covariance matrix [[1, 1], [1, 2]]. *)
From Coq Require Import Reals.
From mathcomp Require Import all_ssreflect all_algebra.
From Verif Require Import Rinst Mring LinRegModel LinRegProofs LinRegProofs2 MLTheorems4 SueTheorems5 SuvModel SuvSpec SuvTheorems SuvTheorems2.
Set Implicit Arguments.
Unset Strict Implicit.
Unset Printing Implicit Defensive.
Import Order.TTheory GRing.Theory Num.Theory.
Local Open Scope ring_scope.

Definition vL : 'M[R]_2 := 1%:M + delta_mx 0 1.
Definition vlam : 'cV[R]_2 := \col_i (if i == 0 then 1 / 2%:R else - (1 / 2%:R)).
Theorem C86_witness : exists V vm,
  [/\ suv_big wW vlam (vL^T *m vL) = Some V, surerrvm wW vlam (vL^T *m vL) = Some vm, V *m vm = 1%:M & pd vm] /\
  exists j c, [/\ suv_joinlam wW vlam (vL^T *m vL) = Some j, suv_lamtest wW vlam (vL^T *m vL) = Some c, 0 < j & 0 < c].
Proof.
have UL : vL \in unitmx.
  have : vL *m (1%:M - delta_mx 0 1) = 1%:M by rewrite mulmxDl mul1mx mulmxBr mulmx1 mul_delta_mx_0 // subr0 subrK.
  by case/mulmx1_unit.
have P : pd (vL^T *m vL) by apply: gram_pd; rewrite unitmx_mul unitmx_tr UL.
have h r : `|vlam r 0| < 1.
  by rewrite mxE; case: ifP => _; rewrite ?normrN ger0_norm ?ltW ?h2 // -subr_gt0 h1 h2.
have U r : 1%:M - vlam r 0 *: wW \in unitmx by rewrite unitmxE wdet unitfE expf_neq0 // gt_eqF // wlt.
have N r (c : R) : let D := wW *m invmx (1%:M - vlam r 0 *: wW) in D + D^T != c%:M.
  apply: C86_symmetric => // [|a]; first by rewrite /wW tr_block_mx !trmx0 !trmx1.
  apply/eqP => /matrixP /(_ (lshift 2 0) (rshift 2 0)); rewrite /wW block_mxEur !mxE /= => /eqP; by rewrite oner_eq0.
have [V [vm H]] := C86_vm P U N; exists V, vm; split=> //.
have [_ [j [_ Ej _ j0 Hj]]] := C86_joint_test P U N; have [_ [c [_ Ec _ c0 Hc]]] := C86_constancy_test P U N.
have nz : vlam 0 0 != 0 by rewrite mxE /= gt_eqF // h2.
exists j, c; split=> //; rewrite lt_def ?j0 ?c0 andbT; apply/eqP; first by move/Hj/(_ 0)/eqP; rewrite (negbTE nz).
move/Hc/(_ 0 1); rewrite !mxE /= => /eqP; rewrite -addr_eq0 => /eqP E; have := addr_gt0 h2 h2; by rewrite E ltxx.
Qed.
