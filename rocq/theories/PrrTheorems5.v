(** C83, continued: the reported covariance matrix of lambda and the variance of the unit effects. *)
From Coq Require Import Reals Ring Field.
From mathcomp Require Import all_ssreflect all_algebra.
From Verif Require Import Rinst Mring LinRegModel LinRegProofs LinRegProofs2 FilterModel MLModel MLSpec MLProofs Kron PanelModel PfeModel PrrModel PrrSpec.
Set Implicit Arguments.
Unset Strict Implicit.
Unset Printing Implicit Defensive.
Import Order.TTheory GRing.Theory Num.Theory.
Local Open Scope ring_scope.

Section Vm.
Variables (T n k : nat) (y : 'cV[R]_(T * n)) (x : 'M[R]_(T * n, k)) (W : 'M[R]_n) (eigh : 'M[R]_n -> 'rV[R]_n * 'M[R]_n) (res : (R * R) * R) (r : re_err T n k).
Hypothesis Hz : zero_diag W.
Hypothesis Hr : base_re_err eigh y x W res = Some r.
Local Notation l0 := (lshift 1%N (lshift 1%N 0) : 'I_(1 + 1 + 1)).
Local Notation l1 := (lshift 1%N (rshift 1%N 0) : 'I_(1 + 1 + 1)).
Local Notation l2 := (rshift (1 + 1)%N 0 : 'I_(1 + 1 + 1)).
(** C83: the lower right block of vm is the upper left block of the inverse of the matrix J below, in the order lambda, variance of the
    unit effects, sig2.  B = I - lambda W, M = (B'B)^-1, G = (W'B + B'W) M, S = (T sqrt(phi) I + M)^-1.  Where the information matrix
    has the trace of a square (G G, S M G S M G, S S, S M S M) J has the square of a trace. *)
(* partial; missing: the block of lambda and phi is this matrix, not the inverse information (C83_lam0_refuted) *)
Theorem C83_vm_partial : let B := 1%:M - er_lam r *: W in let M := invmx (B^T *m B) in let G := (W^T *m B + B^T *m W) *m M in
  let S := invmx ((T%:R * Num.sqrt (er_phi r)) *: 1%:M + M) in let s := er_sig2 r in let t := T%:R in
  exists J : 'M[R]_(1 + 1 + 1),
  [/\ J \in unitmx /\ J^T = J,
      J l0 l0 = ((t - 1) * (\tr G) ^+ 2 + (\tr (S *m M *m G)) ^+ 2) / 2%:R /\ [/\
          J l0 l1 = t * \tr (S *m M *m G *m S) / (2%:R * s),
          J l0 l2 = ((t - 1) * \tr G + \tr (S *m M *m G *m (S *m M))) / (2%:R * s),
          J l1 l1 = t ^+ 2 * (\tr S) ^+ 2 / (2%:R * s ^+ 2),
          J l1 l2 = t * \tr (S *m M *m S) / (2%:R * s ^+ 2)
        & J l2 l2 = ((t - 1) * n%:R + (\tr (S *m M)) ^+ 2) / (2%:R * s ^+ 2)],
      drsubmx (er_vm r) = ulsubmx (invmx J) & ursubmx (er_vm r) = 0 /\ dlsubmx (er_vm r) = 0].
Proof.
move: Hr; case: res => [[lam phi0] fn]; rewrite /base_re_err; case: la_inv => // Bi; case: (eigh _) => d V; case: la_inv => // xi.
rewrite a_ofE //; case Ea: la_inv => [M|//]; have [_ EM] := la_invP Ea; case Ev: la_inv => [S|//]; have [_ ES] := la_invP Ev.
case E: la_inv => [v|//]; have [U Evv] := la_invP E; case=> <- /=; rewrite -EM -ES.
set s2 := _ / _ in E U Evv *; set J := re_err_v _ _ _ _ _ _ in U Evv; exists J.
have H (a b c d' e f : R) : let K := block_mx (block_mx a%:M b%:M b%:M d'%:M) (col_mx c%:M e%:M) (row_mx c%:M e%:M) (f%:M : 'M[R]_1) in
    [/\ K^T = K, K l0 l0 = a & [/\ K l0 l1 = b, K l0 l2 = c, K l1 l1 = d', K l1 l2 = e & K l2 l2 = f]].
  split; first by rewrite tr_block_mx tr_block_mx !tr_scalar_mx tr_row_mx tr_col_mx !tr_scalar_mx.
    by rewrite !block_mxEul mxE.
  by rewrite !block_mxEul !block_mxEur block_mxEdr block_mxEdr !col_mxEu !col_mxEd !mxE.
have [Jt J00 [J01 J02 J11 J12 J22]] := H _ _ _ _ _ _ : [/\ J^T = J, _ & _].
split=> //.
- split; first by rewrite J00; move: (\tr _) (\tr _) (2%:R^-1 : R) (T%:R : R) => a1 a2 a3 a4; mring R_realFieldType.
  split; rewrite ?J01 ?J02 ?J11 ?J12 ?J22.
  + by rewrite mulrAC.
  + by move: (\tr _) (\tr _) ((_ * s2)^-1) (T%:R : R) => a1 a2 a3 a4; mring R_realFieldType.
  + by rewrite mulrAC.
  + by rewrite mulrAC.
  + by rewrite mul1r mulrC.
- by rewrite block_mxKdr Evv.
- by rewrite block_mxKur block_mxKdl.
Qed.
End Vm.
