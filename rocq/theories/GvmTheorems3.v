(** C87: cases on a path of three observations; the covariance matrix of GM_Error_Hom need not be positive semidefinite. *)
From Coq Require Import Reals Lra.
From mathcomp Require Import all_ssreflect all_algebra.
From Verif Require Import Rinst Mring LinRegModel LinRegProofs LinRegProofs2 MLTheorems3 FilterModel GvmModel GvmSpec GvmProofs GvmProofs2 GvmTheorems GvmTheorems2.
Set Implicit Arguments.
Unset Strict Implicit.
Unset Printing Implicit Defensive.
Import Order.TTheory GRing.Theory Num.Theory.
Local Open Scope ring_scope.

Definition lm m p (rows : seq (seq R)) : 'M[R]_(m, p) := \matrix_(i, j) nth 0 (nth [::] rows i) j.
Definition gW : 'M[R]_3 := lm 3 3 [:: [:: 0%coqR; 1%coqR; 0%coqR]; [:: (1/2)%coqR; 0%coqR; (1/2)%coqR]; [:: 0%coqR; 1%coqR; 0%coqR]].
Definition gx : 'M[R]_(3, 1) := lm 3 1 [:: [:: 1%coqR]; [:: (-1)%coqR]; [:: 1%coqR]].
Definition gu : 'cV[R]_3 := lm 3 1 [:: [:: (-40/7)%coqR]; [:: (44/7)%coqR]; [:: (-40/7)%coqR]].
Definition gl : R := (-3/4)%coqR.
Lemma R0E : (0 : R) = 0%coqR. Proof. by []. Qed.
Lemma R1E : (1 : R) = 1%coqR. Proof. by []. Qed.
Lemma natE k : (k%:R : R) = INR k. Proof. by rewrite INRE. Qed.
Ltac toR := rewrite -?RaddE -?RmulE -?RoppE ?R0E ?R1E.
Ltac ex3 := apply/matrixP => -[[|[|[|i]]] li] // -[[|[|[|j]]] lj] //.
Ltac cmp := rewrite !(mxE, big_ord_recl, big_ord0) /= ?mulr1n ?mulr0n; toR; lra.
Lemma lmM m p q a b : lm m p a *m lm p q b = \matrix_(i < m, j < q) \sum_(k < p) nth 0 (nth [::] a i) k * nth 0 (nth [::] b k) j.
Proof. by apply/matrixP => i j; rewrite !mxE; apply: eq_bigr => k _; rewrite !mxE. Qed.
Lemma Wu : gW *m gu = lm 3 1 [:: [:: (44/7)%coqR]; [:: (-40/7)%coqR]; [:: (44/7)%coqR]].
Proof. rewrite /gW /gu lmM; ex3; cmp. Qed.
Lemma usE : sp_filter gW gl gu = lm 3 1 [:: [:: (-1)%coqR]; [:: 2%coqR]; [:: (-1)%coqR]].
Proof. rewrite /sp_filter Wu /gu /gl; ex3; cmp. Qed.
Lemma xsE : sp_filter gW gl gx = lm 3 1 [:: [:: (1/4)%coqR]; [:: (-1/4)%coqR]; [:: (1/4)%coqR]].
Proof.
have Wx : gW *m gx = lm 3 1 [:: [:: (-1)%coqR]; [:: 1%coqR]; [:: (-1)%coqR]] by rewrite /gW /gx lmM; ex3; cmp.
rewrite /sp_filter Wx /gx /gl; ex3; cmp.
Qed.
Lemma W0 i : gW i i = 0.
Proof. by case: i => [[|[|[|i]]] li] //; rewrite mxE. Qed.
Lemma wpw : gW^T *m gW = lm 3 3 [:: [:: (1/4)%coqR; 0%coqR; (1/4)%coqR]; [:: 0%coqR; 2%coqR; 0%coqR]; [:: (1/4)%coqR; 0%coqR; (1/4)%coqR]].
Proof. rewrite /gW; ex3; cmp. Qed.
Lemma inv3 : (3%:R : R)^-1 = (1/3)%coqR.
Proof. by rewrite natE -RinvE /=; [toR; lra|apply/eqP; toR; lra]. Qed.
Lemma A1E : get_A1_hom gW false = lm 3 3 [:: [:: (-7/12)%coqR; 0%coqR; (1/4)%coqR]; [:: 0%coqR; (7/6)%coqR; 0%coqR]; [:: (1/4)%coqR; 0%coqR; (-7/12)%coqR]].
Proof.
rewrite /get_A1_hom wpw.
have -> : \sum_i lm 3 3 [:: [:: (1/4)%coqR; 0%coqR; (1/4)%coqR]; [:: 0%coqR; 2%coqR; 0%coqR]; [:: (1/4)%coqR; 0%coqR; (1/4)%coqR]] i i = (5/2)%coqR.
  cmp.
rewrite inv3; ex3; cmp.
Qed.
Lemma inv2 : (2%:R : R)^-1 = (1/2)%coqR.
Proof. by rewrite natE -RinvE /=; [toR; lra|apply/eqP; toR; lra]. Qed.
Lemma A2E : get_A2_hom gW = lm 3 3 [:: [:: 0%coqR; (3/4)%coqR; 0%coqR]; [:: (3/4)%coqR; 0%coqR; (3/4)%coqR]; [:: 0%coqR; (3/4)%coqR; 0%coqR]].
Proof. rewrite /get_A2_hom inv2 /gW; ex3; cmp. Qed.
Definition gus : 'cV[R]_3 := lm 3 1 [:: [:: (-1)%coqR]; [:: 2%coqR]; [:: (-1)%coqR]].
Lemma two : (2%:R : R) = 2%coqR. Proof. by rewrite natE /=; toR; lra. Qed.
Lemma three : (3%:R : R) = 3%coqR. Proof. by rewrite natE /=; toR; lra. Qed.
Lemma sigE : gv_sig2 gus = 2%coqR.
Proof. rewrite /gv_sig2 /dot inv3 /gus; cmp. Qed.
Lemma mu3E : gv_mu3 gus = 2%coqR.
Proof. rewrite /gv_mu3 inv3 /gus !(mxE, big_ord_recl, big_ord0) /= !exprS !expr0; toR; lra. Qed.
Lemma mu4E : gv_mu4 gus = 6%coqR.
Proof. rewrite /gv_mu4 inv3 /gus !(mxE, big_ord_recl, big_ord0) /= !exprS !expr0; toR; lra. Qed.
Lemma psiE : get_vc_hom gW (get_A1_hom gW false) (get_A2_hom gW) gu gl = mx2 (R := R_realFieldType) (61/36)%coqR 0%coqR 0%coqR 6%coqR.
Proof.
rewrite /get_vc_hom /hom_psi_n usE -/gus sigE mu4E A1E A2E inv3 two three !exprS !expr0.
have t11 : \tr (lm 3 3 [:: [:: (-7/12)%coqR; 0%coqR; (1/4)%coqR]; [:: 0%coqR; (7/6)%coqR; 0%coqR]; [:: (1/4)%coqR; 0%coqR; (-7/12)%coqR]] *m
  lm 3 3 [:: [:: (-7/12)%coqR; 0%coqR; (1/4)%coqR]; [:: 0%coqR; (7/6)%coqR; 0%coqR]; [:: (1/4)%coqR; 0%coqR; (-7/12)%coqR]]) = (13/6)%coqR.
  rewrite /mxtrace; cmp.
have t12 : \tr (lm 3 3 [:: [:: (-7/12)%coqR; 0%coqR; (1/4)%coqR]; [:: 0%coqR; (7/6)%coqR; 0%coqR]; [:: (1/4)%coqR; 0%coqR; (-7/12)%coqR]] *m
  (2%coqR *: lm 3 3 [:: [:: 0%coqR; (3/4)%coqR; 0%coqR]; [:: (3/4)%coqR; 0%coqR; (3/4)%coqR]; [:: 0%coqR; (3/4)%coqR; 0%coqR]])) = 0%coqR.
  rewrite /mxtrace; cmp.
have t22 : \tr (2%coqR *: (lm 3 3 [:: [:: 0%coqR; (3/4)%coqR; 0%coqR]; [:: (3/4)%coqR; 0%coqR; (3/4)%coqR]; [:: 0%coqR; (3/4)%coqR; 0%coqR]] *m
  lm 3 3 [:: [:: 0%coqR; (3/4)%coqR; 0%coqR]; [:: (3/4)%coqR; 0%coqR; (3/4)%coqR]; [:: 0%coqR; (3/4)%coqR; 0%coqR]])) = (9/2)%coqR.
  rewrite /mxtrace; cmp.
rewrite t11 t12 t22.
have -> : dot (gv_vecd (lm 3 3 [:: [:: (-7/12)%coqR; 0%coqR; (1/4)%coqR]; [:: 0%coqR; (7/6)%coqR; 0%coqR]; [:: (1/4)%coqR; 0%coqR; (-7/12)%coqR]]))
  (gv_vecd (lm 3 3 [:: [:: (-7/12)%coqR; 0%coqR; (1/4)%coqR]; [:: 0%coqR; (7/6)%coqR; 0%coqR]; [:: (1/4)%coqR; 0%coqR; (-7/12)%coqR]])) = (49/24)%coqR.
  rewrite /dot; cmp.
apply/matrixP => -[[|[|i]] li] // -[[|[|j]] lj] //; rewrite !mxE /=; toR; lra.
Qed.
Definition gwu : 'cV[R]_3 := lm 3 1 [:: [:: (44/7)%coqR]; [:: (-40/7)%coqR]; [:: (44/7)%coqR]].
Definition gA1 : 'M[R]_3 := lm 3 3 [:: [:: (-7/12)%coqR; 0%coqR; (1/4)%coqR]; [:: 0%coqR; (7/6)%coqR; 0%coqR]; [:: (1/4)%coqR; 0%coqR; (-7/12)%coqR]].
Lemma dotE (a b : seq (seq R)) : dot (lm 3 1 a) (lm 3 1 b) = \sum_(k < 3) nth 0 (nth [::] a k) 0%N * nth 0 (nth [::] b k) 0%N.
Proof. by rewrite /dot mxE; apply: eq_bigr => k _; rewrite !mxE. Qed.
Ltac d3 := rewrite dotE !big_ord_recl big_ord0 /=; toR; lra.
Lemma JE : gv_j (moments2eqs (get_A1_hom gW false) gW gu).1 gl = lm 2 1 [:: [:: (-128/21)%coqR]; [:: (128/7)%coqR]].
Proof.
rewrite A1E -/gA1 /moments2eqs /gv_j Wu -/gwu inv3 two.
have -> : (gA1 + gA1^T) *m gwu = lm 3 1 [:: [:: (-88/21)%coqR]; [:: (-40/3)%coqR]; [:: (-88/21)%coqR]].
  have -> : gA1 + gA1^T = lm 3 3 [:: [:: (-7/6)%coqR; 0%coqR; (1/2)%coqR]; [:: 0%coqR; (7/3)%coqR; 0%coqR]; [:: (1/2)%coqR; 0%coqR; (-7/6)%coqR]].
    rewrite /gA1; ex3; cmp.
  rewrite /gwu lmM; ex3; cmp.
have -> : dot gu (lm 3 1 [:: [:: (-88/21)%coqR]; [:: (-40/3)%coqR]; [:: (-88/21)%coqR]]) = (-1760/49)%coqR by d3.
have -> : (gwu^T *m gA1 *m gwu) 0 0 = (576/49)%coqR.
  rewrite -mulmxA (_ : gA1 *m gwu = lm 3 1 [:: [:: (-44/21)%coqR]; [:: (-20/3)%coqR]; [:: (-44/21)%coqR]]); last by rewrite /gA1 /gwu lmM; ex3; cmp.
  by rewrite -/(dot _ _); d3.
have -> : (gW + gW^T) *m gwu = lm 3 1 [:: [:: (-60/7)%coqR]; [:: (132/7)%coqR]; [:: (-60/7)%coqR]].
  have -> : gW + gW^T = lm 3 3 [:: [:: 0%coqR; (3/2)%coqR; 0%coqR]; [:: (3/2)%coqR; 0%coqR; (3/2)%coqR]; [:: 0%coqR; (3/2)%coqR; 0%coqR]].
    rewrite /gW; ex3; cmp.
  rewrite /gwu lmM; ex3; cmp.
have -> : dot gu (lm 3 1 [:: [:: (-60/7)%coqR]; [:: (132/7)%coqR]; [:: (-60/7)%coqR]]) = (10608/49)%coqR by d3.
have -> : gW *m gwu = gu by rewrite /gW /gwu lmM /gu; ex3; cmp.
have -> : dot gwu gu = (-5280/49)%coqR by d3.
move: (dot _ _) (dot _ _) => d1 d2; rewrite /gl.
apply/matrixP => -[[|[|i]] li] // -[[|j] lj] //; cmp.
Qed.
Lemma mx2M (a b c d a' b' c' d' : R) : mx2 (R := R_realFieldType) a b c d *m mx2 (R := R_realFieldType) a' b' c' d' =
  mx2 (R := R_realFieldType) (a * a' + b * c') (a * b' + b * d') (c * a' + d * c') (c * b' + d * d').
Proof. apply/matrixP => -[[|[|i]] li] // -[[|[|j]] lj] //; rewrite !mxE !big_ord_recl big_ord0 !mxE /= addr0 //. Qed.
Lemma invP k (A B : 'M[R]_k) : A *m B = 1%:M -> la_inv (R := R_realFieldType) A = Some B.
Proof. by move=> AB; have [U _] := mulmx1_unit AB; rewrite la_inv_unit // -[invmx A]mulmx1 -AB mulmxA mulVmx // mul1mx. Qed.
Lemma sc11 (a : R) : lm 1 1 [:: [:: a]] = a%:M.
Proof. by apply/matrixP => i j; rewrite [i]ord1 [j]ord1 !mxE. Qed.
Theorem C87_hom_refuted : exists (W : 'M[R]_3) (x : 'M[R]_(3, 1)) (u : 'cV[R]_3) (lam : R) V s2,
  [/\ forall i, W i i = 0, forall i, \sum_j W i j = 1, `|lam| < 1 & \sum_i sp_filter W lam u i 0 = 0] /\
  get_omega_hom_ols W (get_A1_hom W false) (get_A2_hom W) x u lam (moments2eqs (get_A1_hom W false) W u).1 = Some (V, s2) /\
  exists c : 'cV[R]_2, (c^T *m V *m c) 0 0 < 0.
Proof.
exists gW, gx, gu, gl.
have xx : (sp_filter gW gl gx)^T *m sp_filter gW gl gx = (3/16)%coqR%:M.
  rewrite xsE -sc11; apply/matrixP => i j; rewrite [i]ord1 [j]ord1 [RHS]mxE /= -/(dot _ _); d3.
have scI (a b : R) : a * b = 1 -> la_inv (R := R_realFieldType) (a%:M : 'M[R]_1) = Some b%:M.
  by move=> ab; apply: invP; rewrite -scalar_mxM ab.
have E : get_omega_hom_ols gW (get_A1_hom gW false) (get_A2_hom gW) gx gu gl (moments2eqs (get_A1_hom gW false) gW gu).1 =
  Some (block_mx (32/3)%coqR%:M (98/255)%coqR%:M (98/255)%coqR%:M (2989/696320)%coqR%:M, 2%coqR).
  rewrite /get_omega_hom_ols xx inv3 psiE JE usE -/gus sigE mu3E.
  have -> : (1/3)%coqR *: ((3/16)%coqR%:M : 'M[R]_1) = (1/16)%coqR%:M by rewrite scale_scalar_mx; congr (_%:M); toR; lra.
  rewrite (scI _ 16%coqR); last by toR; lra.
  rewrite (@invP _ _ (mx2 (R := R_realFieldType) (36/61)%coqR 0 0 (1/6)%coqR)); last first.
    rewrite mx2M; apply/matrixP => -[[|[|i]] li] // -[[|[|j]] lj] //; cmp.
  rewrite (scI _ (16/3)%coqR); last by toR; lra.
  have -> : mx2 (R := R_realFieldType) (36/61)%coqR 0 0 (1/6)%coqR *m lm 2 1 [:: [:: (-128/21)%coqR]; [:: (128/7)%coqR]] =
    lm 2 1 [:: [:: (-1536/427)%coqR]; [:: (64/21)%coqR]].
    apply/matrixP => -[[|[|i]] li] // -[[|j] lj] //; cmp.
  have -> : (lm 2 1 [:: [:: (-128/21)%coqR]; [:: (128/7)%coqR]])^T *m lm 2 1 [:: [:: (-1536/427)%coqR]; [:: (64/21)%coqR]] = (696320/8967)%coqR%:M.
    rewrite -sc11; apply/matrixP => i j; rewrite [i]ord1 [j]ord1; cmp.
  rewrite (scI _ (8967/696320)%coqR); last by toR; lra.
  have -> : gx^T *m row_mx (gv_vecd (get_A1_hom gW false)) 0 = lm 1 2 [:: [:: (-7/3)%coqR; 0%coqR]] :> 'M[R]_(1, 1 + 1).
    rewrite mul_mx_row mulmx0 A1E; apply/matrixP => i j; rewrite [i]ord1; case: (split_ordP j) => l ->; rewrite [l]ord1 ?row_mxEl ?row_mxEr; cmp.
  have -> : (16%coqR%:M : 'M[R]_1)^T *m ((1/3)%coqR *: (2%coqR *: lm 1 2 [:: [:: (-7/3)%coqR; 0%coqR]])) *m lm 2 1 [:: [:: (-1536/427)%coqR]; [:: (64/21)%coqR]] = (16384/183)%coqR%:M.
    rewrite tr_scalar_mx mul_scalar_mx !scalerA -sc11; apply/matrixP => i j; rewrite [i]ord1 [j]ord1; cmp.
  congr (Some (_, _)); rewrite !scale_scalar_mx -scalar_mxM tr_scalar_mx; congr block_mx; congr (_%:M); toR; lra.
exists (block_mx (32/3)%coqR%:M (98/255)%coqR%:M (98/255)%coqR%:M (2989/696320)%coqR%:M), 2%coqR; split; last split; last first.
- pose cc : 'M[R]_(1 + 1, 1) := col_mx ((2989/696320)%coqR%:M : 'M[R]_1) ((- (98/255)%coqR)%:M : 'M[R]_1).
  have L : (cc^T *m block_mx ((32/3)%coqR%:M : 'M[R]_1) ((98/255)%coqR%:M : 'M[R]_1) ((98/255)%coqR%:M : 'M[R]_1) ((2989/696320)%coqR%:M : 'M[R]_1) *m cc) 0 0 < 0.
    rewrite /cc tr_col_mx !tr_scalar_mx mul_row_block mul_row_col -!scalar_mxM -!raddfD /= -!scalar_mxM -!raddfD /= mxE.
    apply/ltRP; rewrite mulr1n; toR; lra.
  exists cc; exact: L.
- exact: E.
- split; [exact: W0| | |].
  + by case=> [[|[|[|i]]] li] //; rewrite !big_ord_recl big_ord0 !mxE /=; toR; lra.
  + by rewrite ltr_norml; apply/andP; split; apply/ltRP; rewrite /gl; toR; lra.
  + rewrite usE; cmp.
Qed.
(** the estimators of C87 are defined on these data *)
Definition gJ : 'M[R]_2 := 1%:M.
Lemma J0 : moment_slope gJ gl != 0.
Proof. apply/eqP => /matrixP /(_ 0 0); rewrite !mxE /= mulr0 addr0 => /eqP; by rewrite oner_eq0. Qed.
Lemma psi_het : get_vc_het gW (get_A1_het gW) (get_psi_sigma gW gu gl) = mx2 (R := R_realFieldType) (1/12)%coqR 0%coqR 0%coqR 6%coqR.
Proof.
rewrite /get_vc_het.
have -> : get_psi_sigma gW gu gl = lm 3 3 [:: [:: 1%coqR; 0%coqR; 0%coqR]; [:: 0%coqR; 4%coqR; 0%coqR]; [:: 0%coqR; 0%coqR; 1%coqR]].
  have := usE; rewrite /sp_filter /get_psi_sigma => ->; ex3; rewrite !mxE /= ?mulr1n ?mulr0n ?exprS ?expr0; toR; lra.
have -> : get_A1_het gW = lm 3 3 [:: [:: 0%coqR; 0%coqR; (1/4)%coqR]; [:: 0%coqR; 0%coqR; 0%coqR]; [:: (1/4)%coqR; 0%coqR; 0%coqR]].
  rewrite /get_A1_het wpw; ex3; cmp.
have -> : gW + gW^T = lm 3 3 [:: [:: 0%coqR; (3/2)%coqR; 0%coqR]; [:: (3/2)%coqR; 0%coqR; (3/2)%coqR]; [:: 0%coqR; (3/2)%coqR; 0%coqR]].
  rewrite /gW; ex3; cmp.
rewrite two.
have -> : 2%coqR *: lm 3 3 [:: [:: 0%coqR; 0%coqR; (1/4)%coqR]; [:: 0%coqR; 0%coqR; 0%coqR]; [:: (1/4)%coqR; 0%coqR; 0%coqR]] *m
  lm 3 3 [:: [:: 1%coqR; 0%coqR; 0%coqR]; [:: 0%coqR; 4%coqR; 0%coqR]; [:: 0%coqR; 0%coqR; 1%coqR]] =
  lm 3 3 [:: [:: 0%coqR; 0%coqR; (1/2)%coqR]; [:: 0%coqR; 0%coqR; 0%coqR]; [:: (1/2)%coqR; 0%coqR; 0%coqR]] by ex3; cmp.
have -> : lm 3 3 [:: [:: 0%coqR; (3/2)%coqR; 0%coqR]; [:: (3/2)%coqR; 0%coqR; (3/2)%coqR]; [:: 0%coqR; (3/2)%coqR; 0%coqR]] *m
  lm 3 3 [:: [:: 1%coqR; 0%coqR; 0%coqR]; [:: 0%coqR; 4%coqR; 0%coqR]; [:: 0%coqR; 0%coqR; 1%coqR]] =
  lm 3 3 [:: [:: 0%coqR; 6%coqR; 0%coqR]; [:: (3/2)%coqR; 0%coqR; (3/2)%coqR]; [:: 0%coqR; 6%coqR; 0%coqR]] by ex3; cmp.
have i6 : (2%coqR * 3%:R : R)^-1 = (1/6)%coqR by rewrite three -RinvE; [toR; lra|apply/eqP; toR; lra].
rewrite i6.
have t11 : \tr (lm 3 3 [:: [:: 0%coqR; 0%coqR; (1/2)%coqR]; [:: 0%coqR; 0%coqR; 0%coqR]; [:: (1/2)%coqR; 0%coqR; 0%coqR]] *m
  lm 3 3 [:: [:: 0%coqR; 0%coqR; (1/2)%coqR]; [:: 0%coqR; 0%coqR; 0%coqR]; [:: (1/2)%coqR; 0%coqR; 0%coqR]]) = (1/2)%coqR.
  rewrite /mxtrace; cmp.
have t12 : \tr (lm 3 3 [:: [:: 0%coqR; 0%coqR; (1/2)%coqR]; [:: 0%coqR; 0%coqR; 0%coqR]; [:: (1/2)%coqR; 0%coqR; 0%coqR]] *m
  lm 3 3 [:: [:: 0%coqR; 6%coqR; 0%coqR]; [:: (3/2)%coqR; 0%coqR; (3/2)%coqR]; [:: 0%coqR; 6%coqR; 0%coqR]]) = 0%coqR.
  rewrite /mxtrace; cmp.
have t22 : \tr (lm 3 3 [:: [:: 0%coqR; 6%coqR; 0%coqR]; [:: (3/2)%coqR; 0%coqR; (3/2)%coqR]; [:: 0%coqR; 6%coqR; 0%coqR]] *m
  lm 3 3 [:: [:: 0%coqR; 6%coqR; 0%coqR]; [:: (3/2)%coqR; 0%coqR; (3/2)%coqR]; [:: 0%coqR; 6%coqR; 0%coqR]]) = 36%coqR.
  rewrite /mxtrace; cmp.
rewrite t11 t12 t22; apply/matrixP => -[[|[|i]] li] // -[[|[|j]] lj] //; rewrite !mxE /=; toR; lra.
Qed.
Lemma psi_het_unit : get_vc_het gW (get_A1_het gW) (get_psi_sigma gW gu gl) \in unitmx.
Proof.
suff : mx2 (R := R_realFieldType) (1/12)%coqR 0%coqR 0%coqR 6%coqR *m mx2 (R := R_realFieldType) 12%coqR 0 0 (1/6)%coqR = 1%:M.
  by rewrite psi_het => /mulmx1_unit [].
rewrite mx2M; apply/matrixP => -[[|[|i]] li] // -[[|[|j]] lj] //; cmp.
Qed.
Lemma xx0 : (sp_filter gW gl gx)^T *m sp_filter gW gl gx = (3/16)%coqR%:M.
Proof. rewrite xsE -sc11; apply/matrixP => i j; rewrite [i]ord1 [j]ord1 [RHS]mxE /= -/(dot _ _); d3. Qed.
Lemma gxx : gx^T *m gx = 3%coqR%:M.
Proof. rewrite -sc11; apply/matrixP => i j; rewrite [i]ord1 [j]ord1 [RHS]mxE /= -/(dot _ _); d3. Qed.
Lemma xs4 : sp_filter gW gl gx = (1/4)%coqR *: gx.
Proof. rewrite xsE /gx; ex3; cmp. Qed.
Lemma scU (a : R) : a <> 0%coqR -> (a%:M : 'M[R]_1) \in unitmx.
Proof. by move=> a0; rewrite unit11 mxE mulr1n; apply/eqP. Qed.
Theorem C87_witness : exists V1 V2 V3, [/\ vm_error_het gJ gl gx gu gW (get_A1_het gW) = Some V1,
  vm_endog_het gJ gl gx gx gu gW (get_A1_het gW) = Some V2 &
  get_omega_hom gW (get_A1_hom gW false) (get_A2_hom gW) gx gx gu gl gJ = Some V3].
Proof.
have U1 : (sp_filter gW gl gx)^T *m sp_filter gW gl gx \in unitmx by rewrite xx0; apply: scU; lra.
have Ux : gx^T *m gx \in unitmx by rewrite gxx; apply: scU; lra.
have E1 := C87_vm_error_het gu gl W0 gJ gx; cbv zeta in E1.
rewrite -(C87_het_weight gu gl W0) U1 psi_het_unit J0 /= in E1.
have E2 := C87_vm_endog_het gu gl W0 gJ gx gx; cbv zeta in E2.
rewrite Ux (C87_het_weight_unit W0 _ _ psi_het_unit) J0 /= in E2.
have UZ : (gx *m invmx (gx^T *m gx) *m gx^T *m sp_filter gW gl gx)^T *m (gx *m invmx (gx^T *m gx) *m gx^T *m sp_filter gW gl gx) \in unitmx.
  rewrite (_ : gx *m _ *m _ *m _ = sp_filter gW gl gx) // xs4 -scalemxAr -!mulmxA mulVmx // mulmx1 //.
rewrite UZ /= in E2.
have E3 : exists V3, get_omega_hom gW (get_A1_hom gW false) (get_A2_hom gW) gx gx gu gl gJ = Some V3.
  have scI (a b : R) : a * b = 1 -> la_inv (R := R_realFieldType) (a%:M : 'M[R]_1) = Some b%:M.
    by move=> ab; apply: invP; rewrite -scalar_mxM ab.
  rewrite /get_omega_hom /get_vc_hom_z gxx inv3.
  have -> : (1/3)%coqR *: (3%coqR%:M : 'M[R]_1) = 1%coqR%:M by rewrite scale_scalar_mx; congr (_%:M); toR; lra.
  case Eh : (hom_psi_n _ _ _ _ _) => [[p11 p12] p22].
  have := psiE; rewrite /get_vc_hom Eh inv3 => /matrixP Ep.
  have e11 : p11 = (61/12)%coqR by have := Ep 0 0; rewrite !mxE /= -RmulE; lra.
  have e12 : p12 = 0%coqR by have := Ep 0 1; rewrite !mxE /= -RmulE; lra.
  have e22 : p22 = 18%coqR by have := Ep 1 1; rewrite !mxE /= -RmulE; lra.
  rewrite e11 e12 e22 usE -/gus xsE A1E A2E sigE mu3E two.
  rewrite (scI _ 1%coqR); last by toR; lra.
  have -> : gx^T *m lm 3 1 [:: [:: (1/4)%coqR]; [:: (-1/4)%coqR]; [:: (1/4)%coqR]] = (3/4)%coqR%:M.
    rewrite -sc11; apply/matrixP => i j; rewrite [i]ord1 [j]ord1 [RHS]mxE /= -/(dot _ _); d3.
  have -> : (1%coqR%:M : 'M[R]_1) *m ((1/3)%coqR *: (3/4)%coqR%:M) = (1/4)%coqR%:M by rewrite scale_scalar_mx -scalar_mxM; congr (_%:M); toR; lra.
  have -> : ((1/3)%coqR *: ((3/4)%coqR%:M : 'M[R]_1))^T *m (1/4)%coqR%:M = (1/16)%coqR%:M.
    by rewrite scale_scalar_mx tr_scalar_mx -scalar_mxM; congr (_%:M); toR; lra.
  rewrite (scI _ 16%coqR); last by toR; lra.
  set a1 := gx *m (_ *m _) *m (_ *: ((_)^T *m (lm 3 3 [:: [:: (-7/12)%coqR; _; _]; _; _] *m gus))).
  have -> : a1 = lm 3 1 [:: [:: (10/9)%coqR]; [:: (-10/9)%coqR]; [:: (10/9)%coqR]].
    rewrite /a1 (_ : _ *m gus = lm 3 1 [:: [:: (1/3)%coqR]; [:: (7/3)%coqR]; [:: (1/3)%coqR]]); last by rewrite /gus lmM; ex3; cmp.
    rewrite (_ : (lm 3 1 _)^T *m _ = (-5/12)%coqR%:M); last by rewrite -sc11; apply/matrixP => i j; rewrite [i]ord1 [j]ord1 [RHS]mxE /= -/(dot _ _); d3.
    rewrite -scalar_mxM scale_scalar_mx !mul_mx_scalar /gx; ex3; cmp.
  set a2 := gx *m (_ *m _) *m (_ *: ((_)^T *m (_ *m gus))).
  have -> : a2 = lm 3 1 [:: [:: (-3)%coqR]; [:: 3%coqR]; [:: (-3)%coqR]].
    rewrite /a2 (_ : _ *m gus = lm 3 1 [:: [:: (3/2)%coqR]; [:: (-3/2)%coqR]; [:: (3/2)%coqR]]); last by rewrite /gus lmM; ex3; cmp.
    rewrite (_ : (lm 3 1 _)^T *m _ = (9/8)%coqR%:M); last by rewrite -sc11; apply/matrixP => i j; rewrite [i]ord1 [j]ord1 [RHS]mxE /= -/(dot _ _); d3.
    rewrite -scalar_mxM scale_scalar_mx !mul_mx_scalar /gx; ex3; cmp.
  set vd := gv_vecd _.
  have vE : vd = lm 3 1 [:: [:: (-7/12)%coqR]; [:: (7/6)%coqR]; [:: (-7/12)%coqR]] by rewrite /vd; ex3; cmp.
  set M := (1/3)%coqR *: mx2 _ _ _ _.
  have ME : M = mx2 (R := R_realFieldType) (229/324)%coqR (-2/1)%coqR (-2/1)%coqR (24/1)%coqR.
    rewrite /M vE !dotE !big_ord_recl !big_ord0 /=; apply/matrixP => -[[|[|i]] li] // -[[|[|j]] lj] //; rewrite !mxE /=; toR; lra.
  rewrite ME (@invP _ _ (mx2 (R := R_realFieldType) (324/175)%coqR (27/175)%coqR (27/175)%coqR (229/4200)%coqR)); last first.
    rewrite mx2M; apply/matrixP => -[[|[|i]] li] // -[[|[|j]] lj] //; cmp.
  rewrite (scI _ (1/3)%coqR); last by toR; lra.
  have -> : (lm 3 1 [:: [:: (1/4)%coqR]; [:: (-1/4)%coqR]; [:: (1/4)%coqR]])^T *m (gx *m ((1/3)%coqR%:M *m (3/4)%coqR%:M)) = (3/16)%coqR%:M.
    rewrite -scalar_mxM mul_mx_scalar -sc11; apply/matrixP => i j; rewrite [i]ord1 [j]ord1; cmp.
  rewrite (scI _ (16/3)%coqR); last by toR; lra.
  have jE : gv_j gJ gl = lm 2 1 [:: [:: 1%coqR]; [:: (-3/2)%coqR]].
    rewrite /gv_j two /gl; apply/matrixP => -[[|[|i]] li] // -[[|j] lj] //; cmp.
  have -> : (gv_j gJ gl)^T *m (mx2 (R := R_realFieldType) (324/175)%coqR (27/175)%coqR (27/175)%coqR (229/4200)%coqR *m gv_j gJ gl) = (1209/800)%coqR%:M.
    rewrite jE -sc11; apply/matrixP => i j; rewrite [i]ord1 [j]ord1; cmp.
  rewrite (scI _ (800/1209)%coqR); last by toR; lra.
  by eexists.
case: E3 => V3 E3; eexists; eexists; exists V3; split; [exact: E1|exact: E2|exact: E3].
Qed.
