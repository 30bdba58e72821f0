(** C60: the information matrices of the maximum likelihood models and the reported variances. *)
From mathcomp Require Import all_ssreflect all_algebra.
From Coq Require Import Ring Field.
From Verif Require Import Mring LinRegModel LinRegProofs LinRegProofs2 MLModel.
Set Implicit Arguments.
Unset Strict Implicit.
Unset Printing Implicit Defensive.
Import Order.TTheory GRing.Theory Num.Theory.
Local Open Scope ring_scope.

Section Info.
Variable R : realFieldType.
Add Field Rf : (@p_ft R).

Lemma sc0 : (0%:M : 'M[R]_1) = 0. Proof. by apply/matrixP => i j; rewrite !mxE mul0rn. Qed.
Lemma z00 : (0 : 'M[R]_1) 0 0 = 0. Proof. by rewrite mxE. Qed.
Lemma psd_unit_pd k (A : 'M[R]_k) : psd A -> A \in unitmx -> pd A.
Proof.
case=> HS HP U; split=> // c c0; rewrite lt_def HP andbT; apply/eqP => Z.
set d := A *m c; set q := (d^T *m d) 0 0; set p := (d^T *m A *m d) 0 0.
have p0 : 0 <= p by exact: HP.
have q0 : 0 < q.
  rewrite /q -utuE lt_def utu_ge0 utu_eq0 andbT; apply: contra c0 => /eqP d0; apply/eqP; exact: (iffLR (unitmx_inj A) U).
have E t : ((c + t *: d)^T *m A *m (c + t *: d)) 0 0 = 2%:R * t * q + t ^+ 2 * p.
  have add00 (X Y : 'M[R]_1) : (X + Y) 0 0 = X 0 0 + Y 0 0 by rewrite mxE.
  have sc00 (X : 'M[R]_1) a : (a *: X) 0 0 = a * X 0 0 by rewrite mxE.
  have tr00 (X : 'M[R]_1) : X^T 0 0 = X 0 0 by rewrite mxE.
  have -> : (c + t *: d)^T = c^T + t *: d^T by apply/matrixP => i j; rewrite !mxE.
  rewrite !mulmxDl !mulmxDr -!scalemxAl -!scalemxAr !add00 !sc00 Z add0r.
  have -> : (c^T *m A *m d) 0 0 = q by rewrite /q /d trmx_mul HS.
  have -> : (d^T *m A *m c) 0 0 = q by rewrite -mulmxA.
  rewrite -/p expr2; clear -t; move: p q => p' q'; mring R.
have := HP (c + (- (q / (p + 1))) *: d); rewrite E => H.
have P1 : 0 < p + 1 by rewrite ltr_paddl // ltr01.
have N1 : p + 1 <> 0 by apply/eqP; rewrite gt_eqF.
have : 2%:R * - (q / (p + 1)) * q + (- (q / (p + 1))) ^+ 2 * p = - (q ^+ 2 * (p + 2%:R) / (p + 1) ^+ 2).
  rewrite !expr2; clear -N1; move: p q N1 => p' q' N1; mfield R; exact: N1.
move=> E2; move: H; rewrite E2 oppr_ge0 leNgt => /negP; apply.
by rewrite divr_gt0 ?exprn_gt0 // mulr_gt0 ?exprn_gt0 // ltr_paddl // ltr0n.
Qed.

Lemma quad_block k l (A : 'M[R]_k) (B : 'M[R]_(k, l)) (C : 'M[R]_(l, k)) (D : 'M[R]_l) (u : 'cV[R]_k) (v : 'cV[R]_l) :
  ((col_mx u v)^T *m block_mx A B C D *m col_mx u v) 0 0 =
  (u^T *m A *m u) 0 0 + (v^T *m C *m u) 0 0 + (u^T *m B *m v) 0 0 + (v^T *m D *m v) 0 0.
Proof.
have add00 (X Y : 'M[R]_1) : (X + Y) 0 0 = X 0 0 + Y 0 0 by rewrite mxE.
by rewrite tr_col_mx mul_row_block mul_row_col !mulmxDl !add00 addrA.
Qed.

Lemma sum_sq_id n (S : 'M[R]_n) (r a : R) :
  \sum_i \sum_j (r * S i j + a * (i == j)%:R) ^+ 2 = r ^+ 2 * (\sum_i \sum_j S i j ^+ 2) + 2%:R * r * a * (\sum_i S i i) + a ^+ 2 * n%:R.
Proof.
have E i : \sum_j (r * S i j + a * (i == j)%:R) ^+ 2 = r ^+ 2 * (\sum_j S i j ^+ 2) + 2%:R * r * a * S i i + a ^+ 2.
  transitivity (\sum_j (r ^+ 2 * S i j ^+ 2 + (2%:R * r * a * S i j + a ^+ 2) * (i == j)%:R)).
    apply: eq_bigr => j _; have B : ((i == j)%:R : R) * (i == j)%:R = (i == j)%:R by case: eqP; rewrite ?mulr1 ?mulr0.
    rewrite !expr2 mulrDl !mulrDr.
    rewrite [a * _ * (a * _)]mulrACA B; move: (S i j) ((i == j)%:R) => s b; mring R.
  rewrite big_split /= -mulr_sumr -addrA; congr (_ + _).
  rewrite (bigD1 i) //= eqxx mulr1 big1 ?addr0 // => j Hj; by rewrite eq_sym (negbTE Hj) mulr0.
under eq_bigr do rewrite E.
by rewrite !big_split /= -!mulr_sumr sumr_const card_ord -[a *+ n]mulr_natr mulrA -expr2.
Qed.

Lemma tr23E n (G : 'M[R]_n) : 2%:R * (tr2_of G + tr3_of G) = \sum_i \sum_j (G + G^T) i j ^+ 2.
Proof.
have E2 : tr2_of G = \sum_i \sum_j G i j * G j i by apply: eq_bigr => i _; rewrite mxE.
have E3 : tr3_of G = \sum_i \sum_j G i j ^+ 2.
  rewrite /tr3_of exchange_big /=; apply: eq_bigr => i _; rewrite mxE; apply: eq_bigr => j _; by rewrite mxE expr2.
have E3' : tr3_of G = \sum_i \sum_j G j i ^+ 2 by rewrite E3 exchange_big.
rewrite mulrDr {2}mulr2n mulrDl mul1r {1}E3 E3' E2 mulr_sumr -!big_split /=; apply: eq_bigr => i _.
rewrite mulr_sumr -!big_split /=; apply: eq_bigr => j _; rewrite !mxE !expr2.
move: (G i j) (G j i) => a b; mring R.
Qed.

Definition err_form n (G : 'M[R]_n) (sig2 r t : R) : R :=
  2%:R^-1 * \sum_i \sum_j (r * (G + G^T) i j + (t / sig2) * (i == j)%:R) ^+ 2.

Lemma err_formE n (G : 'M[R]_n) (sig2 r t : R) : sig2 != 0 ->
  err_form G sig2 r t = r ^+ 2 * (tr2_of G + tr3_of G) + 2%:R * r * t * (tr1_of G / sig2) + t ^+ 2 * (n%:R / (2%:R * sig2 ^+ 2)).
Proof.
move=> /eqP s0; rewrite /err_form sum_sq_id -tr23E.
have -> : \sum_i (G + G^T) i i = 2%:R * tr1_of G.
  rewrite /tr1_of mulr_sumr; apply: eq_bigr => i _; rewrite !mxE; move: (G i i) => a; mring R.
have T0 : (2%:R : R) <> 0 by apply/eqP; rewrite pnatr_eq0.
rewrite !expr2; move: (tr2_of G + tr3_of G) (tr1_of G) (n%:R : R) => a b c; clear -s0 T0.
mfield R; split => //.
Qed.
Lemma err_form_ge0 n (G : 'M[R]_n) (sig2 r t : R) : 0 <= err_form G sig2 r t.
Proof. by rewrite mulr_ge0 ?invr_ge0 ?ler0n //; do 2 (apply: sumr_ge0 => ? _); exact: sqr_ge0. Qed.
Lemma err_form_eq0 n (G : 'M[R]_n) (sig2 r t : R) : sig2 != 0 -> (0 < n)%N ->
  err_form G sig2 r t = 0 -> (r == 0) && (t == 0) \/ G + G^T = (- (t / sig2 / r))%:M.
Proof.
move=> s0 n0 /eqP; rewrite mulf_eq0 invr_eq0 pnatr_eq0 /= psumr_eq0 => [|i _]; last by apply: sumr_ge0 => ? _; exact: sqr_ge0.
move=> /allP H.
have {}H i j : r * (G + G^T) i j + (t / sig2) * (i == j)%:R = 0.
  have := H i (mem_index_enum _); rewrite /= psumr_eq0 => [|j' _]; last exact: sqr_ge0.
  by move/allP => /(_ j (mem_index_enum _)); rewrite /= sqrf_eq0 => /eqP.
have [r0|r0] := eqVneq r 0; [left|right].
- case: n n0 G H => [//|n] _ G H; have := H 0 0; rewrite r0 mul0r add0r eqxx mulr1 => /eqP.
  by rewrite mulf_eq0 invr_eq0 (negbTE s0) orbF.
- apply/matrixP => i j; rewrite [RHS]mxE; have /eqP := H i j; rewrite addr_eq0 => /eqP E.
  apply: (mulfI r0); rewrite E; case: eqP => _; rewrite ?mulr1 ?mulr1n ?mulr0 ?oppr0 ?mulr0n ?mulr0 //.
  by rewrite mulrN mulrCA mulfV // mulr1.
Qed.

Lemma err_quad n (G : 'M[R]_n) (sig2 : R) (v : 'cV[R]_(1 + 1)) : sig2 != 0 ->
  (v^T *m err_info G sig2 *m v) 0 0 = err_form G sig2 (v (lshift 1 0) 0) (v (rshift 1 0) 0).
Proof.
move=> s0; rewrite -{1 2}[v]vsubmxK /err_info quad_block err_formE //.
rewrite [usubmx v]mx11_scalar [dsubmx v]mx11_scalar !tr_scalar_mx -!scalar_mxM !mxE eqxx !mulr1n.
set r := v _ _; set t := v _ _; rewrite -/(tr2_of G) !expr2.
move: (tr2_of G + tr3_of G) (tr1_of G / sig2) (n%:R / _) r t => a b c r t; mring R.
Qed.
Lemma lag_quad n k (x : 'M[R]_(n, k)) (wp : 'cV[R]_n) (G : 'M[R]_n) (sig2 : R) (a : 'cV[R]_k) (v : 'cV[R]_(1 + 1)) : sig2 != 0 ->
  ((col_mx a v)^T *m lag_info x wp G sig2 *m col_mx a v) 0 0 =
  sig2^-1 * utu_of (x *m a + v (lshift 1 0) 0 *: wp) + err_form G sig2 (v (lshift 1 0) 0) (v (rshift 1 0) 0).
Proof.
move=> s0; rewrite /lag_info quad_block -err_quad //.
set r := v (lshift 1 0) 0.
have add00 (X Y : 'M[R]_1) : (X + Y) 0 0 = X 0 0 + Y 0 0 by rewrite mxE.
have sc00 (X : 'M[R]_1) b : (b *: X) 0 0 = b * X 0 0 by rewrite mxE.
have tr00 (X : 'M[R]_1) : X 0 0 = X^T 0 0 by rewrite mxE.
have Ev : v = col_mx r%:M (dsubmx v).
  by rewrite -[LHS]vsubmxK; congr (col_mx _ _); rewrite [usubmx v]mx11_scalar mxE; congr (v _ _)%:M.
have E1 : (v^T *m col_mx (sig2^-1 *: (x^T *m wp)^T) 0 *m a) 0 0 = sig2^-1 * (r * ((x *m a)^T *m wp) 0 0).
  rewrite {1}Ev tr_col_mx mul_row_col mulmx0 addr0 tr_scalar_mx mul_scalar_mx -!scalemxAl !sc00 mulrCA; congr (_ * (_ * _)).
  by rewrite tr00 !trmx_mul !trmxK mulmxA.
have E2 : (a^T *m row_mx (sig2^-1 *: (x^T *m wp)) 0 *m v) 0 0 = sig2^-1 * (r * ((x *m a)^T *m wp) 0 0).
  rewrite {1}Ev mul_mx_row mul_row_col mulmx0 mul0mx addr0 mul_mx_scalar -scalemxAr sc00 sc00 mulrCA; congr (_ * (_ * _)).
  by rewrite trmx_mul mulmxA.
have E3 : (v^T *m block_mx (tr2_of G + tr3_of G + (wp^T *m wp) 0 0 / sig2)%:M (tr1_of G / sig2)%:M (tr1_of G / sig2)%:M (n%:R / (2%:R * sig2 ^+ 2))%:M *m v) 0 0 =
   sig2^-1 * (r * (r * (wp^T *m wp) 0 0)) + (v^T *m err_info G sig2 *m v) 0 0.
  rewrite -{1 2 3 4}[v]vsubmxK /err_info !quad_block.
  rewrite [usubmx v]mx11_scalar [dsubmx v]mx11_scalar !tr_scalar_mx -!scalar_mxM ![(_%:M : 'M_1) 0 0]mxE eqxx !mulr1n.
  have -> : usubmx v 0 0 = r by rewrite mxE; congr (v _ _).
  clear E1 E2 Ev; move: (dsubmx v 0 0) (tr2_of G + tr3_of G) (tr1_of G / sig2) (n%:R / _) ((wp^T *m wp) 0 0) (sig2^-1) r => t b c d e f r'; mring R.
rewrite E1 E2 E3 utuE.
have -> : (x *m a + r *: wp)^T *m (x *m a + r *: wp) = (x *m a)^T *m (x *m a) + r *: ((x *m a)^T *m wp) + r *: (wp^T *m (x *m a)) + r *: (r *: (wp^T *m wp)).
  have -> : (x *m a + r *: wp)^T = (x *m a)^T + r *: wp^T by apply/matrixP => i j; rewrite !mxE.
  by rewrite mulmxDl !mulmxDr -!scalemxAl -!scalemxAr addrA.
rewrite !add00 !sc00.
have -> : (wp^T *m (x *m a)) 0 0 = ((x *m a)^T *m wp) 0 0 by rewrite tr00 trmx_mul trmxK.
have -> : (a^T *m (sig2^-1 *: (x^T *m x)) *m a) 0 0 = sig2^-1 * ((x *m a)^T *m (x *m a)) 0 0.
  by rewrite -scalemxAr -scalemxAl sc00 trmx_mul !mulmxA.
clear E1 E2 E3 Ev; move: ((v^T *m _ *m v) 0 0) (sig2^-1) (((x *m a)^T *m (x *m a)) 0 0) (((x *m a)^T *m wp) 0 0) ((wp^T *m wp) 0 0) r => a' b c d e f; mring R.
Qed.

Lemma scalar_trmx a : (a%:M : 'M[R]_1)^T = a%:M. Proof. exact: tr_scalar_mx. Qed.

(** C60, error model: the 2 x 2 information matrix of (lambda, sigma2) is positive semi-definite; it is invertible exactly when the
    symmetric part of W (I - lambda W)^-1 is not a multiple of the identity. *)
Theorem C60_err_info : forall n (G : 'M[R]_n) (sig2 : R), 0 < sig2 -> (0 < n)%N ->
  psd (err_info G sig2) /\ (err_info G sig2 \in unitmx <-> forall a, G + G^T <> a%:M).
Proof.
move=> n G sig2 s0 n0; have s1 : sig2 != 0 by rewrite gt_eqF.
have P : psd (err_info G sig2).
  split=> [|c]; first by rewrite /err_info tr_block_mx !scalar_trmx.
  by rewrite err_quad // err_form_ge0.
split=> //; split.
- move=> U a Ha; have [_ H] := psd_unit_pd P U.
  pose c : 'cV[R]_(1 + 1) := col_mx 1%:M (- (a * sig2))%:M.
  have c0 : c != 0.
    by apply/eqP => /matrixP /(_ (lshift 1 0) 0); rewrite col_mxEu !mxE eqxx mulr1n => /eqP; rewrite oner_eq0.
  have := H c c0; rewrite err_quad // col_mxEu col_mxEd !mxE eqxx !mulr1n /err_form Ha big1 ?mulr0 ?ltxx // => i _.
  rewrite big1 // => j _; rewrite mxE mul1r mulNr mulfK //; case: eqP => _; rewrite ?mulr1 ?mulr1n ?mulr0n ?mulr0 ?addr0.
    by rewrite subrr expr0n.
  by rewrite expr0n.
- move=> H; apply: pd_unit; split; first by case: P.
  move=> c c0; rewrite lt_def (proj2 P) andbT err_quad //; apply/eqP => Z.
  have [/andP[/eqP r0 /eqP t0]|E] := err_form_eq0 s1 n0 Z; last exact: H E.
  case/eqP: c0; rewrite -[c]vsubmxK [usubmx c]mx11_scalar [dsubmx c]mx11_scalar.
  have -> : usubmx c 0 0 = 0 by rewrite mxE.
  have -> : dsubmx c 0 0 = 0 by rewrite mxE.
  by rewrite !sc0 col_mx0.
Qed.
(** C60, lag model: the information matrix of (beta, rho, sigma2) is positive semi-definite, and positive definite when x has full
    column rank and the symmetric part of W (I - rho W)^-1 is not a multiple of the identity. *)
Theorem C60_lag_info : forall n k (x : 'M[R]_(n, k)) (wp : 'cV[R]_n) (G : 'M[R]_n) (sig2 : R), 0 < sig2 -> (0 < n)%N ->
  psd (lag_info x wp G sig2) /\
  ((forall c : 'cV[R]_k, x *m c = 0 -> c = 0) -> (forall a, G + G^T <> a%:M) -> pd (lag_info x wp G sig2)).
Proof.
move=> n k x wp G sig2 s0 n0; have s1 : sig2 != 0 by rewrite gt_eqF.
have Sy : (lag_info x wp G sig2)^T = lag_info x wp G sig2.
  rewrite /lag_info tr_block_mx tr_block_mx !scalar_trmx tr_row_mx tr_col_mx !trmx0; congr (block_mx _ (row_mx _ _) (col_mx _ _) _).
  - by rewrite linearZ /= gram_sym.
  - by rewrite linearZ /= trmxK.
  - by rewrite linearZ.
have F c : ((c^T *m lag_info x wp G sig2 *m c) 0 0 : R) = sig2^-1 * utu_of (x *m usubmx c + c (rshift k (lshift 1 0)) 0 *: wp)
   + err_form G sig2 (c (rshift k (lshift 1 0)) 0) (c (rshift k (rshift 1 0)) 0).
  by rewrite -{1 2}[c]vsubmxK lag_quad // !mxE.
split.
  by split=> // c; rewrite F addr_ge0 ?err_form_ge0 // mulr_ge0 ?invr_ge0 ?utu_ge0 // ltW.
move=> Hx HG; split=> // c c0; rewrite F lt_def addr_ge0 ?err_form_ge0 ?mulr_ge0 ?invr_ge0 ?utu_ge0 ?(ltW s0) // andbT.
rewrite paddr_eq0 ?err_form_ge0 ?mulr_ge0 ?invr_ge0 ?utu_ge0 ?(ltW s0) //; apply/negP => /andP [Z1 /eqP Z2].
have [/andP[/eqP r0 /eqP t0]|E] := err_form_eq0 s1 n0 Z2; last exact: HG E.
move: Z1; rewrite mulf_eq0 invr_eq0 (negbTE s1) /= utu_eq0 r0 scale0r addr0 => /eqP /Hx Hu.
case/eqP: c0; rewrite -[c]vsubmxK Hu -[dsubmx c]vsubmxK [usubmx (dsubmx c)]mx11_scalar [dsubmx (dsubmx c)]mx11_scalar.
have -> : usubmx (dsubmx c) 0 0 = 0 by rewrite !mxE.
have -> : dsubmx (dsubmx c) 0 0 = 0 by rewrite !mxE.
by rewrite !sc0 !col_mx0.
Qed.

(** principal submatrices of positive definite matrices *)
Lemma pd_block k l (A : 'M[R]_k) B C (D : 'M[R]_l) : pd (block_mx A B C D) -> pd A.
Proof.
case=> HS HP; split; first by move: HS; rewrite tr_block_mx => /eq_block_mx [].
move=> c c0; have := HP (col_mx c 0); rewrite quad_block trmx0 !mul0mx mulmx0 !z00 !addr0; apply.
by apply/eqP => /(congr1 usubmx); rewrite col_mxKu linear0 => /eqP; apply/negP.
Qed.
Lemma pd_diag_block k l (A : 'M[R]_k) (D : 'M[R]_l) : pd A -> pd D -> pd (block_mx A 0 0 D).
Proof.
move=> [SA PA] [SD PD]; split; first by rewrite tr_block_mx !trmx0 SA SD.
move=> c c0; rewrite -[c]vsubmxK quad_block !mulmx0 !mul0mx !z00 !addr0.
have QA : 0 <= ((usubmx c)^T *m A *m usubmx c) 0 0.
  by have [->|N] := eqVneq (usubmx c) 0; [rewrite mulmx0 mxE|exact: ltW (PA _ N)].
have QD : 0 <= ((dsubmx c)^T *m D *m dsubmx c) 0 0.
  by have [->|N] := eqVneq (dsubmx c) 0; [rewrite mulmx0 mxE|exact: ltW (PD _ N)].
have [U0|U0] := eqVneq (usubmx c) 0; last by rewrite ltr_paddr // PA.
rewrite ltr_paddl // PD //; apply: contra c0 => /eqP D0; by rewrite -[c]vsubmxK U0 D0 col_mx0.
Qed.
Lemma pd_scalar1 (a : R) : 0 < a -> pd (a%:M : 'M[R]_1).
Proof.
move=> a0; split=> [|c c0]; first exact: scalar_trmx.
rewrite [c]mx11_scalar tr_scalar_mx -!scalar_mxM mxE eqxx mulr1n mulrAC pmulr_lgt0 // -expr2 exprn_even_gt0 //=.
by apply: contra c0 => /eqP E; rewrite [c]mx11_scalar E sc0.
Qed.
End Info.
