From Coq Require Import Reals Ring Field.
From mathcomp Require Import all_ssreflect all_algebra.
From mathcomp.fingroup Require Import perm.
From mathcomp.real_closed Require Import complex.
From Verif Require Import Rinst Mring LinRegModel LinRegProofs LinRegProofs2 FilterModel MLModel MLSpec.
Set Implicit Arguments.
Unset Strict Implicit.
Unset Printing Implicit Defensive.
Import Order.TTheory GRing.Theory Num.Theory.
Local Open Scope ring_scope.

Section Alg.
Variable F : rcfType.

Lemma a_ofE n (W : 'M[F]_n) rho : (forall i, W i i = 0) -> a_of W rho = 1%:M - rho *: W.
Proof.
move=> H; apply/matrixP => i j; rewrite /a_of /fill_diag1 !mxE mulNr; case: eqP => [->|_]; first by rewrite H mulr0 subr0.
by rewrite sub0r.
Qed.

Lemma dominance n (W : 'M[F]_n) rho : (forall i j, 0 <= W i j) -> (forall i, \sum_j W i j <= 1) -> `|rho| < 1 ->
  1%:M - rho *: W \in unitmx.
Proof.
move=> W0 W1 Hr; apply/unitmx_inj => c Hc.
case: n W W0 W1 c Hc => [|n] W W0 W1 c Hc; first by apply/matrixP => -[].
have Hci i : c i 0 = rho * \sum_j W i j * c j 0.
  have := congr1 (fun M : 'cV_n.+1 => M i 0) Hc.
  rewrite mulmxBl mul1mx -scalemxAl mxE [X in _ + X]mxE [X in - X]mxE [X in _ * X]mxE [RHS]mxE => /eqP.
  by rewrite subr_eq0 => /eqP.
have [i _ Hi] := @arg_maxP _ _ _ ord0 xpredT (fun j => `|c j 0|) isT.
have L : `|c i 0| <= `|rho| * `|c i 0|.
  rewrite {1}Hci normrM ler_wpmul2l //.
  apply: le_trans (ler_norm_sum _ _ _) _.
  apply: (@le_trans _ _ (\sum_j W i j * `|c i 0|)).
    by apply: ler_sum => j _; rewrite normrM ger0_norm // ler_wpmul2l //; exact: Hi.
  by rewrite -mulr_suml ler_pimull.
have ci0 : `|c i 0| = 0.
  apply/eqP; rewrite eq_le normr_ge0 andbT -(@pmulr_rle0 _ (1 - `|rho|)) ?subr_gt0 // mulrBl mul1r subr_le0 //.
by apply/colP => j; rewrite mxE; apply/normr0_eq0/eqP; rewrite eq_le normr_ge0 andbT -ci0; exact: Hi.
Qed.

Lemma det_poly n (W : 'M[F]_n) rho : (\det (1%:M - 'X *: map_mx polyC W)).[rho] = \det (1%:M - rho *: W).
Proof.
rewrite -horner_evalE -det_map_mx; congr (\det _); apply/matrixP => i j.
by rewrite [LHS]mxE [LHS]horner_evalE !mxE hornerD hornerN hornerM hornerX hornerC hornerMn hornerC.
Qed.

Lemma det_pos n (W : 'M[F]_n) rho : (forall i j, 0 <= W i j) -> (forall i, \sum_j W i j <= 1) -> `|rho| < 1 ->
  0 < \det (1%:M - rho *: W).
Proof.
move=> W0 W1 Hr; rewrite ltNge; apply/negP => D.
set p := \det (1%:M - 'X *: map_mx polyC W).
have P0 : p.[0] = 1 by rewrite det_poly scale0r subr0 det1.
have R0 z : `|z| < 1 -> ~~ root p z.
  by move=> Hz; have := dominance W0 W1 Hz; rewrite unitmxE /root det_poly unitfE.
have [r0|r0] := lerP rho 0.
- have Hs : p.[rho] <= 0 <= p.[0] by rewrite P0 ler01 andbT det_poly.
  have [z] := poly_ivt r0 Hs; case/andP => za zb; apply/negP/R0; apply: le_lt_trans Hr; by rewrite ler0_norm // ler0_norm // ler_opp2.
- have Hs : (- p).[0] <= 0 <= (- p).[rho] by rewrite !hornerN P0 oppr_le0 ler01 oppr_ge0 det_poly.
  have [z] := poly_ivt (ltW r0) Hs; rewrite rootN; case/andP => za zb; apply/negP/R0; apply: le_lt_trans Hr; by rewrite ger0_norm // gtr0_norm.
Qed.
End Alg.

Lemma det_charpoly (F : fieldType) n (W : 'M[F]_n) (s : seq F) rho :
  char_poly W = \prod_(e <- s) ('X - e%:P) -> \det (1%:M - rho *: W) = \prod_(e <- s) (1 - rho * e).
Proof.
move=> H.
have Sz : size s = n by have := congr1 (fun p : {poly F} => size p) H; rewrite size_char_poly size_prod_XsubC => -[].
have [->|r0] := eqVneq rho 0.
  by rewrite scale0r subr0 det1 big1 // => e _; rewrite mul0r subr0.
have E : \det (1%:M - rho *: W) = rho ^+ n * (char_poly W).[rho^-1].
  have -> : 1%:M - rho *: W = rho *: (rho^-1%:M - W) by rewrite scalerBr scale_scalar_mx divff.
  rewrite detZ; congr (_ * _); rewrite /char_poly -horner_evalE -det_map_mx; congr (\det _); apply/matrixP => i j.
  by rewrite [RHS]mxE [RHS]horner_evalE !mxE hornerD hornerN hornerC hornerMn hornerX.
rewrite E H horner_prod -Sz; elim: (s) => [|e l IH]; first by rewrite !big_nil mulr1.
by rewrite !big_cons -IH /= exprS hornerXsubC -!mulrA [rho ^+ _ * _]mulrCA !mulrA mulrBr divff.
Qed.

Lemma det_LU (F : realFieldType) n (A L U : 'M[F]_n) (s t : 'S_n) :
  perm_mx s *m A *m perm_mx t = L *m U -> (forall i, L i i = 1) -> is_trig_mx L -> is_trig_mx U^T ->
  `|\det A| = \prod_i `|U i i|.
Proof.
move=> H L1 HL HU.
have D : \det (perm_mx s *m A *m perm_mx t) = \prod_i U i i.
  rewrite H det_mulmx det_trig // -(det_tr U) det_trig // big1 ?mul1r => [|i _]; last exact: L1.
  by apply: eq_bigr => i _; rewrite mxE.
have := congr1 Num.norm D; rewrite !det_mulmx !det_perm normrM normrM !normrX normrN1 !expr1n mul1r mulr1 => ->.
by rewrite normr_prod.
Qed.

Lemma osum_log (I : Type) (l : seq I) (f : I -> R) : (forall i, 0 < f i) ->
  osum [seq np_log (f i) | i <- l] = Some (ln (\prod_(i <- l) f i)).
Proof.
move=> H; rewrite ln_prod //; elim: l => [|a l IH] /=; first by rewrite big_nil.
by rewrite /np_log H IH big_cons.
Qed.
Lemma osum_log_In (I : eqType) (l : seq I) (f : I -> R) : (forall i, i \in l -> 0 < f i) ->
  osum [seq np_log (f i) | i <- l] = Some (ln (\prod_(i <- l) f i)).
Proof.
elim: l => [|a l IH] H; first by rewrite big_nil ln1.
rewrite big_cons map_cons /= IH => [|i Hi]; last by apply: H; rewrite inE Hi orbT.
have Ha : 0 < f a by apply: H; rewrite inE eqxx.
rewrite /np_log Ha lnM // big_seq prodr_gt0 // => i Hi; apply: H; by rewrite inE Hi orbT.
Qed.

(** profile likelihood *)
Add Field Rf : (@p_ft R_realFieldType).
Lemma profile (n : nat) (S S' s : R) : (0 < n)%N -> 0 < S -> S <= S' -> 0 < s ->
  - (n%:R / 2%:R) * ln s - S' / (2%:R * s) <= - (n%:R / 2%:R) * ln (S / n%:R) - n%:R / 2%:R.
Proof.
move=> n0 S0 SS s0.
have N0 : 0 < n%:R :> R by rewrite ltr0n.
have T0 : 0 < S / n%:R / s by rewrite !divr_gt0.
have := ln_le_sub1 T0; rewrite lnM ?divr_gt0 ?invr_gt0 // lnV // => H.
have P2 : 0 < n%:R / 2%:R :> R by rewrite divr_gt0 // ltr0n.
have {}H : n%:R / 2%:R * (ln (S / n%:R) - ln s) <= n%:R / 2%:R * (S / n%:R / s - 1) by rewrite ler_pmul2l.
have E : n%:R / 2%:R * (S / n%:R / s - 1) = S / (2%:R * s) - n%:R / 2%:R.
  rewrite mulrBr mulr1; congr (_ - _); rewrite invfM.
  by rewrite !mulrA [_ * S]mulrC !mulrA -[S * n%:R * _ * _]mulrA [2%:R^-1 * _]mulrC !mulrA mulfK ?gt_eqF.
rewrite E in H.
have L : S / (2%:R * s) <= S' / (2%:R * s) by rewrite ler_pmul2r // invr_gt0 mulr_gt0 // ltr0n.
rewrite mulrBr in H; rewrite !mulNr -subr_ge0.
have -> : - (n%:R / 2%:R * ln (S / n%:R)) - n%:R / 2%:R - (- (n%:R / 2%:R * ln s) - S' / (2%:R * s)) =
   (S / (2%:R * s) - n%:R / 2%:R - (n%:R / 2%:R * ln (S / n%:R) - n%:R / 2%:R * ln s)) + (S' / (2%:R * s) - S / (2%:R * s)).
  move: (ln (S / _)) (ln s) (S / (_ * s)) (S' / _) (n%:R / 2%:R) => a b c d e.
  mring R_realFieldType.
by rewrite addr_ge0 // subr_ge0.
Qed.

Lemma ssqE n (e : 'cV[R]_n) : ssq e = utu_of e. Proof. by []. Qed.

Lemma half_eq (S N : R) : S != 0 -> N != 0 -> S / (2%:R * (S / N)) = N / 2%:R.
Proof. by move=> S0 N0; rewrite [2%:R * _]mulrC -[S / N * _]mulrA invfM mulrA divff // mul1r invfM invrK mulrC. Qed.

Lemma gl_eq n (jac : R) (e : 'cV[R]_n) : (0 < n)%N -> 0 < ssq e -> 0 < jac ->
  gauss_loglik jac e (ssq e / n%:R) =
  - (n%:R / 2%:R * ln (ssq e / n%:R) - ln jac) - n%:R / 2%:R * ln (2%:R * PI) - n%:R / 2%:R.
Proof.
move=> n0 S0 J0; rewrite /gauss_loglik gtr0_norm //.
have N0 : n%:R != 0 :> R by rewrite pnatr_eq0 -lt0n.
rewrite half_eq //; last by rewrite gt_eqF.
move: (ln (ssq e / _)) (ln jac) (ln (_ * PI)) (n%:R / 2%:R) => a b c d.
mring R_realFieldType.
Qed.

Lemma gl_le n (jac s : R) (e e' : 'cV[R]_n) : (0 < n)%N -> 0 < ssq e -> ssq e <= ssq e' -> 0 < s ->
  gauss_loglik jac e' s <= gauss_loglik jac e (ssq e / n%:R).
Proof.
move=> n0 S0 SS s0; rewrite /gauss_loglik.
have := profile n0 S0 SS s0.
have N0 : n%:R != 0 :> R by rewrite pnatr_eq0 -lt0n.
rewrite half_eq //; last by rewrite gt_eqF.
move: (ln s) (ln (ssq e / _)) (ln (2%:R * _)) (ln _) (n%:R / 2%:R) (ssq e' / _) => a b c d f g.
rewrite -subr_ge0 -[in X in _ -> X]subr_ge0 => H; apply: le_trans H _.
rewrite le_eqVlt; apply/orP; left; apply/eqP; mring R_realFieldType.
Qed.

(** the concentrated pieces are the OLS fit of the filtered dependent variable *)
Lemma lag_aux_ols n k (y : 'cV[R]_n) (x : 'M[R]_(n, k)) (W : 'M[R]_n) ax rho : lag_aux_of y x W = Some ax ->
  exists o, [/\ base_ols ((1%:M - rho *: W) *m y) x RobNone None true = Some o, o_betas o = la_b0 ax - rho *: la_b1 ax
              & o_u o = la_e0 ax - rho *: la_e1 ax].
Proof.
rewrite /lag_aux_of /base_ols; case E: la_inv => [xi|//] [<-] /=; eexists; split; [reflexivity| |] => /=.
- by rewrite mulmxBl mul1mx -scalemxAl !mulmxBr -!scalemxAr.
- rewrite mulmxBl mul1mx -scalemxAl !mulmxBr -!scalemxAr scalerBr.
  by rewrite !opprD !opprK addrACA.
Qed.

Lemma lag_aux_fit n k (y : 'cV[R]_n) (x : 'M[R]_(n, k)) (W : 'M[R]_n) ax rho : lag_aux_of y x W = Some ax ->
  let b := la_b0 ax - rho *: la_b1 ax in let u := la_e0 ax - rho *: la_e1 ax in
  [/\ u = (1%:M - rho *: W) *m y - x *m b, x^T *m u = 0 &
      forall b', ssq ((1%:M - rho *: W) *m y - x *m b') = ssq u + ssq (x *m (b' - b))].
Proof.
move=> /(lag_aux_ols rho) [o [H Hb Hu]] b u; rewrite /b /u -Hb -Hu.
have [_ _ P U _] := ols_fields H; split.
- by rewrite U P.
- exact: ols_orth H.
- by move=> b'; rewrite !ssqE; exact: ols_min H.
Qed.
