(** C70: the conditional test for random effects; the clamps never apply. *)
From Coq Require Import Strings.String Ring Field.
From mathcomp Require Import all_ssreflect all_algebra.
From Verif Require Import Mring LinRegModel LinRegProofs LinRegProofs2 Kron BskModel BskTheorems BskTheorems2.
Set Implicit Arguments.
Unset Strict Implicit.
Unset Printing Implicit Defensive.
Import Order.TTheory GRing.Theory Num.Theory.
Local Open Scope ring_scope.

Section Frob.
Variables (R : realFieldType) (n : nat).
Add Field Rf : (@p_ft R).
Implicit Types (A B C : 'M[R]_n).
Definition fr A B : R := \tr (A *m B^T).
Lemma frS A : fr A A = \sum_i \sum_j A i j ^+ 2.
Proof. by apply: eq_bigr => i _; rewrite !mxE; apply: eq_bigr => j _; rewrite mxE expr2. Qed.
Lemma fr_ge0 A : 0 <= fr A A.
Proof. by rewrite frS; apply: sumr_ge0 => i _; apply: sumr_ge0 => j _; apply: sqr_ge0. Qed.
Lemma fr_eq0 A : fr A A = 0 -> A = 0.
Proof.
rewrite frS => /eqP; rewrite psumr_eq0 => [/allP H|i _]; last by apply: sumr_ge0 => j _; apply: sqr_ge0.
apply/matrixP => i j; rewrite mxE; move: (H i (mem_index_enum i)); rewrite /= psumr_eq0 => [/allP H2|j' _]; last exact: sqr_ge0.
by move: (H2 j (mem_index_enum j)); rewrite /= sqrf_eq0 => /eqP.
Qed.
Lemma frC A B : fr A B = fr B A.
Proof. by rewrite /fr -mxtrace_tr trmx_mul trmxK. Qed.
Lemma frDl A B C : fr (A + B) C = fr A C + fr B C. Proof. by rewrite /fr mulmxDl linearD. Qed.
Lemma frDr A B C : fr A (B + C) = fr A B + fr A C. Proof. by rewrite ![fr A _]frC frDl. Qed.
Lemma frZl a A B : fr (a *: A) B = a * fr A B. Proof. by rewrite /fr -scalemxAl linearZ. Qed.
Lemma frZr a A B : fr A (a *: B) = a * fr A B. Proof. by rewrite ![fr A _]frC frZl. Qed.
Lemma fr0 A : fr A 0 = 0. Proof. by rewrite /fr trmx0 mulmx0 linear0. Qed.
Lemma fr_cs A B : fr A B ^+ 2 <= fr A A * fr B B.
Proof.
case: (eqVneq (fr B B) 0) => [Z|nz]; first by rewrite (fr_eq0 Z) !fr0 expr0n mulr0.
have P : 0 < fr B B by rewrite lt_neqAle eq_sym nz fr_ge0.
have := fr_ge0 (fr B B *: A + (- fr A B) *: B).
rewrite !(frDl, frDr, frZl, frZr) (frC B A); move: (fr A A) (fr A B) (fr B B) P => a c b P.
have -> : b * (b * a + - c * c) + - c * (b * c + - c * b) = b * (a * b - c ^+ 2) by mring R.
by rewrite pmulr_rge0 // subr_ge0.
Qed.
(** determinant of the inner products of the identity and two symmetric matrices *)
Lemma gram3 P Q : let N := n%:R in let g := fr 1%:M P in let h := fr 1%:M Q in let c := fr P P in let e := fr Q Q in let d := fr P Q in
  0 <= N * c - g ^+ 2 /\ 0 <= N * e * c - N * d ^+ 2 - g ^+ 2 * e + 2%:R * g * h * d - h ^+ 2 * c.
Proof.
have tr1 : fr 1%:M 1%:M = n%:R :> R by rewrite /fr trmx1 mulmx1 mxtrace1.
move=> N g h c e d; split; first by rewrite subr_ge0 /N -tr1; apply: fr_cs.
case: (posnP n) => [Z|n0].
  have E (A B : 'M[R]_n) : fr A B = 0 by rewrite /fr /mxtrace big1 // => i _; have := ltn_ord i; by rewrite {2}Z.
  by rewrite /N /g /h /c /e /d !E Z !(mulr0, mul0r, subr0, addr0, oppr0, expr0n).
have N0 : (N : R) != 0 by rewrite pnatr_eq0 -lt0n.
have := fr_cs (P + (- (g / N)) *: 1%:M) (Q + (- (h / N)) *: 1%:M).
rewrite !(frDl, frDr, frZl, frZr) tr1 (frC P 1%:M) (frC Q 1%:M) -/g -/h -/c -/d -/e -/N.
have -> : d + - (h / N) * g + (- (g / N) * h + - (g / N) * (- (h / N) * N)) = (N * d - g * h) / N.
  by move: N0; move: (N) (d) (h) (g) => a b c' f /eqP N0; mfield R.
have -> : c + - (g / N) * g + (- (g / N) * g + - (g / N) * (- (g / N) * N)) = (N * c - g ^+ 2) / N.
  by move: N0; move: (N) (c) (g) => a b f /eqP N0; rewrite expr2; mfield R.
have -> : e + - (h / N) * h + (- (h / N) * h + - (h / N) * (- (h / N) * N)) = (N * e - h ^+ 2) / N.
  by move: N0; move: (N) (e) (h) => a b f /eqP N0; rewrite expr2; mfield R.
rewrite expr_div_n mulf_div -expr2 ler_pmul2r ?invr_gt0 ?exprn_gt0 ?ltr0n // -subr_ge0.
move: (N) (d) (h) (g) (c) (e) N0 (ltr0n R n : 0 < N = (0 < n)%N); rewrite n0 => {}N {}d {}h {}g {}c {}e _ N0.
have -> : (N * c - g ^+ 2) * (N * e - h ^+ 2) - (N * d - g * h) ^+ 2 =
  N * (N * e * c - N * d ^+ 2 - g ^+ 2 * e + 2%:R * g * h * d - h ^+ 2 * c) by rewrite -[2%:R]/(1 + 1); mring R.
by rewrite pmulr_rge0.
Qed.
Lemma id_den (a N e c d g h : R) : (a + 1) * N * e * c - N * d ^+ 2 - (a + 1) * g ^+ 2 * e + 2%:R * g * h * d - h ^+ 2 * c =
  (N * e * c - N * d ^+ 2 - g ^+ 2 * e + 2%:R * g * h * d - h ^+ 2 * c) + a * (e * (N * c - g ^+ 2)).
Proof. by move: (2%:R) => k; mring R. Qed.
Lemma id_den2 (t N s e c d g h : R) : t * N * s ^+ 2 * e * c - N * s ^+ 2 * d ^+ 2 - t * s ^+ 2 * e * g ^+ 2 + 2%:R * s ^+ 2 * g * h * d - s ^+ 2 * c * h ^+ 2 =
  s ^+ 2 * (t * N * e * c - N * d ^+ 2 - t * g ^+ 2 * e + 2%:R * g * h * d - h ^+ 2 * c).
Proof. by move: (2%:R) => k; mring R. Qed.
Lemma id_num (k t N s c g : R) : k * s ^+ 2 / t * (N * s ^+ 2 * c - s ^+ 2 * g ^+ 2) = (s ^+ 2) ^+ 2 * (k / t * (N * c - g ^+ 2)).
Proof. by move: (t^-1) => q; rewrite !expr2; mring R. Qed.
End Frob.

Section CondRE.
Variables (R : rcfType) (T n : nat) (W : 'M[R]_n).
Implicit Types (u : 'cV[R]_(T * n)).
(** B = I - lambda W *)
Variable lam : R.
Let B : 'M[R]_n := 1%:M - lam *: W.
Let BB : 'M[R]_n := B^T *m B.
Let S : 'M[R]_n := W^T *m B + B^T *m W.
Let M : 'M[R]_n := S *m invmx BB.
Let h := \tr BB.
Let d := \tr S.
Let e := \tr (BB *m BB).
Let g := \tr M.
Let c := \tr (M *m M).
Hypothesis UB : B \in unitmx.
Lemma inv_BB : invmx BB = invmx B *m invmx B^T.
Proof.
have UT : B^T \in unitmx by rewrite unitmx_tr.
have K : invmx B *m invmx B^T *m BB = 1%:M by rewrite /BB mulmxA mulmxKV // mulVmx.
by rewrite -[LHS]mul1mx -K mulmxK // unitmx_mul UT.
Qed.
Let P := (invmx B)^T *m S *m invmx B.
Let Q := B *m B^T.
Lemma gramP : [/\ fr 1%:M P = g, fr 1%:M Q = h, fr P P = c, fr Q Q = e & fr P Q = d].
Proof.
have UT : B^T \in unitmx by rewrite unitmx_tr.
have SS : S^T = S by rewrite /S linearD /= !trmx_mul !trmxK addrC.
have SP : P^T = P by rewrite /P !trmx_mul trmxK SS mulmxA.
have SQ : Q^T = Q by rewrite /Q trmx_mul trmxK.
have ME : M = S *m invmx B *m (invmx B)^T by rewrite /M inv_BB trmx_inv mulmxA.
split; rewrite /fr ?SP ?SQ ?mul1mx.
- by rewrite /P /g ME -mulmxA mxtrace_mulC.
- by rewrite /Q mxtrace_mulC.
- by rewrite /c ME /P -!mulmxA mxtrace_mulC -!mulmxA.
- by rewrite /Q /e /BB -!mulmxA mxtrace_mulC -!mulmxA.
- by rewrite /P /Q mulmxA mulmxKV // mxtrace_mulC trmx_inv mulmxA mulmxV // mul1mx.
Qed.
Lemma natr1' m : m%:R + 1 = m.+1%:R :> R. Proof. by rewrite -addn1 natrD. Qed.
Lemma sq_out (a b : R) : 0 <= a -> Num.sqrt (a ^+ 2 * b) = a * Num.sqrt b.
Proof. by move=> a0; rewrite sqrtrM ?sqr_ge0 // sqrtr_sqr ger0_norm. Qed.
Lemma unit_BB : BB \in unitmx.
Proof. by rewrite unitmx_mul unitmx_tr UB. Qed.
(** neither of the two numbers that are set to zero when negative is ever negative *)
Theorem C70_no_clamp : (0 < T)%N ->
  0 <= 2%:R / T%:R * (n%:R * c - g ^+ 2) /\ 0 <= T%:R * n%:R * e * c - n%:R * d ^+ 2 - T%:R * g ^+ 2 * e + 2%:R * g * h * d - h ^+ 2 * c.
Proof.
move=> T0; have [E1 E2 E3 E4 E5] := gramP.
have [] := gram3 P Q; rewrite E1 E2 E3 E4 E5 => G1 G2.
have Pe : 0 <= e by rewrite -E4 fr_ge0.
split; first by rewrite mulr_ge0 // divr_ge0 // ler0n.
have -> : T%:R * n%:R * e * c - n%:R * d ^+ 2 - T%:R * g ^+ 2 * e + 2%:R * g * h * d - h ^+ 2 * c =
  (n%:R * e * c - n%:R * d ^+ 2 - g ^+ 2 * e + 2%:R * g * h * d - h ^+ 2 * c) + T.-1%:R * (e * (n%:R * c - g ^+ 2)).
  by rewrite -id_den natr1' prednK.
by rewrite addr_ge0 // mulr_ge0 ?ler0n // mulr_ge0.
Qed.
(** the test for random effects that allows for spatial errors: score over its standard deviation, in Kronecker form *)
Theorem C70_conditional_effects : forall u, (0 < T)%N ->
  let s2 := qf u (kron 1%:M BB) / (n%:R * T%:R) in
  let score := qf u (kron (@ones R T) (BB *m BB)) / (2%:R * s2 ^+ 2) - h * (T%:R / (2%:R * s2)) in
  lmc_re W lam u = Some (score * Num.sqrt (2%:R * s2 ^+ 2 / T%:R * (n%:R * s2 ^+ 2 * c - s2 ^+ 2 * g ^+ 2)) /
    Num.sqrt (T%:R * n%:R * s2 ^+ 2 * e * c - n%:R * s2 ^+ 2 * d ^+ 2 - T%:R * s2 ^+ 2 * e * g ^+ 2 + 2%:R * s2 ^+ 2 * g * h * d - s2 ^+ 2 * c * h ^+ 2)).
Proof.
move=> u T0 s2 score; have [C1 C2] := C70_no_clamp T0.
have S2 : cr_sig2 W lam u = s2.
  rewrite /cr_sig2 /s2; congr (_ / _); rewrite qf_I /BB.
  have -> : \sum_t \sum_i cr_v W lam u t i ^+ 2 = \sum_t \sum_i (umat u *m B^T) t i * (umat u *m B^T) t i.
    apply: eq_bigr => t _; apply: eq_bigr => i _; rewrite expr2.
    suff -> : cr_v W lam u t i = (umat u *m B^T) t i by [].
    by rewrite !mxE; apply: eq_bigr => j _; rewrite !mxE mulrC.
  by rewrite !frobE !trmx_mul !trmxK !mulmxA.
have P2 : 0 <= s2.
  rewrite -S2 divr_ge0 ?mulr_ge0 ?ler0n //; apply: sumr_ge0 => t _; apply: sumr_ge0 => i _; exact: sqr_ge0.
rewrite /lmc_re (la_inv_unit unit_BB) S2 -[cr_BB W lam]/BB -[cr_WB W lam]/S -/M -/h -/d -/e -/g -/c.
rewrite !ltNge C1 C2 /= id_num id_den2 sq_out ?sqr_ge0 // sq_out //.
set den := Num.sqrt (_ - _); set tin := Num.sqrt (_ / _ * _).
have -> : - (T%:R / (2%:R * s2)) * h + 1 / (2%:R * s2 ^+ 2) * T%:R ^+ 2 * ((cs_mean u)^T *m (BB *m BB) *m cs_mean u) 0 0 = score.
  by rewrite /score qf_ones // addrC mul1r mulNr [h * _]mulrC -[_^-1 * _ * _]mulrA [_^-1 * _]mulrC.
congr Some; case: eqP => [->|_]; first by rewrite invr0 mulr0.
by rewrite mulrA.
Qed.
(** a zero denominator (reported as statistic zero) is met only with a zero numerator, when there are two periods and lambda is not degenerate *)
Theorem C70_zero_denominator : (1 < T)%N -> (0 < n)%N ->
  T%:R * n%:R * e * c - n%:R * d ^+ 2 - T%:R * g ^+ 2 * e + 2%:R * g * h * d - h ^+ 2 * c = 0 -> n%:R * c - g ^+ 2 = 0.
Proof.
move=> T1 n0; have [E1 E2 E3 E4 E5] := gramP.
have [] := gram3 P Q; rewrite E1 E2 E3 E4 E5 => G1 G2.
have e0 : 0 < e.
  rewrite lt_neqAle -E4 fr_ge0 andbT eq_sym; apply/eqP => /fr_eq0 Q0.
  have UQ : Q \in unitmx by rewrite unitmx_mul unitmx_tr UB.
  have := mulmxV UQ; rewrite Q0 mul0mx => /matrixP /(_ (Ordinal n0) (Ordinal n0)); rewrite !mxE eqxx => /eqP.
  by rewrite eq_sym oner_eq0.
rewrite -(prednK (ltnW T1)) -natr1' id_den => /eqP; rewrite paddr_eq0 //; last by rewrite mulr_ge0 ?ler0n // mulr_ge0 // ltW.
by case/andP=> _; rewrite !mulf_eq0 pnatr_eq0 (gt_eqF e0) /=; case: (T) T1 => [|[|m]] //= _ /eqP.
Qed.
End CondRE.

(** * p-values *)
Section P.
Variables (R : rcfType) (c2cdf : nat -> R -> R).
Theorem C70_joint_p_range : forall a b : R, (forall k x, 0 <= c2cdf k x <= 1) -> 0 <= (lm_joint c2cdf a b).2 <= 1.
Proof.
move=> a b H; have Q k x : 0 <= 1 - c2cdf k x <= 1 by case/andP: (H k x) => H1 H2; rewrite subr_ge0 H2 ler_subl_addr ler_addl.
have h2 : 0 <= 1 / 2%:R :> R by rewrite divr_ge0 ?ler01 ?ler0n.
have h4 : 0 <= 1 / 4%:R :> R by rewrite divr_ge0 ?ler01 ?ler0n.
have L2 : 1 / 2%:R <= 1 :> R by rewrite ler_pdivr_mulr ?ltr0n // mul1r ler1n.
have L4 : 1 / 2%:R + 1 / 4%:R <= 1 :> R.
  by rewrite [X in _ <= X]splitr ler_add2l !div1r lef_pinv ?posrE ?ltr0n // ler_nat.
have P1 x : 0 <= 1 / 2%:R * (1 - c2cdf 1 x) <= 1 / 2%:R.
  by case/andP: (Q 1%N x) => q1 q2; rewrite mulr_ge0 //= -[X in _ <= X]mulr1 ler_wpmul2l.
have P2 x : 0 <= 1 / 4%:R * (1 - c2cdf 2 x) <= 1 / 4%:R.
  by case/andP: (Q 2%N x) => q1 q2; rewrite mulr_ge0 //= -[X in _ <= X]mulr1 ler_wpmul2l.
rewrite /lm_joint; case: ifP => _ /=.
  by case/andP: (P1 (a ^+ 2 + b ^+ 2)) => p1 p2; case/andP: (P2 (a ^+ 2 + b ^+ 2)) => p3 p4; rewrite addr_ge0 //= (le_trans (ler_add p2 p4)).
case: ifP => _ /=; first by case/andP: (P1 (a ^+ 2)) => -> p2 /=; rewrite (le_trans p2).
case: ifP => _ /=; first by case/andP: (P1 (b ^+ 2)) => -> p2 /=; rewrite (le_trans p2).
by rewrite ler01 lexx.
Qed.
(** the reference distribution 1/4 chi2(0) + 1/2 chi2(1) + 1/4 chi2(2) is used only when both marginal statistics are positive *)
(* partial; missing: the case of one statistic that is not positive (C70_joint_p_refuted) *)
Theorem C70_joint_p_partial : forall a b : R, 0 < a -> 0 < b -> let j := lm_joint c2cdf a b in
  j.2 = (1 - c2cdf 1 j.1) / 2%:R + (1 - c2cdf 2 j.1) / 4%:R.
Proof. by move=> a b a0 b0; rewrite /lm_joint a0 b0 /= !div1r ![_^-1 * _]mulrC. Qed.
(** two joint statistics that are equal can have different p-values *)
Theorem C70_joint_p_refuted : c2cdf 2 (25%:R) <> 1 -> exists a b a' b' : R,
  (lm_joint c2cdf a b).1 = (lm_joint c2cdf a' b').1 /\ (lm_joint c2cdf a b).2 <> (lm_joint c2cdf a' b').2.
Proof.
move=> H; exists 3%:R, 4%:R, 5%:R, (- 1); have p3 : 0 < 3%:R :> R by rewrite ltr0n.
have p4 : 0 < 4%:R :> R by rewrite ltr0n.
have p5 : 0 < 5%:R :> R by rewrite ltr0n.
have E1 : (3%:R : R) ^+ 2 + 4%:R ^+ 2 = 25%:R by rewrite -!natrX -natrD.
have E2 : (5%:R : R) ^+ 2 = 25%:R by rewrite -natrX.
rewrite /lm_joint p3 p4 p5 oppr_gt0 ltr10 /= oppr_le0 ler01 /= E1 E2; split=> // /eqP.
rewrite -subr_eq0 addrAC subrr add0r mulf_eq0 div1r invr_eq0 pnatr_eq0 /= subr_eq0 => /eqP K; exact: H.
Qed.
End P.
(** with W = 0 one can read off the statistic: B = I *)
Theorem C70_example : forall (R : rcfType), exists (W : 'M[R]_2) (u : 'cV[R]_(2 * 2)), (1%:M - 0 *: W \in unitmx) /\ lmc_re W 0 u <> None /\ u <> 0 /\ W <> 0.
Proof.
move=> R; exists (const_mx 1), (const_mx 1); have U : 1%:M - 0 *: (const_mx 1 : 'M[R]_2) \in unitmx by rewrite scale0r subr0 unitmx1.
split=> //; split; first by rewrite (C70_conditional_effects U).
by split=> /matrixP /(_ 0 0); rewrite !mxE => /eqP; rewrite oner_eq0.
Qed.
