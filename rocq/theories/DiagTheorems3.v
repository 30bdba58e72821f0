(** C77: variance inflation factors and the multicollinearity condition index. *)
From Coq Require Import Ring Field.
From mathcomp Require Import all_ssreflect all_algebra.
From Verif Require Import Mring LinRegModel LinRegProofs LinRegProofs2 LinRegProofs3 LinRegTheorems DiagModel DiagProofs.
Set Implicit Arguments.
Unset Strict Implicit.
Unset Printing Implicit Defensive.
Import Order.TTheory GRing.Theory Num.Theory.
Local Open Scope ring_scope.

Section Vif.
Variables (R : realFieldType) (n k : nat).
Implicit Types (x : 'M[R]_(n, k.+1)).
(** coefficients 1 on column j and - b on the others *)
Definition own (j : 'I_k.+1) (b : 'cV[R]_k) : 'cV[R]_k.+1 := \col_i (if unlift j i is Some i' then - b i' 0 else 1).
Lemma own_mul x j b : x *m own j b = col j x - col' j x *m b.
Proof.
apply/colP => i; rewrite !mxE (bigD1_ord j) //= mxE unlift_none mulr1 -sumrN; congr (_ + _).
by apply: eq_bigr => r _; rewrite !mxE liftK mulrN.
Qed.
Lemma aux_inv x j o : x^T *m x \in unitmx -> base_ols (col j x) (col' j x) RobNone None true = Some o ->
  utu_of (o_u o) * invmx (x^T *m x) j j = 1.
Proof.
move=> U E; have [_ _ Ep Eu _] := ols_fields E; have orth := ols_orth E.
have uE : o_u o = x *m own j (o_betas o) by rewrite own_mul Eu Ep.
have xu : x^T *m o_u o = utu_of (o_u o) *: delta_mx j 0.
{ apply/colP => i; rewrite !mxE andbT; case: (unliftP j i) => [i'|] ->.
  - have /colP/(_ i') := orth; rewrite !mxE eq_sym (negbTE (neq_lift j i')) mulr0 => {2}<-; apply: eq_bigr => r _; by rewrite !mxE.
  - rewrite eqxx mulr1 utuE {2}Eu Ep linearB /= mulmxBl trmx_mul -mulmxA orth mulmx0 subr0 !mxE.
    by apply: eq_bigr => r _; rewrite !mxE. }
have : own j (o_betas o) = utu_of (o_u o) *: (invmx (x^T *m x) *m delta_mx j 0).
{ by rewrite scalemxAr -xu uE mulmxA mulKmx. }
move/colP/(_ j); rewrite -colE !mxE unlift_none => <-. by [].
Qed.
Lemma aux_Some x j : x^T *m x \in unitmx -> exists o, base_ols (col j x) (col' j x) RobNone None true = Some o.
Proof.
move/gram_unit => U; have V : (col' j x)^T *m col' j x \in unitmx.
{ apply/gram_unit => c H; have := U (- (own j c - delta_mx j 0)).
  rewrite mulmxN mulmxBr own_mul -colE H subr0 subrr oppr0 => /(_ erefl)/colP O.
  apply/colP => i; have := O (lift j i); rewrite !mxE liftK eq_sym (negbTE (neq_lift j i)) /= subr0 opprK. by []. }
by rewrite ols_Some //; eexists.
Qed.
End Vif.

(** the variance inflation factor of regressor j: total variation of the regressor times the j-th diagonal entry of (X'X)^-1; the
    tolerance is its inverse; the marker for missing appears exactly for constant regressors; nothing can fail when X'X is invertible *)
Theorem C77_vif : forall (R : realFieldType) n k (x : 'M[R]_(n, k.+1)) j, x^T *m x \in unitmx ->
  let ss := \sum_i (x i j - (\sum_r x r j) / n%:R) ^+ 2 in
  vif_j x j = DOk (if ss == 0 then None else Some (ss * invmx (x^T *m x) j j, (ss * invmx (x^T *m x) j j)^-1)) /\
  (0 < ss -> 0 < ss * invmx (x^T *m x) j j).
Proof.
move=> R n k x j U ss; have [o E] := aux_Some j U; rewrite /vif_j E.
have ssE : \sum_i (col j x i 0 - mean_of (col j x)) ^+ 2 = ss.
{ apply: eq_bigr => i _; rewrite mxE; congr ((_ - _ / _) ^+ 2); apply: eq_bigr => r _; by rewrite mxE. }
rewrite ssE; have H := aux_inv U E; set v := invmx _ j j in H *; set t := utu_of _ in H *.
have t0 : t != 0 by apply/eqP => t0; move: H; rewrite t0 mul0r => /eqP; rewrite eq_sym oner_eq0.
have tv : t = v^-1 by apply: (mulIf (x := v)); [apply/eqP => v0; move: H; rewrite v0 mulr0 => /eqP; rewrite eq_sym oner_eq0|rewrite H mulVf //; apply/eqP => v0; move: H; rewrite v0 mulr0 => /eqP; rewrite eq_sym oner_eq0].
split.
- case: ifP => // /negbT s0; have -> : 1 - (1 - t / ss) = t / ss by rewrite opprB addrC subrK.
  by rewrite div1r tv; congr (DOk (Some (_, _))); rewrite ?invfM ?invrK mulrC.
- move=> s0; rewrite mulr_gt0 // -invr_gt0 -tv lt_neqAle eq_sym t0 utu_ge0. by [].
Qed.

(** the constant regressors are the ones without variation *)
Theorem C77_missing_iff_constant : forall (R : realFieldType) n k (x : 'M[R]_(n, k.+1)) j, x^T *m x \in unitmx ->
  vif_j x j = DOk None <-> (forall i i', x i j = x i' j).
Proof.
move=> R n k x j U; have [-> _] := C77_vif j U; set ss := \sum_i _.
have ssE : ss = tss (col j x).
{ apply: eq_bigr => i _; rewrite mxE; congr ((_ - _ / _) ^+ 2); apply: eq_bigr => r _; by rewrite mxE. }
split.
- case: eqP => // s0 _ i i'; apply/eqP/negPn/negP => ne.
  have /tss_gt0 : exists i j0, col j x i 0 != col j x j0 0 by exists i, i'; rewrite !mxE.
  by rewrite -ssE s0 ltxx.
- move=> H; suff -> : ss = 0 by rewrite eqxx.
  rewrite ssE /tss big1 // => i _.
  have n0 : (0 < n)%N by apply: leq_ltn_trans (ltn_ord i).
  have -> : col j x = const_mx (x i j) by apply/colP => r; rewrite !mxE.
  by rewrite mean_const // mxE subrr expr0n.
Qed.

(** with the constant among the other regressors, the factor is at least 1, with equality exactly when the centred regressor is
    orthogonal to all the others *)
Theorem C77_vif_ge1 : forall (R : realFieldType) n k (x : 'M[R]_(n, k.+1)) j v t (c : 'cV[R]_k),
  x^T *m x \in unitmx -> col' j x *m c = const_mx 1 -> vif_j x j = DOk (Some (v, t)) ->
  [/\ 1 <= v, 0 < t <= 1, t = v^-1 &
      v = 1 <-> forall j', j' != j -> \sum_i (x i j - (\sum_r x r j) / n%:R) * x i j' = 0].
Proof.
move=> R n k x j v t c U hc; have [o E] := aux_Some j U; have [vE pos] := C77_vif j U; rewrite vE; move: vE pos; set ss := \sum_i _.
case: eqP => // /eqP s0 _ pos [<- <-].
have ssE : ss = tss (col j x).
{ apply: eq_bigr => i _; rewrite mxE; congr ((_ - _ / _) ^+ 2); apply: eq_bigr => r _; by rewrite mxE. }
have sp : 0 < ss by rewrite lt_neqAle eq_sym s0 ssE tss_ge0.
have H := aux_inv U E; set w := invmx _ j j in H pos *; set q := utu_of _ in H *.
have q0 : q != 0 by apply/eqP => t0; move: H; rewrite t0 mul0r => /eqP; rewrite eq_sym oner_eq0.
have qp : 0 < q by rewrite lt_neqAle eq_sym q0 utu_ge0.
have wq : w = q^-1 by apply: (mulfI q0); rewrite H mulfV.
have D := ols_decomp E hc.
have qs : q <= ss by rewrite ssE D ler_addr sumr_ge0 // => i _; exact: sqr_ge0.
have v1 : 1 <= ss * w by rewrite wq ler_pdivl_mulr // mul1r.
have vp : 0 < ss * w := lt_le_trans ltr01 v1.
split=> //; first by rewrite invr_gt0 vp invf_le1.
have [_ Ey Ep Eu _] := ols_fields E.
have mE : mean_of (col j x) = (\sum_r x r j) / n%:R by rewrite /mean_of; congr (_ / _); apply: eq_bigr => r _; rewrite mxE.
split.
- move=> v1'; have qss : q = ss by rewrite -[q]mul1r -v1' wq divfK.
  have P0 : o_predy o - const_mx (mean_of (col j x)) = 0.
  { apply/eqP; rewrite -utu_eq0; move: D; rewrite -/(tss _) -ssE -qss -[X in X = _]add0r => /addIr ->; apply/eqP.
    by apply: eq_bigr => i _; rewrite !mxE. }
  move=> j' ne; have := ols_orth E; rewrite Eu -[o_predy o](subrK (const_mx (mean_of (col j x)))) P0 add0r => O.
  case: (unliftP j j') ne => [i' ->|->]; last by rewrite eqxx.
  move=> _; have /colP/(_ i') := O; rewrite !mxE => W; rewrite -[RHS]W; apply: eq_bigr => i _; by rewrite !mxE mE mulrC.
- move=> O; have bE : mean_of (col j x) *: c = o_betas o.
  { apply: (ols_unique E); apply/eqP; rewrite -subr_eq0 -mulmxA -mulmxBr -scalemxAr hc -oppr_eq0 -mulmxN opprB; apply/eqP/colP => i'.
    rewrite !mxE -[RHS](O (lift j i')); last by rewrite eq_sym neq_lift.
    by apply: eq_bigr => i _; rewrite !mxE mulr1 mE mulrC. }
  have qss : q = ss.
  { rewrite /q ssE tssE Eu Ep -bE -scalemxAr hc; congr utu_of; congr (_ - _); by apply/matrixP => a b; rewrite !mxE mulr1. }
  by rewrite wq qss mulfV.
Qed.

(** what is inflated: the classical variance of the coefficient is s^2 / (variation of the regressor) times the factor *)
Theorem C77_vif_variance : forall (R : realFieldType) n k (y : 'cV[R]_n) (x : 'M[R]_(n, k.+1)) s o j v t,
  base_ols y x RobNone None s = Some o -> vif_j x j = DOk (Some (v, t)) ->
  o_vm o j j = o_sig2 o / (\sum_i (x i j - (\sum_r x r j) / n%:R) ^+ 2) * v.
Proof.
move=> R n k y x s o j v t H; have U := ols_gram H; have [-> _] := C77_vif j U; case: eqP => // /eqP s0 [<- _].
rewrite mulrA -[o_sig2 o / _ * _]mulrA mulVf // mulr1.
by move: H; rewrite /base_ols la_inv_unit // => -[<-] /=; rewrite mxE.
Qed.

(** units and origin of the regressor, and any non-singular recombination of the other regressors, do not matter *)
Theorem C77_vif_invariant : forall (R : realFieldType) n k (x x' : 'M[R]_(n, k.+1)) j a b (B : 'M[R]_k) (c : 'cV[R]_k),
  (0 < n)%N -> a != 0 -> B \in unitmx -> col' j x *m c = const_mx 1 ->
  col j x' = a *: col j x + const_mx b -> col' j x' = col' j x *m B ->
  vif_j x' j = vif_j x j.
Proof.
move=> R n k x x' j a b B c n0 a0 UB hc cE c'E; rewrite /vif_j.
case E: (base_ols (col j x) _ _ _ _) => [o|]; last first.
{ have -> // : base_ols (col j x') (col' j x') RobNone None true = None.
  move: E; rewrite /base_ols /la_inv; case: ifP => // /negP U _; case: ifP => // /gram_unit V; case: U; apply/gram_unit => e he.
  have := V (invmx B *m e); rewrite c'E mulmxA mulmxK // he => /(_ erefl) H; by rewrite -[e](mulKVmx UB) H mulmx0. }
have U := ols_gram E.
have U' : (col' j x')^T *m col' j x' \in unitmx.
{ by rewrite c'E gram_recomb !mulmx_unitE // unitmx_tr. }
have E' := ols_Some (col j x') RobNone None true U'; move: E'; set o' := ols_of_xtxi _ _ _ _ _ _ => E'; rewrite E'.
have [_ _ Ep Eu _] := ols_fields E; have [_ _ Ep' Eu' _] := ols_fields E'.
have b1 : b *: const_mx 1 = const_mx b :> 'cV[R]_n by apply/matrixP => p q; rewrite !mxE mulr1.
have pE : col' j x' *m (invmx B *m (a *: o_betas o + b *: c)) = a *: o_predy o + const_mx b.
{ by rewrite c'E mulmxA mulmxK // mulmxDr -!scalemxAr hc -Ep b1. }
have rE : col j x' - (a *: o_predy o + const_mx b) = a *: o_u o.
{ by rewrite cE opprD addrACA subrr addr0 -scalerBr -Eu. }
have bE : invmx B *m (a *: o_betas o + b *: c) = o_betas o'.
{ apply: (ols_unique E'); apply/eqP; rewrite -subr_eq0 -oppr_eq0 opprB -mulmxA pE -mulmxBr rE -scalemxAr c'E trmx_mul -mulmxA (ols_orth E) mulmx0 scaler0. by []. }
have uE : o_u o' = a *: o_u o by rewrite Eu' Ep' -bE pE.
have tE : \sum_i (col j x' i 0 - mean_of (col j x')) ^+ 2 = a ^+ 2 * \sum_i (col j x i 0 - mean_of (col j x)) ^+ 2.
{ have mE : mean_of (col j x') = a * mean_of (col j x) + b.
  { rewrite cE /mean_of; under eq_bigr do rewrite mxE mxE [const_mx b _ _]mxE; rewrite big_split /= -mulr_sumr sumr_const card_ord mulrDl mulrA; congr (_ + _).
    by rewrite -[b *+ n]mulr_natr mulfK // pnatr_eq0 -lt0n. }
  rewrite mulr_sumr; apply: eq_bigr => i _; rewrite mE cE mxE mxE [const_mx b _ _]mxE opprD addrACA subrr addr0 -mulrBr exprMn. by []. }
have a2 : a ^+ 2 != 0 by rewrite sqrf_eq0.
rewrite tE mulf_eq0 (negbTE a2) /=; case: ifP => // s0.
have -> : utu_of (o_u o') = a ^+ 2 * utu_of (o_u o).
{ rewrite uE /utu_of mulr_sumr; apply: eq_bigr => i _; by rewrite mxE exprMn. }
have -> // : forall p q : R, a ^+ 2 * p / (a ^+ 2 * q) = p / q by move=> p q; rewrite invfM mulrACA mulfV // mul1r.
Qed.

(** * condition index *)
Section Ci.
Variables (R : realFieldType) (n k : nat).
Implicit Types (x : 'M[R]_(n, k)).
Lemma diag_gt0 x j : x^T *m x \in unitmx -> 0 < (x^T *m x) j j.
Proof.
move/gram_unit => U; have -> : (x^T *m x) j j = utu_of (col j x) by rewrite mxE; apply: eq_bigr => i _; rewrite !mxE expr2.
rewrite lt_neqAle utu_ge0 andbT eq_sym; apply/eqP => /eqP; rewrite utu_eq0 => /eqP; rewrite colE => /U/colP/(_ j); rewrite !mxE !eqxx => /eqP; by rewrite oner_eq0.
Qed.
End Ci.

(** the eigenvalues compared by the condition index are positive and at most k *)
Theorem C77_ci_eigenvalues : forall (R : realFieldType) n k (x : 'M[R]_(n, k)) (l : R) (v : 'cV[R]_k),
  x^T *m x \in unitmx -> v != 0 -> ci_scale x *m v = l *: v -> 0 < l <= k%:R.
Proof.
move=> R n k x l v U v0 H.
pose d j := (x^T *m x) j j; have dp j : 0 < d j := diag_gt0 j U.
pose w : 'cV[R]_k := \col_j (v j 0 / d j).
have w0 : w != 0.
{ apply: contra v0 => /eqP/colP W; apply/eqP/colP => j; have := W j; rewrite !mxE => /eqP; rewrite mulf_eq0 invr_eq0 (gt_eqF (dp j)) orbF => /eqP. by []. }
have GW : x^T *m x *m w = \col_j (l * (d j * w j 0)).
{ apply/colP => i; rewrite [RHS]mxE [w i 0]mxE mulrC [d i * _]mulrC divfK ?gt_eqF // [RHS]mulrC; have /colP/(_ i) := H; rewrite [in RHS]mxE => <-.
  rewrite !mxE; apply: eq_bigr => j _; rewrite [w j 0]mxE [ci_scale x i j]mxE -/(d j) mulrAC mulrA; by rewrite mulrAC. }
have Q : utu_of (x *m w) = l * \sum_j d j * w j 0 ^+ 2.
{ rewrite utuE trmx_mul mulmxA -[w^T *m x^T *m x]mulmxA -mulmxA GW mxE mulr_sumr; apply: eq_bigr => j _; rewrite !mxE expr2.
  by rewrite mulrCA; congr (_ * _); rewrite mulrCA. }
have S0 : 0 < \sum_j d j * w j 0 ^+ 2.
{ have [j wj] : exists j, w j 0 != 0.
  { apply/existsP; apply: contraR w0 => /existsPn W; apply/eqP/colP => j; rewrite [RHS]mxE; by have := W j; rewrite negbK => /eqP. }
  rewrite (bigD1 j) //=; apply: ltr_paddr; last by rewrite mulr_gt0 // exprn_even_gt0.
  apply: sumr_ge0 => i _; by rewrite mulr_ge0 ?sqr_ge0 // ltW. }
have Q0 : 0 < utu_of (x *m w).
{ rewrite lt_neqAle utu_ge0 andbT eq_sym utu_eq0; apply: contra w0 => /eqP E; apply/eqP; by have /gram_unit := U; apply. }
have lp : 0 < l by move: Q0; rewrite Q pmulr_lgt0.
rewrite lp /= -(ler_pmul2r S0) -Q.
have cs : forall (m : nat) (a : 'I_m -> R), (\sum_j a j) ^+ 2 <= m%:R * \sum_j a j ^+ 2.
{ case=> [|m] a; first by rewrite !big_ord0 expr0n mulr0.
  set s := \sum_j a j; set t := \sum_j _; have m0 : 0 < m.+1%:R :> R by rewrite ltr0n.
  rewrite -subr_ge0 -(pmulr_rge0 _ m0); have -> : m.+1%:R * (m.+1%:R * t - s ^+ 2) = \sum_j (m.+1%:R * a j - s) ^+ 2.
  { under [RHS]eq_bigr => j _ do rewrite sqrrB exprMn; rewrite big_split big_split /= sumr_const card_ord -mulr_sumr -/t sumrN.
    have -> : \sum_(i < m.+1) m.+1%:R * a i * s *+ 2 = m.+1%:R * s ^+ 2 *+ 2.
    { rewrite sumrMnl; congr (_ *+ 2); by rewrite -mulr_suml -mulr_sumr expr2 mulrA. }
    rewrite -[s ^+ 2 *+ m.+1]mulr_natl mulrBr mulrA -[m.+1%:R * m.+1%:R]expr2 -addrA; congr (_ + _); by rewrite mulr2n opprD addrNK. }
  by apply: sumr_ge0 => j _; exact: sqr_ge0. }
rewrite /utu_of; under eq_bigr do rewrite mxE.
apply: (le_trans (ler_sum _ (fun i _ => cs k _))); rewrite -mulr_sumr ler_wpmul2l ?ler0n // exchange_big /=.
rewrite le_eqVlt; apply/orP; left; apply/eqP; apply: eq_bigr => j _; move: (w j 0) => wj; rewrite /d mxE mulr_suml; apply: eq_bigr => i _.
by rewrite !mxE exprMn [x i j ^+ 2]expr2.
Qed.

(** the units of the regressors do not change these eigenvalues, hence not the condition index *)
Theorem C77_ci_units : forall (R : realFieldType) n k (x : 'M[R]_(n, k)) (d : 'rV[R]_k) (l : R),
  (forall j, d 0 j != 0) -> (forall j, exists i, x i j != 0) ->
  let x' := x *m diag_mx d in
  (exists2 v : 'cV[R]_k, v != 0 & ci_scale x' *m v = l *: v) <-> (exists2 v : 'cV[R]_k, v != 0 & ci_scale x *m v = l *: v).
Proof.
move=> R n k x d l d0 x0 x'.
have gen : forall (x x' : 'M[R]_(n, k)) (d : 'rV[R]_k), (forall j, d 0 j != 0) -> x' = x *m diag_mx d ->
  forall l, (exists2 v : 'cV[R]_k, v != 0 & ci_scale x' *m v = l *: v) -> (exists2 v : 'cV[R]_k, v != 0 & ci_scale x *m v = l *: v).
{ move=> {}x {x0} {}x' e e0 -> m [v v0 H].
  have S : forall i j, ci_scale (x *m diag_mx e) i j = e 0 i * ci_scale x i j / e 0 j.
  { move=> i j; rewrite [LHS]mxE [ci_scale x i j]mxE.
    have gE : forall i j, ((x *m diag_mx e)^T *m (x *m diag_mx e)) i j = e 0 i * (x^T *m x) i j * e 0 j.
    { move=> p q; rewrite !mxE mulr_sumr mulr_suml; apply: eq_bigr => r _; rewrite !mxE (bigD1 p) //= big1 => [|r' /negbTE nr]; last by rewrite !mxE nr mulr0.
      rewrite (bigD1 q) //= big1 => [|r' /negbTE nr]; last by rewrite !mxE nr mulr0.
      by rewrite !mxE !eqxx !addr0 !mulr1n [x r p * e 0 p]mulrC !mulrA. }
    rewrite !gE [e 0 j * _ * _]mulrAC !invfM. 
    by move: (e0 j) ((x^T *m x) i j) ((x^T *m x) j j) => ne g h; rewrite -[(e 0 j)^-1 / e 0 j / h]mulrA [e 0 i * g * _ * _]mulrA mulfK // [_^-1 * h^-1]mulrC !mulrA. }
  exists (\col_j (v j 0 / e 0 j)).
  - apply: contra v0 => /eqP/colP W; apply/eqP/colP => j; have := W j; rewrite !mxE => /eqP; by rewrite mulf_eq0 invr_eq0 (negbTE (e0 j)) orbF => /eqP.
  - apply/colP => i; apply: (mulfI (e0 i)); rewrite [RHS]mulrC [in RHS]mxE [in RHS]mxE -mulrA divfK //; have /colP/(_ i) := H; rewrite [in RHS]mxE => <-.
    rewrite !mxE mulr_sumr; apply: eq_bigr => j _; rewrite S mxE !mulrA; by rewrite [RHS]mulrAC. }
split; first by apply: (gen x x' d).
apply: (gen x' x (\row_j (d 0 j)^-1)) => [j|]; first by rewrite mxE invr_eq0.
rewrite -mulmxA mulmx_diag -[LHS]mulmx1; congr (_ *m _); apply/matrixP => i j; rewrite !mxE; by rewrite mulfV.
Qed.

(** orthogonal regressors: all eigenvalues 1 *)
Theorem C77_ci_orthogonal : forall (R : realFieldType) n k (x : 'M[R]_(n, k)),
  (forall i j, i != j -> \sum_r x r i * x r j = 0) -> (forall j, exists i, x i j != 0) -> ci_scale x = 1%:M.
Proof.
move=> R n k x O x0; apply/matrixP => i j; rewrite !mxE; case: (i =P j) => [->|/eqP ne].
- rewrite mulfV //; have [r xr] := x0 j; rewrite (bigD1 r) //= mxE -expr2; apply: lt0r_neq0; apply: ltr_paddr; last by rewrite exprn_even_gt0.
  by apply: sumr_ge0 => s _; rewrite mxE -expr2 sqr_ge0.
- under eq_bigr do rewrite mxE; by rewrite O // mul0r.
Qed.
