(** C54: the spatial LM statistics of a SUR when Sigma is diagonal. *)
From mathcomp Require Import all_ssreflect all_algebra.
From Verif Require Import LinRegModel LinRegProofs LinRegProofs2 LMModel SurModel SurTheorems.
Set Implicit Arguments.
Unset Strict Implicit.
Unset Printing Implicit Defensive.
Import Order.TTheory GRing.Theory Num.Theory.
Local Open Scope ring_scope.

(** ** Specification: the LM statistics of one equation, from its residuals e, its error variance s2, its regressors and its fitted values *)
Section Spec.
Variable R : realFieldType.
Definition inner n (a b : 'cV[R]_n) : R := \sum_i a i 0 * b i 0.
Definition traces n (W : 'M[R]_n) : R := \tr (W *m W) + \tr (W^T *m W).
Definition eq_lm_error n (W : 'M[R]_n) (e : 'cV[R]_n) (s2 : R) : R := (inner e (W *m e) / s2) ^+ 2 / traces W.
(** information of the lag parameter: traces + (W yhat)' M (W yhat) / s2, M the residual maker of x *)
Definition lag_info n k (W : 'M[R]_n) (x : 'M[R]_(n, k)) (yp : 'cV[R]_n) (s2 : R) : R :=
  traces W + inner (W *m yp) (W *m yp - x *m (invmx (x^T *m x) *m (x^T *m (W *m yp)))) / s2.
Definition eq_lm_lag n k (W : 'M[R]_n) (x : 'M[R]_(n, k)) (y e yp : 'cV[R]_n) (s2 : R) : R :=
  (inner e (W *m y) / s2) ^+ 2 / lag_info W x yp s2.
End Spec.

Section Diag.
Variables (R : realFieldType) (G n : nat).
Implicit Types (W : 'M[R]_n) (E Y : 'M[R]_(n, G)) (sig : 'M[R]_G).
Definition diagonal (A : 'M[R]_G) : Prop := forall i j, i != j -> A i j = 0.
Lemma inner_ent m1 q1 (A : 'M[R]_(n, m1)) (B : 'M[R]_(n, q1)) W (i : 'I_m1) (j : 'I_q1) : (A^T *m (W *m B)) i j = inner (col i A) (W *m col j B) :> R.
Proof. by rewrite mxE; apply: eq_bigr => l _; rewrite !mxE; congr (_ * _); apply: eq_bigr => h _; rewrite mxE. Qed.
Lemma dinv sig : sig \in unitmx -> diagonal sig -> diagonal (invmx sig) /\ forall j, sig j j != 0 /\ invmx sig j j = (sig j j)^-1.
Proof.
move=> U D; have DI := diag_inv U D; split=> // j.
have e : sig j j * invmx sig j j = 1.
  have : (sig *m invmx sig) j j = 1 by rewrite mulmxV // mxE eqxx.
  by rewrite mxE (bigD1 j) //= big1 ?addr0 // => l nl; rewrite D ?mul0r // eq_sym.
have s0 : sig j j != 0 by apply/eqP => z; move: e; rewrite z mul0r => /eqP; rewrite eq_sym oner_eq0.
by split=> //; apply: (mulfI s0); rewrite e divff.
Qed.
(** a diagonal matrix with diagonal d: its inverse and quadratic form *)
Lemma diag_quad (d : 'I_G -> R) (M : 'M[R]_G) (s : 'rV[R]_G) : (forall i j, M i j = if i == j then d i else 0) -> M \in unitmx ->
  (s *m invmx M *m s^T) 0 0 = \sum_j s 0 j ^+ 2 / d j.
Proof.
move=> MD U; have D : diagonal M by move=> i j ne; rewrite MD (negbTE ne).
have [DI DJ] := dinv U D.
rewrite mxE; apply: eq_bigr => j _; rewrite !mxE (bigD1 j) //= big1; last by move=> i ni; rewrite DI ?mulr0.
by case: (DJ j) => _ ->; rewrite MD eqxx addr0 expr2 mulrAC.
Qed.
Lemma diag_unit (d : 'I_G -> R) (M : 'M[R]_G) : (forall i j, M i j = if i == j then d i else 0) -> (M \in unitmx) <-> forall j, d j != 0.
Proof.
move=> MD; split=> [U j|nz].
  have D : diagonal M by move=> i l ne; rewrite MD (negbTE ne).
  by have := proj1 (proj2 (dinv U D) j); rewrite MD eqxx.
apply/unitmx_inj => c /matrixP Z; apply/matrixP => i k; rewrite ord1 [RHS]mxE.
have := Z i 0; rewrite !mxE (bigD1 i) //= big1; last by move=> j nj; rewrite MD eq_sym (negbTE nj) mul0r.
by rewrite MD eqxx addr0 => /eqP; rewrite mulf_eq0 (negbTE (nz i)) => /eqP.
Qed.
Lemma had_diag sig (A : 'M[R]_G) : sig \in unitmx -> diagonal sig -> forall i j, had (invmx sig) A i j = if i == j then A i i / sig i i else 0.
Proof.
move=> U D i j; have [DI DJ] := dinv U D; rewrite mxE; case: eqP => [<-|/eqP ne]; last by rewrite DI ?mul0r.
by rewrite (proj2 (DJ i)) mulrC.
Qed.
Lemma had_self sig : sig \in unitmx -> diagonal sig -> forall i j, had (invmx sig) sig i j = if i == j then 1 else 0.
Proof. by move=> U D i j; rewrite had_diag // divff //; case: (proj2 (dinv U D) i). Qed.

(** ** C54_error: with a diagonal Sigma, the LM error statistic of the system is the sum of those of its equations *)
Theorem C54_error : forall W E sig, diagonal sig ->
  (forall v, surLMe W E sig = Some v -> v = \sum_j eq_lm_error W (col j E) (sig j j)) /\
  ((exists v, surLMe W E sig = Some v) <-> sig \in unitmx /\ ((0 < G)%N -> traces W != 0)).
Proof.
move=> W E sig D; rewrite /surLMe.
have DE : sig \in unitmx -> forall i j, (\tr (W *m W) *: 1%:M + \tr (W^T *m W) *: had (invmx sig) sig) i j = if i == j then traces W else 0.
  move=> U i j; have := had_self U D i j; rewrite !mxE => ->; by case: eqP; rewrite ?mulr1 ?mulr0 ?addr0.
split.
  move=> v; case S: (la_inv sig) => [sigi|] //; case: (la_invP S) => U ->.
  case Q: (la_inv _) => [I|] //; case: (la_invP Q) => V -> [<-].
  rewrite (diag_quad _ (DE U) V); apply: eq_bigr => j _; rewrite /eq_lm_error; congr (_ ^+ 2 / _).
  rewrite mxE (bigD1 j) //= had_diag // eqxx big1 ?addr0; last by move=> i ni; rewrite had_diag // (negbTE ni).
  by rewrite inner_ent.
split.
  case=> v; case S: (la_inv sig) => [sigi|] //; case: (la_invP S) => U E1; rewrite E1 in S *.
  case Q: (la_inv _) => [I|] //; case: (la_invP Q) => V _ _; split=> // g.
  exact: (proj1 (diag_unit (DE U)) V (Ordinal g)).
case=> U nz; rewrite (la_inv_unit U) la_inv_unit; first by eexists.
by apply/(diag_unit (DE U)) => j; apply: nz; case: j => m; exact: leq_ltn_trans.
Qed.

Variable K : 'I_G -> nat.
Implicit Types (X : forall r, 'M[R]_(n, K r)).
(** ** C54_score: the score of equation j adds the residuals of every equation r, not only of equation j *)
Theorem C54_score : forall W Y E sig j, sig \in unitmx -> diagonal sig ->
  lag_score W Y E (invmx sig) 0 j = \sum_r inner (col r E) (W *m col j Y) / sig r r.
Proof.
move=> W Y E sig j U D; have [DI DJ] := dinv U D; rewrite mxE; apply: eq_bigr => r _.
rewrite mxE (bigD1 r) //= big1 ?addr0; last by move=> i ni; rewrite DI ?mul0r // eq_sym.
by rewrite (proj2 (DJ r)) inner_ent mulrC.
Qed.
Lemma lag_innerE W X (YP : 'M[R]_(n, G)) sig : sig \in unitmx -> diagonal sig ->
  (forall r, (X r)^T *m X r \in unitmx) -> xsigx (invmx sig) (crossXX X) \in unitmx ->
  forall i j, lag_inner W X YP sig (invmx sig) (invmx (xsigx (invmx sig) (crossXX X))) i j = if i == j then lag_info W (X i) (col i YP) (sig i i) else 0.
Proof.
move=> U D FR V i j; have [DI DJ] := dinv U D; rewrite /lag_inner.
set WYP := W *m YP; set bp := lag_bp X WYP (invmx sig).
pose Z : 'M[R]_(\sum_r K r, G) := \mxcol_r \matrix_(a, t) (if r == t then (invmx ((X r)^T *m X r) *m ((X r)^T *m col t WYP)) a 0 else 0).
have bpE : invmx (xsigx (invmx sig) (crossXX X)) *m bp = Z.
  apply: (canLR (mulKmx V)); symmetry; rewrite /Z /xsigx mxblockEv mxcol_mul /bp /lag_bp; apply: eq_mxcol => r; rewrite mul_mxrow_mxcol.
  rewrite (bigD1 r) //= big1 ?addr0; last by move=> t nt; rewrite DI ?scale0r ?mul0mx // eq_sym.
  set B := (X in _ *m X = _); apply/matrixP => a t; rewrite -scalemxAl mxE [RHS]mxE.
  have cB : col t B = if r == t then invmx ((X r)^T *m X r) *m ((X r)^T *m col t WYP) else 0.
    by apply/matrixP => c d; rewrite !mxE ord1; case: ifP; rewrite ?mxE.
  have cE m1 m2 m3 (P : 'M[R]_(m1, m2)) (Q : 'M[R]_(m2, m3)) a' t' : (P *m Q) a' t' = (P *m col t' Q) a' 0.
    by rewrite !mxE; apply: eq_bigr => l _; rewrite !mxE.
  rewrite cE cB [in RHS]cE; case: (eqVneq r t) => [<-|ne]; last by rewrite [invmx sig r t]DI // mul0r mulmx0 mxE mulr0.
  by congr (_ * _); rewrite /crossXX mulKVmx.
rewrite [LHS]mxE [X in X + _]mxE [X in X + _ + _]mxE.
have -> : (\tr (W *m W) *: 1%:M : 'M[R]_G) i j + (\tr (W^T *m W) *: had (invmx sig) sig) i j = if i == j then traces W else 0.
  have := had_self U D i j; rewrite !mxE => ->; by case: eqP; rewrite ?mulr1 ?mulr0 ?addr0.
rewrite had_diag // [X in _ + X]mxE -mulmxA bpE.
have -> : (bp^T *m Z) i j = if i == j then inner (col i WYP) (X i *m (invmx ((X i)^T *m X i) *m ((X i)^T *m col i WYP))) / sig i i else 0.
  rewrite /bp /lag_bp /Z tr_mxcol mul_mxrow_mxcol summxE (bigD1 i) //= big1 ?addr0; last first.
    by move=> r nr; rewrite mxE big1 // => a _; rewrite !mxE DI // !mul0r.
  rewrite mxE; case: (eqVneq i j) => [<-|ne]; last by rewrite big1 // => a _; rewrite [X in _ * X]mxE (negbTE ne) mulr0.
  rewrite (eq_bigr (fun a => (sig i i)^-1 * (((X i)^T *m col i WYP) a 0 * (invmx ((X i)^T *m X i) *m ((X i)^T *m col i WYP)) a 0))); last first.
    move=> a _; rewrite [X in _ * X]mxE eqxx; rewrite mxE [X in X * _]mxE (proj2 (DJ i)) -mulrA; congr (_ * (_ * _)).
    by rewrite !mxE; apply: eq_bigr => l _; rewrite !mxE.
  rewrite -mulr_sumr mulrC; congr (_ / _).
  set z := invmx _ *m _; rewrite -[LHS]/(inner _ _).
  have iE m (a b : 'cV[R]_m) : inner a b = (a^T *m b) 0 0 by rewrite mxE; apply: eq_bigr => l _; rewrite mxE.
  by rewrite !iE trmx_mul trmxK mulmxA.
case: (eqVneq i j) => [_|ne]; last by rewrite oppr0 !addr0.
rewrite /lag_info -addrA; congr (_ + _); rewrite -mulrBl; congr (_ / _).
have cw : col i WYP = W *m col i YP by rewrite /WYP !colE mulmxA.
rewrite -cw; set h := _ *m _.
rewrite [X in X - _](_ : _ = inner (col i WYP) (col i WYP)); last by rewrite mxE; apply: eq_bigr => l _; rewrite !mxE.
by rewrite /inner -sumrB; apply: eq_bigr => l _; rewrite !mxE mulrBr.
Qed.
(** ** C54_lag_partial: the value the code computes when Sigma is diagonal *)
(* partial; missing: the score adds the residuals of the other equations (C54_refuted) *)
Theorem C54_lag_partial : forall W Y X E YP sig, diagonal sig -> sig \in unitmx ->
  (forall r, (X r)^T *m X r \in unitmx) -> xsigx (invmx sig) (crossXX X) \in unitmx ->
  forall v, surLMlag W Y X E YP sig (invmx (xsigx (invmx sig) (crossXX X))) = Some v ->
  v = \sum_j (\sum_r inner (col r E) (W *m col j Y) / sig r r) ^+ 2 / lag_info W (X j) (col j YP) (sig j j).
Proof.
move=> W Y X E YP sig D U FR V v; rewrite /surLMlag la_inv_unit //; case Q: (la_inv _) => [I|] //; case: (la_invP Q) => V2 -> [<-].
rewrite (diag_quad _ (lag_innerE W YP U D FR V) V2); apply: eq_bigr => j _; by rewrite C54_score.
Qed.
End Diag.

(** ** C54_single: with one equation, the statistic is the single-equation LM lag statistic *)
Theorem C54_single : forall (R : realFieldType) n k (W : 'M[R]_n) (y : 'cV[R]_n) (x : 'M[R]_(n, k)) (e yp : 'cV[R]_n) (s2 v : R),
  s2 != 0 -> x^T *m x \in unitmx ->
  surLMlag (K := fun _ : 'I_1 => k) W y (fun=> x) e yp s2%:M (invmx (xsigx (invmx s2%:M) (crossXX (K := fun _ : 'I_1 => k) (fun=> x)))) = Some v ->
  v = eq_lm_lag W x y e yp s2.
Proof.
move=> R n k W y x e yp s2 v s0 U H.
have D : diagonal (s2%:M : 'M[R]_1) by move=> i j; rewrite !ord1.
have S : (s2%:M : 'M[R]_1) \in unitmx by rewrite unitmxE det_scalar1 unitfE.
have V : xsigx (invmx s2%:M) (crossXX (K := fun _ : 'I_1 => k) (fun=> x)) \in unitmx.
  apply/unitmx_inj => c; rewrite -[c]submxcolK xsigx_mul -[X in _ = X]mxcol0 => /eq_mxcolP/(_ 0).
  have IV (i j : 'I_1) : invmx (s2%:M : 'M[R]_1) i j != 0.
    by rewrite (ord1 i) (ord1 j) (proj2 (proj2 (dinv S D) 0)) mxE eqxx mulr1n invr_eq0.
  rewrite big_ord1 => /eqP; rewrite scaler_eq0 (negbTE (IV _ _)) /=.
  rewrite mulmxA => /eqP Z; rewrite -[RHS]mxcol0; apply/eq_mxcolP => r; rewrite (ord1 r); by move/unitmx_inj: U; apply.
rewrite (C54_lag_partial D S _ V H) // big_ord1 big_ord1 /eq_lm_lag; rewrite !mxE eqxx mulr1n.
by have cid (z : 'cV[R]_n) : col 0 z = z by [apply/matrixP => a b; rewrite mxE (ord1 b)]; rewrite !cid.
Qed.
(** the specification agrees with the single-equation diagnostics of an OLS fit *)
Theorem C54_spec : forall (R : realFieldType) n k (y : 'cV[R]_n) (x : 'M[R]_(n, k)) (W : 'M[R]_n) rb g s o, base_ols y x rb g s = Some o -> sig2n o != 0 -> (0 < n)%N ->
  eq_lm_error W (o_u o) (sig2n o) = (lmErr o W).1 /\ eq_lm_lag W x y (o_u o) (o_predy o) (sig2n o) = (lmLag o W).1.
Proof.
move=> R n k y x W rb g s o H s0 n0; have [h1 h2 h3 h4 h5] := ols_fields H.
have iE m (a b : 'cV[R]_m) : inner a b = (a^T *m b) 0 0 by rewrite mxE; apply: eq_bigr => l _; rewrite mxE.
have T : d_t W = traces W by rewrite /d_t /traces mulmxDl -[LHS]/(\tr (_ + _)) mxtraceD addrC.
split; first by rewrite /eq_lm_error /lmErr /= T iE.
rewrite /eq_lm_lag /lmLag /= /d_utwyDs h2 iE; congr (_ / _); rewrite /lag_info /d_j T h1 h5.
set a := W *m o_predy o; rewrite iE mulmxBr.
have nn : (n%:R : R) != 0 by rewrite pnatr_eq0 -lt0n.
have red (p q : R) : n%:R * ((p + q * sig2n o) / (n%:R * sig2n o)) = q + p / sig2n o.
  by rewrite mulrC invfM mulrA mulrAC divfK // mulrDl mulfK // addrC.
rewrite red; congr (_ + _ / _).
by rewrite [LHS]mxE [X in _ + X]mxE; congr (_ - _); rewrite [(x^T *m a)^T]trmx_mul trmxK !mulmxA.
Qed.

(** ** C54_refuted: in a two-equation SUR whose estimated Sigma is diagonal, the LM lag statistic is not the sum of those of its equations *)
Section Refuted.
Variable R : realFieldType.
Definition rx (r : 'I_2) : 'cV[R]_3 := \col_i ((i : nat) == 0%N)%:R.
Definition ry (r : 'I_2) : 'cV[R]_3 := \col_i (((i : nat) == 0%N) || ((i : nat) == r.+1))%:R.
Definition rW : 'M[R]_3 := \matrix_(i, j) (i != j)%:R.
Definition rY : 'M[R]_(3, 2) := \matrix_(i, r) ry r i 0.
Definition rE : 'M[R]_(3, 2) := \matrix_(i, r) ((i : nat) == r.+1)%:R.
Lemma sum3 (f : 'I_3 -> R) : \sum_i f i = f 0 + f 1 + f (1 + 1).
Proof. by rewrite !big_ord_recl big_ord0 addr0 addrA; congr (f _ + f _ + f _); apply: val_inj. Qed.
Lemma sum2 (f : 'I_2 -> R) : \sum_i f i = f 0 + f 1.
Proof. by rewrite !big_ord_recl big_ord0 addr0; congr (f _ + f _); apply: val_inj. Qed.
Lemma rinner r j : inner (col r rE) (rW *m col j rY) = if r == j then 1 else 2%:R.
Proof.
rewrite /inner sum3 !mxE !sum3 !mxE.
by case: r => [[|[|]]] // ?; case: j => [[|[|]]] // ? /=; rewrite ?mul0r ?mul1r ?add0r ?addr0.
Qed.
Lemma r_xx r : (rx r)^T *m rx r = 1%:M.
Proof. by apply/matrixP => a b; rewrite !ord1 !mxE sum3 !mxE /= mulr1 !mul0r !addr0. Qed.
Lemma r_xy r t : (rx r)^T *m ry t = 1%:M.
Proof. by apply/matrixP => a b; rewrite !ord1 !mxE sum3 !mxE /= mulr1 !mul0r !addr0. Qed.
Lemma r_info r s2 : lag_info rW (rx r) (rx r) s2 = 12%:R + 2%:R / s2.
Proof.
rewrite /lag_info; congr (_ + _ / _).
  rewrite /traces /mxtrace !sum3 !mxE !sum3 !mxE /= ?mulr0 ?mulr1 ?add0r ?addr0.
  by rewrite -!natrD.
have -> : (rx r)^T *m (rW *m rx r) = 0.
  by apply/matrixP => a b; rewrite !ord1 [RHS]mxE mxE sum3 !mxE !sum3 !mxE /= ?mul0r ?mulr0 ?mul1r ?mulr1 ?addr0 ?add0r.
rewrite !mulmx0 subr0 /inner sum3 !mxE !sum3 !mxE /= ?mul0r ?mulr0 ?mul1r ?mulr1 ?addr0 ?add0r.
by rewrite mul0r mulr1 add0r.
Qed.
Theorem C54_refuted : exists s v, base_sur (K := fun=> 1%N) rx ry = Some s /\ diagonal (e_sig (s_est s)) /\
  surLMlag rW rY rx (s_E s) (s_YP s) (e_sig (s_est s)) (e_varb (s_est s)) = Some v /\
  v <> \sum_j eq_lm_lag rW (rx j) (ry j) (col j (s_E s)) (col j (s_YP s)) (e_sig (s_est s) j j).
Proof.
have [bo [O B]] : exists bo, sur_ols (K := fun=> 1%N) rx ry = Some bo /\ forall r, bo r = 1.
  rewrite /sur_ols /crossXX /crossXy ifT; last by apply/forallP => r; rewrite r_xx unitmx1.
  by eexists; split; [reflexivity|] => r /=; rewrite r_xx r_xy invmx1 mulmx1.
have RE b : (forall r, b r = 1 :> 'cV[R]_1) -> sur_resids (K := fun=> 1%N) ry rx b = rE.
  move=> Hb; apply/matrixP => i r; rewrite !mxE Hb big_ord1 !mxE /= mulr1.
  by case: i => [[|i]] lt //=; rewrite ?subrr ?subr0.
have RP b : (forall r, b r = 1 :> 'cV[R]_1) -> forall j, col j (sur_predict (K := fun=> 1%N) rx b) = rx j.
  by move=> Hb j; apply/matrixP => i c; rewrite !mxE Hb big_ord1 !mxE mulr1.
have EE : rE^T *m rE = 1%:M.
  apply/matrixP => i j; rewrite !mxE sum3 !mxE.
  by case: i => [[|[|]]] // ?; case: j => [[|[|]]] // ? /=; rewrite ?mul0r ?mul1r ?add0r ?addr0.
have tn : (3%:R : R) != 0 by rewrite pnatr_eq0.
have [e He] : exists e, sur_est (crossXX (K := fun=> 1%N) rx) (crossXy (K := fun=> 1%N) rx ry) rE = Some e.
  apply/C46_defined; split; first by rewrite EE unitmxZ ?unitmx1 // unitfE invr_eq0.
  by move=> r c Z; rewrite -[c]mul1mx -(r_xx r) -mulmxA Z mulmx0.
have [h1 h2 h3 h4 h5] := est_fields He.
have D : diagonal (e_sig e) by move=> i j ne; rewrite h1 EE !mxE (negbTE ne) mulr0.
have sjj j : e_sig e j j = 3%:R^-1 by rewrite h1 EE !mxE eqxx mulr1.
have [_ OB] := C46_diagonal He D.
have Be r : e_b e r = 1 by rewrite (OB _ O) B.
have HS : base_sur (K := fun=> 1%N) rx ry = Some (Sur2 e bo rE (sur_predict rx (e_b e))) by rewrite /base_sur O RE // He RE.
have U r : (rx r)^T *m rx r \in unitmx by rewrite r_xx unitmx1.
have i18 r : lag_info rW (rx r) (rx r) (3%:R^-1) = 18%:R by rewrite r_info invrK -natrM -natrD.
have n18 : (18%:R : R) != 0 by rewrite pnatr_eq0.
have [v Hv] : exists v, surLMlag rW rY rx rE (sur_predict rx (e_b e)) (e_sig e) (e_varb e) = Some v.
  rewrite /surLMlag la_inv_unit // h4 la_inv_unit; first by eexists.
  by apply/(diag_unit (lag_innerE rW _ h2 D U h3)) => j; rewrite (RP _ Be) sjj i18.
exists (Sur2 e bo rE (sur_predict rx (e_b e))), v; split=> //; split=> //; split=> //=.
rewrite h4 in Hv; rewrite (C54_lag_partial D h2 U h3 Hv) !sum2 !sjj !(RP _ Be) /eq_lm_lag !i18.
have cy j : col j rY = ry j by apply/matrixP => i c; rewrite !mxE.
rewrite -!cy !rinner /= invrK !mul1r -!natrM -!natrD -!natrX -!mulrDl -!natrD.
move/(mulIf (_ : 18%:R^-1 != 0)); rewrite invr_eq0 n18 => /(_ isT)/eqP; by rewrite eqr_nat.
Qed.
End Refuted.
