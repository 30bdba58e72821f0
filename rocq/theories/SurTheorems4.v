(** C73: the spatial LM statistics of a SUR are defined and non-negative.  C74: the test on the spatial autoregressive coefficients. *)
From mathcomp Require Import all_ssreflect all_algebra.
From Verif Require Import LinRegModel LinRegProofs LinRegProofs2 SurModel SurTheorems SurTheorems3.
Set Implicit Arguments.
Unset Strict Implicit.
Unset Printing Implicit Defensive.
Import Order.TTheory GRing.Theory Num.Theory.
Local Open Scope ring_scope.

Section Fiedler.
Variables (R : realFieldType) (G n : nat).
(** tr(A A') - tr(A A) is half the sum of the squares of the entries of A - A' *)
Lemma tr_gap m (A : 'M[R]_m) : \tr (A *m A^T) - \tr (A *m A) = 2%:R^-1 * \sum_i \sum_j (A i j - A j i) ^+ 2.
Proof.
have t1 : \tr (A *m A^T) = \sum_i \sum_j A i j ^+ 2 by apply: eq_bigr => i _; rewrite mxE; apply: eq_bigr => j _; rewrite mxE expr2.
have t2 : \tr (A *m A) = \sum_i \sum_j A i j * A j i by apply: eq_bigr => i _; rewrite mxE.
have -> : \sum_i \sum_j (A i j - A j i) ^+ 2 = (\sum_i \sum_j A i j ^+ 2) + (\sum_i \sum_j A j i ^+ 2) - (\sum_i \sum_j A i j * A j i) *+ 2.
  rewrite mulr2n -!big_split -sumrB; apply: eq_bigr => i _; rewrite -!big_split -sumrB; apply: eq_bigr => j _ /=.
  by rewrite sqrrB mulr2n addrAC.
rewrite [X in _ + X - _]exchange_big /= t1 t2.
set a := \sum_i _; set b := \sum_i _; rewrite -mulr2n -mulrnBl -[(a - b) *+ 2]mulr_natl mulrA mulVf ?mul1r //; by rewrite pnatr_eq0.
Qed.
Lemma tr_gap_ge0 m (A : 'M[R]_m) : \tr (A *m A) <= \tr (A *m A^T).
Proof. by rewrite -subr_ge0 tr_gap mulr_ge0 ?invr_ge0 ?ler0n //; apply: sumr_ge0 => i _; apply: sumr_ge0 => j _; exact: sqr_ge0. Qed.
Lemma traces_sq (W : 'M[R]_n) : traces W = 2%:R^-1 * \sum_i \sum_j (W i j + W j i) ^+ 2.
Proof.
have t1 : \tr (W^T *m W) = \sum_i \sum_j W j i ^+ 2 by apply: eq_bigr => i _; rewrite mxE; apply: eq_bigr => j _; rewrite mxE expr2.
have t2 : \tr (W *m W) = \sum_i \sum_j W i j * W j i by apply: eq_bigr => i _; rewrite mxE.
have -> : \sum_i \sum_j (W i j + W j i) ^+ 2 = (\sum_i \sum_j W i j ^+ 2) + (\sum_i \sum_j W j i ^+ 2) + (\sum_i \sum_j W i j * W j i) *+ 2.
  rewrite mulr2n -!big_split; apply: eq_bigr => i _; rewrite -!big_split; apply: eq_bigr => j _ /=.
  by rewrite sqrrD mulr2n addrAC.
rewrite [X in X + _ + _]exchange_big /= /traces t1 t2.
set a := \sum_i \sum_j W i j * _; set b := \sum_i \sum_j _; rewrite -mulr2n -mulrnDl -[(_ + _) *+ 2]mulr_natl mulrA mulVf ?mul1r 1?addrC //; by rewrite pnatr_eq0.
Qed.
Lemma traces_gt0 (W : 'M[R]_n) : W + W^T != 0 -> 0 < traces W.
Proof.
move=> nz; rewrite traces_sq pmulr_rgt0 ?invr_gt0 ?ltr0n // lt_neqAle; apply/andP; split; last first.
  by apply: sumr_ge0 => i _; apply: sumr_ge0 => j _; exact: sqr_ge0.
apply: contra nz => /eqP/esym/eqP; rewrite psumr_eq0; last by move=> i _; apply: sumr_ge0 => j _; exact: sqr_ge0.
move/allP => Z; apply/eqP/matrixP => i j; rewrite !mxE.
move: (Z i (mem_index_enum i)); rewrite /= psumr_eq0; last by move=> k _; exact: sqr_ge0.
by move/allP/(_ j (mem_index_enum j)); rewrite /= sqrf_eq0 => /eqP.
Qed.
Lemma had_quad (A B : 'M[R]_G) (v : 'cV[R]_G) : (v^T *m had A B *m v) 0 0 = \tr (diag_mx v^T *m A *m diag_mx v^T *m B^T).
Proof.
rewrite bilE mul_diag_mx mul_mx_diag; apply: eq_bigr => r _; rewrite mxE; apply: eq_bigr => t _.
by rewrite !mxE mulrACA -[RHS]mulrA; congr (_ * _); rewrite mulrC.
Qed.
Lemma had_tr (S : 'M[R]_G) : S^T = S -> (had (invmx S) S)^T = had (invmx S) S.
Proof.
move=> sy; have isy : (invmx S)^T = invmx S by rewrite trmx_inv sy.
by apply/matrixP => i j; rewrite !mxE; congr (_ * _); [rewrite -{1}isy|rewrite -{1}sy]; rewrite mxE.
Qed.
(** Fiedler: for Sigma = E'E/n, the elementwise product of Sigma and its inverse is at least the identity *)
Lemma fiedler (E : 'M[R]_(n, G)) (v : 'cV[R]_G) : let sig := n%:R^-1 *: (E^T *m E) in sig \in unitmx ->
  (v^T *m v) 0 0 <= (v^T *m had (invmx sig) sig *m v) 0 0.
Proof.
move=> sig U; have sy : sig^T = sig by rewrite /sig linearZ /= trmx_mul trmxK.
have isy : (invmx sig)^T = invmx sig by rewrite trmx_inv sy.
set D := diag_mx v^T; have Ds : D^T = D by rewrite /D tr_diag_mx.
pose F := E *m invmx sig; pose A := n%:R^-1 *: (E *m D *m F^T).
have FE : n%:R^-1 *: (F^T *m E) = 1%:M by rewrite /F trmx_mul isy -mulmxA scalemxAr mulVmx.
have FF : n%:R^-1 *: (F^T *m F) = invmx sig by rewrite {2}/F mulmxA scalemxAl FE mul1mx.
have q1 : \tr (A *m A) = (v^T *m v) 0 0.
  have -> : A *m A = n%:R^-1 *: (E *m D *m (n%:R^-1 *: (F^T *m E)) *m (D *m F^T)).
    by rewrite /A -!scalemxAl -!scalemxAr -?scalemxAl !mulmxA.
  rewrite FE mulmx1 mxtraceZ mxtrace_mulC -mxtraceZ.
  have -> : n%:R^-1 *: (D *m F^T *m (E *m D)) = D *m (n%:R^-1 *: (F^T *m E)) *m D by rewrite -scalemxAr -scalemxAl !mulmxA.
  rewrite FE mulmx1 /D mulmx_diag /mxtrace [RHS]mxE; apply: eq_bigr => r _; by rewrite !mxE eqxx mulr1n.
have q2 : \tr (A *m A^T) = (v^T *m had (invmx sig) sig *m v) 0 0.
  have -> : A^T = n%:R^-1 *: (F *m D *m E^T) by rewrite /A linearZ /= trmx_mul trmxK trmx_mul Ds mulmxA.
  have -> : A *m (n%:R^-1 *: (F *m D *m E^T)) = n%:R^-1 *: (E *m D *m (n%:R^-1 *: (F^T *m F)) *m (D *m E^T)).
    by rewrite /A -!scalemxAl -!scalemxAr -?scalemxAl !mulmxA.
  rewrite FF mxtraceZ mxtrace_mulC -mxtraceZ had_quad -/D sy.
  have -> : n%:R^-1 *: (D *m E^T *m (E *m D *m invmx sig)) = D *m sig *m D *m invmx sig.
    by rewrite /sig -scalemxAr -!scalemxAl !mulmxA.
  by rewrite -mulmxA mxtrace_mulC !mulmxA.
by rewrite -q1 -q2; exact: tr_gap_ge0.
Qed.

Lemma first_pd (W : 'M[R]_n) (E0 : 'M[R]_(n, G)) : let sig := n%:R^-1 *: (E0^T *m E0) in
  sig \in unitmx -> W + W^T != 0 -> pd (\tr (W *m W) *: 1%:M + \tr (W^T *m W) *: had (invmx sig) sig).
Proof.
move=> sig U nz; split.
  rewrite linearD !linearZ /= tr_scalar_mx; congr (_ + _ *: _).
  have sy : sig^T = sig by rewrite /sig linearZ /= trmx_mul trmxK.
  exact: had_tr.
move=> c c0; have f := fiedler c U; have cc : 0 < (c^T *m c) 0 0.
  by rewrite -[X in _ < X]utuE lt_neqAle utu_ge0 andbT eq_sym utu_eq0.
have T2 : 0 <= \tr (W^T *m W) by apply: sumr_ge0 => i _; rewrite mxE; apply: sumr_ge0 => j _; rewrite mxE -expr2 sqr_ge0.
set M := _ + _; have -> : (c^T *m M *m c) 0 0 = \tr (W *m W) * (c^T *m c) 0 0 + \tr (W^T *m W) * (c^T *m had (invmx sig) sig *m c) 0 0.
  rewrite /M mulmxDr mulmxDl -!scalemxAr -!scalemxAl mulmx1 mxE; congr (_ + _); by rewrite mxE.
have : 0 < traces W * (c^T *m c) 0 0 by rewrite mulr_gt0 ?traces_gt0.
by rewrite /traces mulrDl => /lt_le_trans; apply; rewrite ler_add2l ler_wpmul2l.
Qed.
Lemma pd_quad (M : 'M[R]_G) (s : 'rV[R]_G) : pd M -> 0 <= (s *m invmx M *m s^T) 0 0 /\ ((s *m invmx M *m s^T) 0 0 = 0 -> s = 0).
Proof.
move=> P; rewrite -{1 3}[s]trmxK; case: (eqVneq s^T 0) => [z|z].
  by rewrite z mulmx0 mxE; split=> // _; rewrite -[s]trmxK z trmx0.
case: (pd_inv P) => _ /(_ _ z) h; split; first exact: ltW.
by move=> e; move: h; rewrite e ltxx.
Qed.

(** ** C73_error: with Sigma estimated from residuals and a W that is not skew-symmetric, the LM error statistic is defined, non-negative,
    and zero only when every score is zero *)
Theorem C73_error : forall (W : 'M[R]_n) (E E0 : 'M[R]_(n, G)), let sig := n%:R^-1 *: (E0^T *m E0) in
  sig \in unitmx -> W + W^T != 0 -> exists v, surLMe W E sig = Some v /\ 0 <= v /\
  (v = 0 -> forall j, \sum_r invmx sig r j * inner (col r E) (W *m col j E) = 0).
Proof.
move=> W E E0 sig U nz; rewrite /surLMe la_inv_unit //; have P := first_pd U nz; rewrite la_inv_unit; last exact: pd_unit.
eexists; split; first reflexivity.
set s := colsum _; have [q1 q2] := pd_quad s P; split=> // /q2 /matrixP z j; have := z 0 j; rewrite !mxE => Z.
by rewrite -[RHS]Z; apply: eq_bigr => r _; rewrite mxE inner_ent.
Qed.

Variable K : 'I_G -> nat.
Variable X : forall r, 'M[R]_(n, K r).
Lemma quadB (S : 'M[R]_G) (v d : 'I_G -> 'cV[R]_n) : S^T = S ->
  \sum_r \sum_t S r t * ((v r - d r)^T *m (v t - d t)) 0 0 =
  (\sum_r \sum_t S r t * ((v r)^T *m v t) 0 0) + (\sum_r \sum_t S r t * ((d r)^T *m d t) 0 0) - (\sum_r \sum_t S r t * ((d r)^T *m v t) 0 0) *+ 2.
Proof.
move=> sy; rewrite mulr2n opprD addrA -{1}(quad_sym v d sy) -!big_split -!sumrB; apply: eq_bigr => r _; rewrite -!big_split -!sumrB; apply: eq_bigr => t _ /=.
have m1 (U V : 'M[R]_1) : (U - V) 0 0 = U 0 0 - V 0 0 by rewrite !mxE.
have -> : (v r - d r)^T = (v r)^T - (d r)^T by exact: linearB.
rewrite mulmxBl !mulmxBr !m1; move: (S r t) (((v r)^T *m v t) 0 0) (((v r)^T *m d t) 0 0) (((d r)^T *m v t) 0 0) (((d r)^T *m d t) 0 0) => s a b c e.
rewrite -mulrDr -!mulrBr; congr (_ * _).
by rewrite opprB addrA; congr (_ - _); rewrite addrAC.
Qed.
Lemma lag_rest (S : 'M[R]_G) (Z : 'M[R]_(n, G)) (c : 'cV[R]_G) : pd S -> xsigx S (crossXX X) \in unitmx ->
  0 <= (c^T *m (had S (Z^T *m Z) - (lag_bp X Z S)^T *m invmx (xsigx S (crossXX X)) *m lag_bp X Z S) *m c) 0 0.
Proof.
move=> P V; have sy : S^T = S by case: P.
pose z r : 'cV[R]_n := c r 0 *: col r Z; set bp := lag_bp X Z S; set A := xsigx S (crossXX X) in V *.
pose d := invmx A *m (bp *m c).
have bc : bp *m c = \mxcol_r \sum_t S r t *: ((X r)^T *m z t).
  rewrite /bp /lag_bp mxcol_mul; apply: eq_mxcol => r; apply/matrixP => a b; rewrite (ord1 b) mxE summxE; apply: eq_bigr => t _.
  rewrite !mxE /z -mulrA; congr (_ * _); rewrite big_distrl /=; apply: eq_bigr => l _; rewrite !mxE -mulrA; congr (_ * _); exact: mulrC.
have Ad : A *m d = bp *m c by rewrite /d mulKVmx.
have C : (d^T *m (A *m d)) 0 0 = \sum_r \sum_t S r t * ((X r *m submxcol d r)^T *m z t) 0 0.
  rewrite Ad bc -{1}[d]submxcolK tr_mxcol mul_mxrow_mxcol summxE; apply: eq_bigr => r _; rewrite mulmx_sumr summxE; apply: eq_bigr => t _.
  by rewrite -scalemxAr mxE trmx_mul -mulmxA.
have C2 : (d^T *m (A *m d)) 0 0 = \sum_r \sum_t S r t * ((X r *m submxcol d r)^T *m (X t *m submxcol d t)) 0 0.
  by rewrite -quad_mul submxcolK.
have := proj1 (quad_pd (fun r => z r - X r *m submxcol d r) P); rewrite quadB // -C2 -C mulr2n opprD addrA addrK.
suff -> : (c^T *m (had S (Z^T *m Z) - bp^T *m invmx A *m bp) *m c) 0 0 = \sum_r \sum_t S r t * ((z r)^T *m z t) 0 0 - (d^T *m (A *m d)) 0 0 by [].
rewrite mulmxBr mulmxBl mxE; congr (_ + _).
  rewrite bilE; apply: eq_bigr => r _; apply: eq_bigr => t _; rewrite mxE -mulrA; congr (_ * _).
  rewrite /z -scalemxAr linearZ /= -scalemxAl !mxE [RHS]mulrA mulrC [c t 0 * c r 0]mulrC; congr (_ * _).
  by apply: eq_bigr => l _; rewrite !mxE.
rewrite mxE; congr (- _); congr (_ 0 0).
have Asy : A^T = A.
  rewrite /A /xsigx tr_mxblock; apply: eq_mxblock => r t; rewrite linearZ /= /crossXX trmx_mul trmxK; congr (_ *: _).
  by rewrite -{1}sy mxE.
by rewrite Ad /d trmx_mul trmx_inv Asy trmx_mul !mulmxA.
Qed.
(** ** C73_lag: the same for the LM lag statistic, whatever the score *)
Theorem C73_lag : forall (W : 'M[R]_n) (Y E YP E0 : 'M[R]_(n, G)), let sig := n%:R^-1 *: (E0^T *m E0) in
  sig \in unitmx -> W + W^T != 0 -> (forall r (c : 'cV[R]_(K r)), X r *m c = 0 -> c = 0) ->
  exists v, surLMlag W Y X E YP sig (invmx (xsigx (invmx sig) (crossXX X))) = Some v /\ 0 <= v.
Proof.
move=> W Y E YP E0 sig U nz F.
have [e He] : exists e, sur_est (crossXX X) (crossXy X (fun=> 0)) E0 = Some e by apply/C46_defined.
have [h1 h2 h3 _ _] := est_fields He; rewrite h1 -/sig in h3.
have PS : pd (invmx sig) by apply: pd_inv; apply: sig_pd.
rewrite /surLMlag la_inv_unit //; set I := lag_inner _ _ _ _ _ _; have P : pd I.
  have [f1 f2] := first_pd U nz; split.
    rewrite /I /lag_inner linearB linearD /= f1; congr (_ + _ - _).
      have isy : (invmx sig)^T = invmx sig by case: PS.
      set Q := _^T *m _; have qs : Q^T = Q by rewrite /Q trmx_mul trmxK.
      move: Q qs => Q qs.
      by apply/matrixP => i j; rewrite !mxE; congr (_ * _); [rewrite -{1}isy|rewrite -{1}qs]; rewrite mxE.
    rewrite !trmx_mul trmxK mulmxA trmx_inv; congr (_ *m invmx _ *m _).
    rewrite /xsigx tr_mxblock; apply: eq_mxblock => r t; rewrite linearZ /= /crossXX trmx_mul trmxK; congr (_ *: _).
    by case: PS => isy _; rewrite -{1}isy mxE.
  move=> c c0; rewrite /I /lag_inner -addrA mulmxDr mulmxDl mxE; apply: ltr_paddr; last exact: f2.
  exact: lag_rest.
rewrite la_inv_unit; last exact: pd_unit.
eexists; split; first reflexivity.
exact: (proj1 (pd_quad _ P)).
Qed.
End Fiedler.

(** ** positions in the stacked coefficient vector *)
Section Pos.
Variables (R : realFieldType) (G : nat) (K : 'I_G -> nat).
Definition at_ (r : 'I_G) (j : 'I_(K r)) : 'I_(\sum_r K r) := tagnat.Rank r j.
Lemma at_val r (j : 'I_(K r)) : at_ j = (\sum_(i < G | (i < r)%N) K i + j)%N :> nat.
Proof. exact: tagnat.RankEsum. Qed.
Lemma col_at (b : forall r, 'cV[R]_(K r)) r (j : 'I_(K r)) : (\mxcol_r b r) (at_ j) 0 = b r j 0.
Proof. have := congr1 (fun M : 'cV[R]_(K r) => M j 0) (mxcolK b r); by rewrite /submxcol mxE. Qed.
Lemma sel m p q (Rm : 'M[R]_(m, p)) (i : 'I_m) (c0 : 'I_p) (v : 'M[R]_(p, q)) j :
  (forall c, Rm i c = (c == c0)%:R) -> (Rm *m v) i j = v c0 j.
Proof.
move=> H; rewrite mxE (bigD1 c0) //= H eqxx mul1r big1 ?addr0 // => c nc; by rewrite H (negbTE nc) mul0r.
Qed.
Lemma selr m p q (Rm : 'M[R]_(m, p)) (i : 'I_m) (c0 : 'I_p) (v : 'M[R]_(q, p)) j :
  (forall c, Rm i c = (c == c0)%:R) -> (v *m Rm^T) j i = v j c0.
Proof.
move=> H; rewrite mxE (bigD1 c0) //= mxE H eqxx mulr1 big1 ?addr0 // => c nc; by rewrite mxE H (negbTE nc) mulr0.
Qed.
Lemma sel_inj m p (Rm : 'M[R]_(m, p)) (c0 : 'I_m -> 'I_p) : injective c0 -> (forall i c, Rm i c = (c == c0 i)%:R) ->
  forall c : 'cV[R]_m, Rm^T *m c = 0 -> c = 0.
Proof.
move=> inj H c /matrixP Z; apply/matrixP => i j; rewrite (ord1 j) [RHS]mxE.
have := Z (c0 i) 0; rewrite [RHS]mxE mxE (bigD1 i) //= big1 ?addr0; first by rewrite mxE H eqxx mul1r.
by move=> r nr; rewrite mxE H eq_sym (inj_eq inj) (negbTE nr) mul0r.
Qed.
(** ** C74_select: the restriction matrix picks the last coefficient of every equation *)
Hypothesis Kpos : forall r, (0 < K r)%N.
Definition last_ix r : 'I_(K r) := Ordinal (ltn_pmod (K r - 1) (Kpos r)).
Lemma last_val r : last_ix r = (K r - 1)%N :> nat.
Proof. by rewrite /= modn_small // -{2}[K r]subn0 ltn_sub2l. Qed.
Lemma joinrhoE i c : joinrho_R R K i c = (c == at_ (last_ix i))%:R.
Proof.
rewrite mxE -val_eqE; congr (_%:R); congr (nat_of_bool (_ == _)); rewrite [RHS]at_val last_val /joinrho_kc.
rewrite (bigD1 i) //= addnC -addnBA ?Kpos //; congr (_ + _)%N; apply: eq_bigl => r; by rewrite ltn_neqAle -val_eqE /= andbC.
Qed.
Theorem C74_select : forall (b : forall r, 'cV[R]_(K r)) i, (joinrho_R R K *m (\mxcol_r b r)) i 0 = b i (last_ix i) 0.
Proof. by move=> b i; rewrite (sel _ _ (joinrhoE i)) col_at. Qed.
(** ** C74_value: the statistic is the Wald statistic of those coefficients and of their covariances *)
Theorem C74_value : forall b (varb : 'M[R]_(\sum_r K r)) w, sur_joinrho b varb = Some w ->
  let rho : 'cV[R]_G := \col_i b i (last_ix i) 0 in
  let V : 'M[R]_G := \matrix_(i, j) varb (at_ (last_ix i)) (at_ (last_ix j)) in
  V \in unitmx /\ w = (rho^T *m invmx V *m rho) 0 0.
Proof.
move=> b varb w; rewrite /sur_joinrho /wald_w; case Q: (la_inv _) => [I|] // [<-]; case: (la_invP Q) => U ->; set rho : 'cV[R]_G := \col_i _; set V : 'M[R]_G := \matrix_(i, j) _.
have rE : joinrho_R R K *m (\mxcol_r b r) - 0 = rho by rewrite subr0; apply/matrixP => i j; rewrite (ord1 j) C74_select mxE.
have vE : joinrho_R R K *m (varb *m (joinrho_R R K)^T) = V.
  by apply/matrixP => i j; rewrite (sel _ _ (joinrhoE i)) (selr _ _ (joinrhoE j)) mxE.
by rewrite rE -mulmxA -vE.
Qed.
(** ** C74_test: with a positive definite covariance the test is always defined and non-negative, and zero exactly when every
    autoregressive coefficient is zero *)
Theorem C74_test : forall b (varb : 'M[R]_(\sum_r K r)), pd varb -> exists w, sur_joinrho b varb = Some w /\ 0 <= w /\
  (w = 0 <-> forall i, b i (last_ix i) 0 = 0).
Proof.
move=> b varb P; have P2 : pd (joinrho_R R K *m (varb *m (joinrho_R R K)^T)).
  apply: rvr_pd => //; apply: (@sel_inj _ _ _ (fun i => at_ (last_ix i)) _ joinrhoE) => i r e.
  by have := congr1 (fun z => tagnat.sig1 z) e; rewrite /at_ !tagnat.Rank1K.
rewrite /sur_joinrho /wald_w la_inv_unit; last exact: pd_unit.
eexists; split; first reflexivity.
set v := _ - 0; have vE i : v i 0 = b i (last_ix i) 0 by rewrite /v subr0 C74_select.
rewrite mulmxA; case: (eqVneq v 0) => [z|z].
  rewrite z mulmx0 mxE; split=> //; split=> // _ i; by rewrite -vE z mxE.
have h := proj2 (pd_inv P2) _ z; split; first exact: ltW.
split=> [e|H]; first by move: h; rewrite e ltxx.
by case/eqP: z; apply/matrixP => i j; rewrite (ord1 j) vE H mxE.
Qed.
End Pos.
