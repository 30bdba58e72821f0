(** Covariance matrix of the coefficient and spatial parameter errors when the components of the disturbance vector are independent with mean zero. *)
From mathcomp Require Import all_ssreflect all_algebra.
From Coq Require Import Ring Field.
From Verif Require Import Mring LinRegModel LinRegProofs LinRegProofs2 MLTheorems3 GvmSpec GvmProofs.
Set Implicit Arguments.
Unset Strict Implicit.
Unset Printing Implicit Defensive.
Import Order.TTheory GRing.Theory Num.Theory.
Local Open Scope ring_scope.

Section Gls.
Variable R : realFieldType.
Add Field Ff : (@p_ft R).
Lemma unit11 (A : 'M[R]_1) : (A \in unitmx) = (A 0 0 != 0).
Proof. by rewrite unitmxE det_mx11 unitfE. Qed.
Lemma quad_unit m (A : 'M[R]_m) (J : 'cV[R]_m) : psd A -> A \in unitmx -> (J^T *m invmx A *m J \in unitmx) = (J != 0).
Proof.
move=> pA uA; rewrite unit11; have [_ H] := pd_inv (psd_unit_pd pA uA).
case: (eqVneq J 0) => [->|J0]; first by rewrite mulmx0 mxE eqxx.
by rewrite gt_eqF // H.
Qed.
Lemma quad_sym m (A : 'M[R]_m) (J : 'cV[R]_m) : A^T = A -> (J^T *m A *m J)^T = J^T *m A *m J.
Proof. by move=> sA; rewrite !trmx_mul sA trmxK mulmxA. Qed.
Lemma covmx_col (T : finType) (T0 : (0 < #|T|)%N) p q m k (D : 'M[R]_(p, m)) (O : 'M[R]_(q, k)) (x : T -> 'cV[R]_m) (y : T -> 'cV[R]_k)
  (C : 'M[R]_(m, k)) : (forall i j, C i j = ev (fun t => x t i 0 * y t j 0) - ev (fun t => x t i 0) * ev (fun t => y t j 0)) ->
  covmx (fun t => col_mx (D *m x t) (O *m y t)) = block_mx (D *m covmx x *m D^T) (D *m C *m O^T) (O *m C^T *m D^T) (O *m covmx y *m O^T).
Proof.
move=> HC; have -> : covmx (fun t => col_mx (D *m x t) (O *m y t)) = covmx (fun t => block_mx D 0 0 O *m col_mx (x t) (y t)).
  by apply: eq_covmx => t; rewrite mul_block_col !mul0mx addr0 add0r.
rewrite covmx_mul.
have -> : covmx (fun t => col_mx (x t) (y t)) = block_mx (covmx x) C C^T (covmx y).
  apply/matrixP => i j; rewrite covmxE; case: (split_ordP i) => {}i ->; case: (split_ordP j) => {}j ->.
  - by rewrite block_mxEul covmxE; congr (_ - _ * _); apply: eq_ev => t; rewrite !col_mxEu.
  - by rewrite block_mxEur HC; congr (_ - _ * _); apply: eq_ev => t; rewrite ?col_mxEu ?col_mxEd.
  - rewrite block_mxEdl mxE HC; congr (_ - _); first by apply: eq_ev => t; rewrite col_mxEu col_mxEd mulrC.
    by rewrite mulrC; congr (_ * _); apply: eq_ev => t; rewrite ?col_mxEu ?col_mxEd.
  - by rewrite block_mxEdr covmxE; congr (_ - _ * _); apply: eq_ev => t; rewrite !col_mxEd.
rewrite tr_block_mx !trmx0 !mulmx_block !(mul0mx, mulmx0, addr0, add0r) //.
Qed.
End Gls.

Section Joint.
Variables (R : realFieldType) (n k h : nat) (W : finType) (v : 'I_n -> W -> R).
Add Field Ff2 : (@p_ft R).
Hypothesis W0 : (0 < #|W|)%N.
Hypothesis M0 : forall i, mom v 1 i = 0.
Notation T := {ffun 'I_n -> W}.
Notation eps := (@vec R n W v).
Variables (Z : 'M[R]_(n, k)) (H : 'M[R]_(n, h)) (A : 'I_2 -> 'M[R]_n) (us : 'cV[R]_n) (endog : bool) (J : 'cV[R]_2).
Hypothesis sA : forall r, (A r)^T = A r.
Definition Dm : 'M[R]_(k, n) := let Zh := H *m invmx (H^T *m H) *m H^T *m Z in invmx (Zh^T *m Zh) *m Zh^T.
Definition avec : 'M[R]_(n, 2) := if endog then - 2%:R *: \matrix_(i, r) (Dm^T *m Z^T *m A r *m us) i 0 else 0.
Definition merr (w : T) : 'cV[R]_2 := \col_r (n%:R^-1 * lq v (A r) (col r avec) w).
Lemma moment_errorE w : moment_error endog A us Z H (eps w) = merr w.
Proof.
apply/matrixP => r j; rewrite /merr [LHS]mxE [RHS]mxE {j} /lq mulrDr; congr (_ + _).
rewrite /avec; case: endog; last first.
  have -> : col r (0 : 'M[R]_(n, 2)) = 0 by apply/matrixP => i j; rewrite !mxE.
  by rewrite trmx0 mul0mx mxE mulr0 oppr0.
have -> : (col r (- 2%:R *: \matrix_(i, r0) (Dm^T *m Z^T *m A r0 *m us) i 0))^T = - 2%:R *: (us^T *m A r *m Z *m Dm).
  have -> : us^T *m A r *m Z *m Dm = (Dm^T *m Z^T *m A r *m us)^T by move: Dm => D0; rewrite !trmx_mul sA !trmxK !mulmxA.
  have G (F : 'I_2 -> 'cV[R]_n) : (col r (- 2%:R *: \matrix_(i, r0) F r0 i 0))^T = - 2%:R *: (F r)^T.
    by apply/matrixP => i j; rewrite !mxE [i]ord1.
  exact: (G (fun r0 => Dm^T *m Z^T *m A r0 *m us)).
rewrite -scalemxAl [X in _ = _ * X]mxE (_ : coef_error Z H (eps w) = Dm *m eps w) // mulmxA; move: (_ 0 0) (n%:R^-1) (2%:R) => a b c; mring R.
Qed.
Definition S3 : 'M[R]_(n, 2) := \matrix_(i, r) (mom v 3 i * A r i i).
Definition Q : 'M[R]_2 := \matrix_(r, s) (2%:R * \tr (A r *m S2 v *m A s *m S2 v) + \sum_i A r i i * A s i i * (mom v 4 i - 3%:R * mom v 2 i ^+ 2)
  + \sum_i mom v 3 i * (A r i i * avec i s + A s i i * avec i r) + ((col r avec)^T *m S2 v *m col s avec) 0 0).
Lemma weightE : moment_weight endog A us Z H eps = n%:R^-1 *: Q.
Proof.
rewrite /moment_weight (eq_covmx (g := merr)); last exact: moment_errorE.
apply/matrixP => r s; rewrite mxE covmxE.
have E1 r' : ev (fun t => merr t r' 0) = n%:R^-1 * ev (lq v (A r') (col r' avec)).
  by rewrite -evZ; apply: eq_ev => w; rewrite mxE.
rewrite !E1 (eq_ev (g := fun w => n%:R^-1 * n%:R^-1 * (lq v (A r) (col r avec) w * lq v (A s) (col s avec) w))) => [|w]; last first.
  by rewrite /merr !mxE; move: (lq _ _ _ _) (lq _ _ _ _) (n%:R^-1) => a b c; mring R.
rewrite evZ [RHS]mxE [Q r s]mxE.
have -> a b c d : n%:R * (a * a * b - a * c * (a * d)) = (n%:R * a * a) * (b - c * d) :> R by mring R.
rewrite ev_lq2 // sA; congr (_ * _).
  by case: n => [|m]; rewrite ?mul0r ?invr0 // mulfV ?mul1r // pnatr_eq0.
have -> a b c d : a + a + b + c + d = 2%:R * a + b + c + d :> R by rewrite [2%:R]mulr2n; mring R.
congr (_ + _ + _); apply: eq_bigr => i _; by rewrite ![col _ _ _ _]mxE.
Qed.
Lemma cov_eps : covmx eps = S2 v.
Proof.
apply/matrixP => i j; rewrite covmxE.
have E l : ev (fun t => eps t l 0) = 0 by rewrite -[RHS](@ev1 R n W v M0 l); apply: eq_ev => t; rewrite mxE.
rewrite !E mulr0 subr0 (eq_ev (g := fun t : T => v i (t i) * v j (t j))) => [|t]; last by rewrite !mxE.
by rewrite ev2 // !mxE; case: eqP => _; rewrite ?mul1r ?mul0r.
Qed.
Lemma cov_cross i r : ev (fun w => eps w i 0 * merr w r 0) - ev (fun w => eps w i 0) * ev (fun w => merr w r 0) =
  (n%:R^-1 *: (S2 v *m avec + S3)) i r.
Proof.
have L w : eps w i 0 = lq v 0 (delta_mx i 0) w.
  rewrite /lq mulmx0 mul0mx [X in _ = X + _]mxE add0r trmx_delta [RHS]mxE (bigD1 i) //= big1 => [|j ji]; last by rewrite !mxE (negbTE ji) andbF mul0r.
  by rewrite !mxE !eqxx mul1r addr0.
rewrite (eq_ev (f := fun w => eps w i 0 * _) (g := fun w => n%:R^-1 * (lq v 0 (delta_mx i 0) w * lq v (A r) (col r avec) w))) => [|w]; last first.
  by rewrite L [merr w r 0]mxE mulrCA.
rewrite (eq_ev (f := fun w => merr w r 0) (g := fun w => n%:R^-1 * lq v (A r) (col r avec) w)) => [|w]; last by rewrite mxE.
rewrite (eq_ev L) !evZ [_ * (_ * _)]mulrCA -mulrBr ev_lq2 // [RHS]mxE; congr (_ * _).
rewrite !mul0mx !mxtrace0 !add0r big1 => [|j _]; last by rewrite !mxE !mul0r.
rewrite add0r [RHS]mxE addrC; congr (_ + _).
  by rewrite trmx_delta -mulmxA mxE (bigD1 i) //= big1 => [|j ji]; rewrite ?mxE ?eqxx ?(negbTE ji) ?andbF ?mul0r // mul1r addr0; apply: eq_bigr => l _; rewrite ![in LHS]mxE ![in RHS]mxE.
rewrite (bigD1 i) //= big1 => [|j ji]; last by rewrite !mxE (negbTE ji) mulr0 mul0r addr0 mulr0.
by rewrite !mxE !eqxx mul0r add0r mulr1 addr0.
Qed.
Lemma weight_psd : psd (moment_weight endog A us Z H eps).
Proof.
have [s p] : psd (covmx (fun t => moment_error endog A us Z H (eps t))) by apply: covmx_psd; exact: T0.
split=> [|c]; rewrite /moment_weight; first by rewrite linearZ /= s.
by rewrite -scalemxAr -scalemxAl mxE mulr_ge0 ?ler0n ?p.
Qed.
Lemma weight_n0 : moment_weight endog A us Z H eps \in unitmx -> n%:R != 0 :> R.
Proof. by move=> U; apply/eqP => n0; move: U; rewrite /moment_weight n0 scale0r unitmxE det0 unitr0. Qed.
(** the covariance matrix of the errors of the estimators *)
Lemma estimator_covE : let psi := moment_weight endog A us Z H eps in psi \in unitmx -> J != 0 ->
  let oLL := n%:R^-1 *: invmx (J^T *m invmx psi *m J) in
  let oDL := Dm *m (S2 v *m avec + S3) *m (invmx psi *m J) *m oLL in
  estimator_cov endog A us Z H J eps = block_mx (Dm *m S2 v *m Dm^T) oDL oDL^T oLL.
Proof.
move=> psi U J0 oLL oDL.
have T00 := T0 n W0.
have PS : psd psi by exact: weight_psd.
have UJ : J^T *m invmx psi *m J \in unitmx by rewrite quad_unit.
have sI : (invmx psi)^T = invmx psi by apply: (invmx_sym PS.1).
have n0 : n%:R != 0 :> R by exact: weight_n0.
set om := invmx (J^T *m invmx psi *m J) *m J^T *m invmx psi.
have omT : om^T = invmx psi *m J *m invmx (J^T *m invmx psi *m J).
  rewrite /om !trmx_mul sI trmxK mulmxA; congr (_ *m _); apply: invmx_sym; exact: quad_sym.
rewrite /estimator_cov (eq_covmx (g := fun w => col_mx (Dm *m eps w) (om *m merr w))) => [|w]; last first.
  by rewrite /lambda_error moment_errorE /coef_error -/Dm.
rewrite (@covmx_col R _ T00 _ _ _ _ Dm om eps merr (n%:R^-1 *: (S2 v *m avec + S3))); last by move=> i r; rewrite cov_cross.
rewrite cov_eps.
have C2 : covmx merr = n%:R^-1 *: psi.
  rewrite /psi /moment_weight scalerA mulVf // scale1r; apply: eq_covmx => w; by rewrite moment_errorE.
have DL : Dm *m (n%:R^-1 *: (S2 v *m avec + S3)) *m om^T = oDL.
  by rewrite omT /oDL /oLL -!scalemxAr -!scalemxAl !mulmxA.
have LD : om *m (n%:R^-1 *: (S2 v *m avec + S3))^T *m Dm^T = oDL^T.
  by rewrite -DL [RHS]trmx_mul trmxK [X in _ = _ *m X]trmx_mul mulmxA.
rewrite DL LD C2; congr block_mx.
rewrite omT -scalemxAr -scalemxAl /oLL; congr (_ *: _).
rewrite /om -!mulmxA [psi *m _]mulmxA mulmxV // mul1mx; rewrite !mulmxA.
have -> : invmx (J^T *m invmx psi *m J) *m J^T *m invmx psi *m J = invmx (J^T *m invmx psi *m J) *m (J^T *m invmx psi *m J) by rewrite !mulmxA.
by rewrite mulVmx // mul1mx.
Qed.
End Joint.
