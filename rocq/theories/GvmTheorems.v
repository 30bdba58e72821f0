(** C87: covariance matrices of the GM estimators with heteroskedastic innovations. *)
From mathcomp Require Import all_ssreflect all_algebra.
From Coq Require Import Ring Field.
From Verif Require Import Mring LinRegModel LinRegProofs LinRegProofs2 MLTheorems3 FilterModel GvmModel GvmSpec GvmProofs GvmProofs2.
Set Implicit Arguments.
Unset Strict Implicit.
Unset Printing Implicit Defensive.
Import Order.TTheory GRing.Theory Num.Theory.
Local Open Scope ring_scope.

Section Common.
Variable R : realFieldType.
Add Field Ff : (@p_ft R).
Lemma two0 : 2%:R != 0 :> R. Proof. by rewrite pnatr_eq0. Qed.
Lemma mx2P (M : 'M[R]_2) : M = mx2 (M 0 0) (M 0 1) (M 1 0) (M 1 1).
Proof.
apply/matrixP => -[[|[|i]] li] // -[[|[|j]] lj] //; rewrite [RHS]mxE /=; congr (M _ _); exact: val_inj.
Qed.
Lemma gv_jE (G : 'M[R]_2) lam : gv_j G lam = moment_slope G lam.
Proof.
apply/matrixP => i j; rewrite !mxE !big_ord_recl big_ord0 !mxE /= mulr1 addr0.
rewrite mulrC (_ : lift ord0 ord0 = 1) //; exact: val_inj.
Qed.
Lemma row2 n (a : 'M[R]_(n, 2)) : a = row_mx (col 0 a) (col 1 a) :> 'M[R]_(n, 1 + 1).
Proof.
apply/matrixP => i j; rewrite mxE; case: (split_ordP j) => l ->; rewrite !mxE; congr (a i _); apply: val_inj; by rewrite /= [l]ord1.
Qed.
Lemma sym_part_sym n (W : 'M[R]_n) : (sym_part W)^T = sym_part W.
Proof. by rewrite /sym_part linearZ /= linearD /= trmxK addrC. Qed.
Lemma sym_part_diag n (W : 'M[R]_n) i : W i i = 0 -> sym_part W i i = 0.
Proof. by move=> w0; rewrite !mxE w0 addr0 mulr0. Qed.
Lemma moments_het_sym n (W : 'M[R]_n) r : (moments_het W r)^T = moments_het W r.
Proof.
rewrite /moments_het; case: (r == 0); last exact: sym_part_sym.
have S : (W^T *m W)^T = W^T *m W by rewrite trmx_mul trmxK.
by apply/matrixP => i j; rewrite mxE [LHS]mxE [RHS]mxE eq_sym; case: eqP => // _; rewrite -{1}S mxE.
Qed.
Lemma moments_het_diag n (W : 'M[R]_n) r i : W i i = 0 -> moments_het W r i i = 0.
Proof. by move=> w0; rewrite /moments_het; case: (r == 0); [rewrite mxE eqxx|exact: sym_part_diag]. Qed.
Lemma A1_hetE n (W : 'M[R]_n) : get_A1_het W = moments_het W 0.
Proof.
rewrite /moments_het eqxx; apply/matrixP => i j; rewrite [LHS]mxE [X in _ + X]mxE [X in _ - X]mxE [RHS]mxE.
by case: eqP => [->|_]; rewrite ?subrr ?subr0.
Qed.
Lemma moments_het1 n (W : 'M[R]_n) : W + W^T = 2%:R *: moments_het W 1.
Proof. by rewrite /moments_het /= /sym_part scalerA mulfV ?two0 // scale1r. Qed.
(** moments of a random sign times a number *)
Definition vsign n (e : 'cV[R]_n) (i : 'I_n) (b : bool) : R := if b then e i 0 else - e i 0.
Lemma mom_sign n (e : 'cV[R]_n) c i : mom (vsign e) c i = 2%:R^-1 * (e i 0 ^+ c + (- e i 0) ^+ c).
Proof. by rewrite /mom /ev card_bool big_bool. Qed.
Lemma sign1 n (e : 'cV[R]_n) i : mom (vsign e) 1 i = 0.
Proof. by rewrite mom_sign !expr1 subrr mulr0. Qed.
Lemma half_two (a : R) : 2%:R^-1 * (a + a) = a.
Proof. by rewrite -mulr2n -[a *+ 2]mulr_natl mulrA mulVf ?two0 // mul1r. Qed.
Lemma sign2 n (e : 'cV[R]_n) i : mom (vsign e) 2 i = e i 0 ^+ 2.
Proof. by rewrite mom_sign sqrrN half_two. Qed.
Lemma sign3 n (e : 'cV[R]_n) i : mom (vsign e) 3 i = 0.
Proof. by rewrite mom_sign exprNn -signr_odd /= expr1 mulN1r subrr mulr0. Qed.
Lemma bool0 : (0 < #|[finType of bool]|)%N. Proof. by rewrite card_bool. Qed.
Lemma sign_vec n (e : 'cV[R]_n) : random_sign e = vec (vsign e) :> (_ -> _).
Proof. by []. Qed.
Lemma tsls_map n k h (Z : 'M[R]_(n, k)) (H : 'M[R]_(n, h)) : H^T *m H \in unitmx ->
  let M := Z^T *m H *m invmx (H^T *m H) *m H^T in
  (H *m invmx (H^T *m H) *m H^T *m Z)^T *m (H *m invmx (H^T *m H) *m H^T *m Z) = M *m Z /\ Dm Z H = invmx (M *m Z) *m M.
Proof.
move=> U M; have sI : (invmx (H^T *m H))^T = invmx (H^T *m H) by apply: invmx_sym; rewrite trmx_mul trmxK.
have E1 : (H *m invmx (H^T *m H) *m H^T *m Z)^T = M by rewrite !trmx_mul sI trmxK !mulmxA.
have E2 : M *m (H *m invmx (H^T *m H) *m H^T *m Z) = M *m Z.
  by rewrite /M !mulmxA -[Z^T *m H *m invmx _ *m H^T *m H]mulmxA -[Z^T *m H *m invmx _ *m _]mulmxA mulVmx // mulmx1.
by rewrite /Dm E1 E2.
Qed.
End Common.

Section Het.
Variables (R : realFieldType) (n : nat) (W : 'M[R]_n) (u : 'cV[R]_n) (lam : R).
Add Field Ff2 : (@p_ft R).
Hypothesis W0 : forall i, W i i = 0.
Let us := sp_filter W lam u.
Notation A := (moments_het W).
Lemma sigmaE : get_psi_sigma W u lam = S2 (vsign us).
Proof. by rewrite /get_psi_sigma /S2; congr diag_mx; apply/rowP => i; rewrite [RHS]mxE sign2 [LHS]mxE. Qed.
Lemma QE k h (Z : 'M[R]_(n, k)) (H : 'M[R]_(n, h)) endog r s : Q (vsign us) Z H A us endog r s =
  2%:R * \tr (A r *m S2 (vsign us) *m A s *m S2 (vsign us)) + ((col r (avec Z H A us endog))^T *m S2 (vsign us) *m col s (avec Z H A us endog)) 0 0.
Proof.
rewrite mxE; congr (_ + _); rewrite -[RHS]addr0 -addrA; congr (_ + _).
rewrite big1 => [|i _]; last by rewrite moments_het_diag // !mul0r.
by rewrite big1 ?addr0 // => i _; rewrite sign3 mul0r.
Qed.
Lemma vcE : get_vc_het W (get_A1_het W) (get_psi_sigma W u lam) = n%:R^-1 *: \matrix_(r, s) (2%:R * \tr (A r *m S2 (vsign us) *m A s *m S2 (vsign us))).
Proof.
rewrite /get_vc_het A1_hetE moments_het1 sigmaE; set S := S2 _.
have E r s : \tr (2%:R *: A r *m S *m (2%:R *: A s *m S)) = 4%:R * \tr (A r *m S *m A s *m S).
  by rewrite -!scalemxAl -!scalemxAr -?scalemxAl !scalerA -natrM mxtraceZ !mulmxA.
rewrite !E invfM -scalerA scalerA [_ * n%:R^-1]mulrC -scalerA; congr (_ *: _).
rewrite [RHS]mx2P; apply/matrixP => i j; rewrite !mxE.
have h (a : R) : 2%:R^-1 * (4%:R * a) = 2%:R * a by rewrite mulrA (_ : 4%:R = 2%:R * 2%:R) -?natrM // natrM mulrA mulVf ?two0 // mul1r.
have sy : \tr (A 0 *m S *m A 1 *m S) = \tr (A 1 *m S *m A 0 *m S).
  by rewrite -mulmxA mxtrace_mulC mulmxA.
by case: i => -[|[|i]] li //; case: j => -[|[|j]] lj //=; rewrite h ?sy.
Qed.
(** the weighting matrix of GM_Error_Het is n times the covariance matrix of the moments *)
Theorem C87_het_weight k h (Z : 'M[R]_(n, k)) (H : 'M[R]_(n, h)) :
  get_vc_het W (get_A1_het W) (get_psi_sigma W u lam) = moment_weight false A us Z H (random_sign us).
Proof.
rewrite sign_vec weightE ?vcE //; [|exact: bool0|exact: sign1|exact: moments_het_sym].
congr (_ *: _); apply/matrixP => r s; rewrite QE [LHS]mxE /avec (_ : col s 0 = 0) ?mulmx0 ?mxE ?addr0 //.
by apply/matrixP => i j; rewrite !mxE.
Qed.
(** GM_Error_Het *)
Theorem C87_vm_error_het (G : 'M[R]_2) k (x : 'M[R]_(n, k)) :
  let xs := sp_filter W lam x in let J := moment_slope G lam in
  let psi := moment_weight false A us xs xs (random_sign us) in
  vm_error_het G lam x u W (get_A1_het W) =
    if [&& xs^T *m xs \in unitmx, psi \in unitmx & J != 0] then Some (estimator_cov false A us xs xs J (random_sign us)) else None.
Proof.
move=> xs J psi; rewrite /vm_error_het /get_vm_het -/xs gv_jE -/J (C87_het_weight xs xs) -/psi /la_inv.
case: ifP => U1 //=; case: ifP => U2 //=.
have PS : psd psi by rewrite /psi sign_vec; apply: weight_psd; exact: bool0.
rewrite quad_unit //; case: ifP => // J0; congr Some.
rewrite sign_vec estimator_covE //; [|exact: bool0|exact: sign1|exact: moments_het_sym].
have [_ E] := tsls_map xs U1.
have D : Dm xs xs = invmx (xs^T *m xs) *m xs^T by rewrite E mulmxV // mul1mx.
have n0 : n%:R != 0 :> R by exact: (@weight_n0 R n _ _ _ (vsign us) _ _ _ _ _ U2).
have -> : S2 (vsign us) *m avec xs xs A us false + S3 (vsign us) A = 0.
  rewrite /avec mulmx0 add0r; apply/matrixP => i r; by rewrite !mxE sign3 mul0r.
rewrite mulmx0 !mul0mx trmx0 scale_block_mx !scaler0 sigmaE -sign_vec -/psi; congr block_mx.
rewrite scalerA mulVf // scale1r D trmx_mul trmxK !mulmxA; congr (_ *m _); apply/esym/invmx_sym; by rewrite trmx_mul trmxK.
Qed.
Lemma P_hatE k h (z : 'M[R]_(n, k)) (hm : 'M[R]_(n, h)) : hm^T *m hm \in unitmx ->
  get_P_hat hm (invmx (hm^T *m hm)) z = if (hm *m invmx (hm^T *m hm) *m hm^T *m z)^T *m (hm *m invmx (hm^T *m hm) *m hm^T *m z) \in unitmx
    then Some (n%:R *: (invmx (hm^T *m hm) *m (hm^T *m z) *m invmx (z^T *m hm *m invmx (hm^T *m hm) *m hm^T *m z))) else None.
Proof.
move=> U; have [-> _] := tsls_map z U; rewrite /get_P_hat /la_inv trmx_mul trmxK !mulmxA; by case: ifP.
Qed.
Lemma hP k h (z : 'M[R]_(n, k)) (hm : 'M[R]_(n, h)) : hm^T *m hm \in unitmx ->
  hm *m (n%:R *: (invmx (hm^T *m hm) *m (hm^T *m z) *m invmx (z^T *m hm *m invmx (hm^T *m hm) *m hm^T *m z))) = n%:R *: (Dm z hm)^T.
Proof.
move=> U; have [_ ->] := tsls_map z U; set I := invmx (hm^T *m hm).
have sI : I^T = I by apply: invmx_sym; rewrite trmx_mul trmxK.
rewrite trmx_mul (_ : (invmx (z^T *m hm *m I *m hm^T *m z))^T = invmx (z^T *m hm *m I *m hm^T *m z)); last first.
  by apply: invmx_sym; rewrite !trmx_mul sI !trmxK !mulmxA.
by rewrite -scalemxAr !trmx_mul sI !trmxK !mulmxA.
Qed.
(** the weighting matrix with endogenous variables is invertible whenever the one without is *)
Theorem C87_het_weight_unit k h (Z : 'M[R]_(n, k)) (H : 'M[R]_(n, h)) : get_vc_het W (get_A1_het W) (get_psi_sigma W u lam) \in unitmx ->
  moment_weight true A us Z H (random_sign us) \in unitmx.
Proof.
move=> U; have Pf : psd (moment_weight false A us Z H (random_sign us)) by rewrite sign_vec; apply: weight_psd; exact: bool0.
rewrite (C87_het_weight Z H) in U; have [sf pf] := psd_unit_pd Pf U; apply: pd_unit.
set av := avec Z H A us true; set S := S2 (vsign us).
have -> : moment_weight true A us Z H (random_sign us) = moment_weight false A us Z H (random_sign us) + n%:R^-1 *: (av^T *m S *m av).
  rewrite -(C87_het_weight Z H) vcE sign_vec weightE; [|exact: bool0|exact: sign1|exact: moments_het_sym].
  rewrite -scalerDr; congr (_ *: _); apply/matrixP => r s; rewrite QE [RHS]mxE; congr (_ + _); first by rewrite mxE.
  rewrite -/av -/S !mxE; apply: eq_bigr => i _; rewrite !mxE; congr (_ * _); by apply: eq_bigr => j _; rewrite !mxE.
have sS : S^T = S by rewrite /S /S2 tr_diag_mx.
split=> [|c c0]; first by rewrite linearD /= sf linearZ /= !trmx_mul trmxK sS mulmxA.
rewrite mulmxDr mulmxDl mxE ltr_paddr ?pf // -scalemxAr -scalemxAl mxE mulr_ge0 ?invr_ge0 ?ler0n //.
have -> : c^T *m (av^T *m S *m av) *m c = (av *m c)^T *m S *m (av *m c) by move: av => a0; rewrite trmx_mul !mulmxA.
move: (av *m c) => d.
rewrite mxE sumr_ge0 // => i _; rewrite /S /S2 mul_mx_diag !mxE sign2 mulrAC -expr2 mulr_ge0 ?sqr_ge0 //.
Qed.
(** GM_Endog_Error_Het, GM_Combo_Het *)
Theorem C87_vm_endog_het (G : 'M[R]_2) k h (z : 'M[R]_(n, k)) (hm : 'M[R]_(n, h)) :
  let zs := sp_filter W lam z in let zhat := hm *m invmx (hm^T *m hm) *m hm^T *m zs in let J := moment_slope G lam in
  let psi := moment_weight true A us zs hm (random_sign us) in
  vm_endog_het G lam z hm u W (get_A1_het W) =
    if [&& hm^T *m hm \in unitmx, zhat^T *m zhat \in unitmx, psi \in unitmx & J != 0]
    then Some (estimator_cov true A us zs hm J (random_sign us)) else None.
Proof.
move=> zs zhat J psi; rewrite /vm_endog_het -/zs {1}/la_inv.
case: ifP => U0 //=; rewrite P_hatE // -/zhat; case: ifP => U1 //=.
rewrite /get_a1a2 /get_Omega_GS2SLS gv_jE -/J (C87_het_weight zs hm) -/us.
set P := n%:R *: _; have HP : hm *m P = n%:R *: (Dm zs hm)^T by exact: hP.
set av := avec zs hm A us true.
have [a1 a2] : hm *m P *m (- 2%:R / n%:R *: (zs^T *m get_A1_het W *m us)) = col 0 av /\
  hm *m P *m (- 1 / n%:R *: (zs^T *m (W + W^T) *m us)) = col 1 av.
  have n0 : (n == 0%N) || (n%:R != 0 :> R) by rewrite pnatr_eq0; case: (n == 0%N).
  have Ec r : col r av = - 2%:R *: ((Dm zs hm)^T *m zs^T *m A r *m us).
    by apply/matrixP => i j; rewrite !mxE [j]ord1.
  rewrite HP A1_hetE moments_het1 !Ec -!scalemxAl -!scalemxAr -!scalemxAl !scalerA !mulmxA.
  case/orP: n0 => [/eqP nz|n0].
    by split; apply/matrixP => i; have := ltn_ord i; rewrite [X in (_ < X)%N]nz.
  split; congr (_ *: _); first by rewrite mulrCA mulfV // mulr1.
  by rewrite mulrCA mulfV // mulr1 mulNr mulfV ?two0.
  by rewrite mulfV ?two0 // scale1r !mulmxA.
rewrite a1 a2.
have -> : moment_weight false A us zs hm (random_sign us) + n%:R^-1 *: mx2 (((col 0 av)^T *m get_psi_sigma W u lam *m col 0 av) 0 0)
  (((col 0 av)^T *m get_psi_sigma W u lam *m col 1 av) 0 0) (((col 1 av)^T *m get_psi_sigma W u lam *m col 0 av) 0 0)
  (((col 1 av)^T *m get_psi_sigma W u lam *m col 1 av) 0 0) = psi.
  rewrite -(C87_het_weight zs hm) vcE /psi sign_vec weightE; [|exact: bool0|exact: sign1|exact: moments_het_sym].
  rewrite -scalerDr; congr (_ *: _).
  rewrite (_ : mx2 _ _ _ _ = \matrix_(r, s) ((col r av)^T *m S2 (vsign us) *m col s av) 0 0); last first.
    by rewrite [RHS]mx2P sigmaE; congr mx2; rewrite [RHS]mxE.
  by apply/matrixP => r s; rewrite QE [LHS]mxE; congr (_ + _); rewrite mxE.
rewrite {1}/la_inv; case: ifP => U2 //=.
have PS : psd psi by rewrite /psi sign_vec; apply: weight_psd; exact: bool0.
rewrite /la_inv quad_unit //; case: ifP => // J0; congr Some.
rewrite sign_vec estimator_covE //; [|exact: bool0|exact: sign1|exact: moments_het_sym].
have n0 : n%:R != 0 :> R by exact: (@weight_n0 R n _ _ _ (vsign us) _ _ _ _ _ U2).
have -> : S3 (vsign us) A = 0 by apply/matrixP => i r; rewrite !mxE sign3 mul0r.
rewrite addr0 -sign_vec -/psi sigmaE -/av; set S := S2 _.
rewrite -!block_mxEh !mulmx_block !(mul0mx, mulmx0, addr0, add0r) scale_block_mx.
have PH : P^T *m hm^T = n%:R *: Dm zs hm by rewrite -trmx_mul HP linearZ /= trmxK.
have sS : S^T = S by rewrite /S /S2 tr_diag_mx.
have sI : (invmx psi)^T = invmx psi by apply: (invmx_sym PS.1).
have sJ : (invmx (J^T *m invmx psi *m J))^T = invmx (J^T *m invmx psi *m J) by apply: invmx_sym; exact: quad_sym.
have UJ : J^T *m invmx psi *m J \in unitmx by rewrite quad_unit.
have DL (b : 'M[R]_(n, 1 + 1)) : n%:R^-1 *: (P^T *m (n%:R^-1 *: (hm^T *m S) *m b) *m (invmx psi *m J *m invmx (J^T *m invmx psi *m J))) =
  Dm zs hm *m (S *m b) *m (invmx psi *m J) *m (n%:R^-1 *: invmx (J^T *m invmx psi *m J)).
  move: (J^T *m invmx psi *m J) (invmx psi) (Dm zs hm) PH => q0 p0 d0 PH; rewrite -!scalemxAl -!scalemxAr -!scalemxAl; congr (_ *: _).
  by rewrite !mulmxA PH -!scalemxAl scalerA mulVf // scale1r ?mulmxA.
rewrite -row2 -[in RHS]DL.
clearbody P av S psi; move: (Dm zs hm) HP PH {DL a1 a2} => D0 HP PH; congr block_mx.
- rewrite -!scalemxAl -!scalemxAr -!scalemxAl !mulmxA PH -[_ *m hm *m P]mulmxA HP -!scalemxAl -!scalemxAr !scalerA.
  by rewrite mulVf // mulr1 mulVf // scale1r.
- rewrite [in RHS]linearZ /=; congr (_ *: _).
  move: av (invmx (J^T *m invmx psi *m J)) sJ => r0 i0 si.
  have -> (b : 'M[R]_(h, 2)) : (P^T *m b *m (invmx psi *m J *m i0))^T = i0 *m (J^T *m invmx psi) *m b^T *m P.
    by rewrite !trmx_mul sI si trmxK !mulmxA.
  by [].
- congr (_ *: _); rewrite !mulmxA -[_ *m invmx psi *m psi]mulmxA mulVmx // mulmx1.
  move: UJ; set i0 := J^T *m invmx psi *m J => UJ.
  have -> : invmx i0 *m J^T *m invmx psi *m J = invmx i0 *m i0 by rewrite /i0 !mulmxA.
  by rewrite mulVmx // mul1mx.
Qed.
End Het.

Section Psd.
Variables (R : realFieldType) (n k h : nat) (W : finType) (v : 'I_n -> W -> R).
Add Field Ff3 : (@p_ft R).
Hypothesis W0 : (0 < #|W|)%N.
Hypothesis M0 : forall i, mom v 1 i = 0.
Variables (Z : 'M[R]_(n, k)) (H : 'M[R]_(n, h)) (A : 'I_2 -> 'M[R]_n) (us : 'cV[R]_n) (endog : bool) (J : 'cV[R]_2).
Hypothesis sA : forall r, (A r)^T = A r.
Let psi := moment_weight endog A us Z H (vec v).
Lemma cov_psd : psi \in unitmx -> J != 0 -> let V := estimator_cov endog A us Z H J (vec v) in
  psd V /\ V (rshift k 0) (rshift k 0) = (n%:R * (J^T *m invmx psi *m J) 0 0)^-1 /\ 0 < V (rshift k 0) (rshift k 0).
Proof.
move=> U J0 V; have P1 : psd V by apply: covmx_psd; exact: T0.
have E : V (rshift k 0) (rshift k 0) = (n%:R * (J^T *m invmx psi *m J) 0 0)^-1.
  rewrite /V estimator_covE // block_mxEdr mxE -/psi.
  have UJ : J^T *m invmx psi *m J \in unitmx by rewrite quad_unit //; apply: weight_psd.
  move: UJ; move: (J^T *m _ *m J) => q UJ.
  have : (q *m invmx q) 0 0 = 1 by rewrite mulmxV // mxE.
  rewrite mxE big_ord1 => e; rewrite invfM; congr (_ * _).
  have q0 : q 0 0 != 0 by rewrite -unit11.
  by apply: (mulfI q0); rewrite e mulfV.
split=> //; split=> //; rewrite E invr_gt0 mulr_gt0 //.
  by rewrite lt0r (weight_n0 U) ler0n.
by have [_ q] := pd_inv (psd_unit_pd (weight_psd v W0 Z H A us endog) U); apply: q.
Qed.
End Psd.

Section HetPsd.
Variables (R : realFieldType) (n : nat) (W : 'M[R]_n) (u : 'cV[R]_n) (lam : R) (G : 'M[R]_2).
Hypothesis W0 : forall i, W i i = 0.
(** the covariance matrices are symmetric and positive semidefinite and the variance of the spatial parameter is positive *)
Theorem C87_het_psd k (x : 'M[R]_(n, k)) V : vm_error_het G lam x u W (get_A1_het W) = Some V -> psd V /\ 0 < V (rshift k 0) (rshift k 0).
Proof.
rewrite C87_vm_error_het // sign_vec; case: ifP => // /and3P [_ U J0] [<-].
by case: (cov_psd bool0 (sign1 _) (@moments_het_sym _ _ _) U J0) => ? [].
Qed.
Theorem C87_endog_het_psd k h (z : 'M[R]_(n, k)) (hm : 'M[R]_(n, h)) V : vm_endog_het G lam z hm u W (get_A1_het W) = Some V ->
  psd V /\ 0 < V (rshift k 0) (rshift k 0).
Proof.
rewrite C87_vm_endog_het // sign_vec; case: ifP => // /and4P [_ _ U J0] [<-].
by case: (cov_psd bool0 (sign1 _) (@moments_het_sym _ _ _) U J0) => ? [].
Qed.
End HetPsd.
