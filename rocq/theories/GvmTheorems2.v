(** C87: covariance matrices of the GM estimators with homoskedastic innovations. *)
From mathcomp Require Import all_ssreflect all_algebra.
From Coq Require Import Ring Field.
From Verif Require Import Mring LinRegModel LinRegProofs LinRegProofs2 MLTheorems3 FilterModel GvmModel GvmSpec GvmProofs GvmProofs2 GvmTheorems.
Set Implicit Arguments.
Unset Strict Implicit.
Unset Printing Implicit Defensive.
Import Order.TTheory GRing.Theory Num.Theory.
Local Open Scope ring_scope.

Section Common.
Variables (R : realFieldType) (n : nat).
Add Field Ff : (@p_ft R).
Implicit Types (W : 'M[R]_n) (e : 'cV[R]_n).
Lemma A1_homE W kp : get_A1_hom W kp = moments_hom W kp 0.
Proof. by rewrite /get_A1_hom /moments_hom eqxx -/(\tr _); case: kp => //; rewrite scale1r. Qed.
Lemma A2_homE W kp : get_A2_hom W = moments_hom W kp 1.
Proof. by []. Qed.
Lemma moments_hom_sym W kp r : (moments_hom W kp r)^T = moments_hom W kp r.
Proof.
rewrite /moments_hom; case: (r == 0); last exact: sym_part_sym.
by rewrite linearZ /= linearB /= trmx_mul trmxK tr_scalar_mx.
Qed.
Lemma moments_hom_diag W kp i : W i i = 0 -> moments_hom W kp 1 i i = 0.
Proof. exact: sym_part_diag. Qed.
Definition vdraw e (i j : 'I_n) : R := e j 0.
Definition vsdraw e (i : 'I_n) (d : 'I_n * bool) : R := if d.2 then e d.1 0 else - e d.1 0.
Lemma mom_draw e c i : mom (vdraw e) c i = (\sum_j e j 0 ^+ c) / n%:R.
Proof. by rewrite /mom /ev card_ord mulrC. Qed.
Lemma mom_sdraw e c i : mom (vsdraw e) c i = (\sum_j 2%:R^-1 * (e j 0 ^+ c + (- e j 0) ^+ c)) / n%:R.
Proof.
rewrite /mom /ev card_prod card_ord card_bool natrM invfM -mulrA mulrC; congr (_ / _).
rewrite (eq_bigr (fun d : 'I_n * bool => (fun j b => (if b then e j 0 else - e j 0) ^+ c) d.1 d.2)) => [|[j b] _] //.
by rewrite -(pair_bigA _ (fun j (b : bool) => (if b then e j 0 else - e j 0) ^+ c)) /= mulr_sumr; apply: eq_bigr => j _; rewrite big_bool.
Qed.
Lemma sdraw1 e i : mom (vsdraw e) 1 i = 0.
Proof. by rewrite mom_sdraw big1 ?mul0r // => j _; rewrite !expr1 subrr mulr0. Qed.
Lemma sdraw2 e i : mom (vsdraw e) 2 i = gv_sig2 e.
Proof.
rewrite mom_sdraw /gv_sig2 /dot mxE; congr (_ / _); apply: eq_bigr => j _; by rewrite sqrrN half_two !mxE expr2.
Qed.
Lemma sdraw3 e i : mom (vsdraw e) 3 i = 0.
Proof. by rewrite mom_sdraw big1 ?mul0r // => j _; rewrite exprNn -signr_odd /= expr1 mulN1r subrr mulr0. Qed.
Lemma sdraw4 e i : mom (vsdraw e) 4 i = gv_mu4 e.
Proof.
rewrite mom_sdraw /gv_mu4; congr (_ / _); apply: eq_bigr => j _; by rewrite exprNn -signr_odd /= expr0 mul1r half_two.
Qed.
Lemma draw1 e i : \sum_j e j 0 = 0 -> mom (vdraw e) 1 i = 0.
Proof. by move=> s0; rewrite mom_draw (eq_bigr (fun j => e j 0)) ?s0 ?mul0r. Qed.
Lemma draw2 e i : mom (vdraw e) 2 i = gv_sig2 e.
Proof. by rewrite mom_draw /gv_sig2 /dot mxE; congr (_ / _); apply: eq_bigr => j _; rewrite !mxE expr2. Qed.
Lemma draw3 e i : mom (vdraw e) 3 i = gv_mu3 e. Proof. exact: mom_draw. Qed.
Lemma draw4 e i : mom (vdraw e) 4 i = gv_mu4 e. Proof. exact: mom_draw. Qed.
Lemma ord_gt0 : (0 < n)%N -> (0 < #|[finType of 'I_n]|)%N. Proof. by rewrite card_ord. Qed.
Lemma ordb_gt0 : (0 < n)%N -> (0 < #|[finType of 'I_n * bool]|)%N. Proof. by rewrite card_prod card_ord card_bool muln_gt0 andbT. Qed.
Lemma draw_vec e : random_draw e = vec (vdraw e) :> (_ -> _). Proof. by []. Qed.
Lemma sdraw_vec e : random_signed_draw e = vec (vsdraw e) :> (_ -> _). Proof. by []. Qed.
Lemma la_inv_scale k (X : 'M[R]_k) (c : R) : c != 0 -> la_inv (c *: X) = if X \in unitmx then Some (c^-1 *: invmx X) else None.
Proof.
move=> c0; have U : (c *: X \in unitmx) = (X \in unitmx) by rewrite unitmxZ // unitfE.
by rewrite /la_inv U; case: ifP => // UX; rewrite invmxZ // U.
Qed.
End Common.

Section Hom.
Variables (R : realFieldType) (n : nat) (W : 'M[R]_n) (kp : bool) (u : 'cV[R]_n) (lam : R).
Add Field Ff2 : (@p_ft R).
Hypothesis W0 : forall i, W i i = 0.
Let us := sp_filter W lam u.
Notation A := (moments_hom W kp).
Notation A1 := (get_A1_hom W kp).
Notation A2 := (get_A2_hom W).
Section Gen.
Variables (D : finType) (v : 'I_n -> D -> R) (m3 : R).
Hypothesis D0 : (0 < #|D|)%N.
Hypothesis M1 : forall i, mom v 1 i = 0.
Hypothesis M2 : forall i, mom v 2 i = gv_sig2 us.
Hypothesis M3 : forall i, mom v 3 i = m3.
Hypothesis M4 : forall i, mom v 4 i = gv_mu4 us.
Lemma S2h : S2 v = (gv_sig2 us)%:M.
Proof. by apply/matrixP => i j; rewrite !mxE M2. Qed.
Lemma S3h : S3 v A = m3 *: row_mx (gv_vecd A1) 0 :> 'M[R]_(n, 1 + 1).
Proof.
apply/matrixP => i j; rewrite [LHS]mxE [RHS]mxE M3 mxE; congr (_ * _); case: (split_ordP j) => l ->; rewrite [l]ord1 {l}.
  by rewrite [RHS]mxE A1_homE; congr (moments_hom W kp _ i i); apply: val_inj.
by rewrite [RHS]mxE -(@moments_hom_diag _ _ W kp i) //; congr (moments_hom W kp _ i i); apply: val_inj.
Qed.
Lemma Qh k h (Z : 'M[R]_(n, k)) (H : 'M[R]_(n, h)) endog :
  forall a1 a2 psi11 psi12 psi22, hom_psi_n W A1 A2 u lam = (psi11, psi12, psi22) ->
  a1 = col 0 (avec Z H A us endog) -> a2 = col 1 (avec Z H A us endog) ->
  Q v Z H A us endog = mx2 (psi11 + gv_sig2 us * dot a1 a1 + 2%:R * m3 * dot a1 (gv_vecd A1))
    (psi12 + gv_sig2 us * dot a1 a2 + m3 * dot a2 (gv_vecd A1)) (psi12 + gv_sig2 us * dot a1 a2 + m3 * dot a2 (gv_vecd A1))
    (psi22 + gv_sig2 us * dot a2 a2).
Proof.
move=> a1 a2 p11 p12 p22 [<- <- <-] -> ->; rewrite -/us; set a := avec _ _ _ _ _; set sg := gv_sig2 us; set mu4 := gv_mu4 us.
have tE r s : 2%:R * \tr (A r *m S2 v *m A s *m S2 v) = 2%:R * (sg ^+ 2 * \tr (A r *m A s)).
  by rewrite S2h !mul_mx_scalar -scalemxAl scalerA mxtraceZ expr2.
have aE r s : ((col r a)^T *m S2 v *m col s a) 0 0 = sg * dot (col r a) (col s a).
  by rewrite S2h mul_mx_scalar -scalemxAl mxE.
have dE r s : \sum_i A r i i * A s i i * (mom v 4 i - 3%:R * mom v 2 i ^+ 2) = (mu4 - 3%:R * sg ^+ 2) * \sum_i A r i i * A s i i.
  by rewrite mulr_sumr; apply: eq_bigr => i _; rewrite M2 M4 mulrC.
have lE r s : \sum_i mom v 3 i * (A r i i * a i s + A s i i * a i r) = m3 * (\sum_i A r i i * a i s + \sum_i A s i i * a i r).
  by rewrite -big_split mulr_sumr; apply: eq_bigr => i _; rewrite M3.
have z2 (f : 'I_n -> R) : \sum_i A 1 i i * f i = 0 by rewrite big1 // => i _; rewrite moments_hom_diag // mul0r.
have z3 (f : 'I_n -> R) : \sum_i f i * A 1 i i = 0 by rewrite big1 // => i _; rewrite moments_hom_diag // mulr0.
have v1 s : \sum_i A 0 i i * a i s = dot (col s a) (gv_vecd A1).
  by rewrite A1_homE /dot mxE; move: (A 0) {aE lE} a => B b; apply: eq_bigr => i _; rewrite !mxE mulrC.
have vv : \sum_i A 0 i i * A 0 i i = dot (gv_vecd A1) (gv_vecd A1).
  by rewrite A1_homE /dot mxE; move: (A 0) => B; apply: eq_bigr => i _; rewrite !mxE.
have tr12 (B C : 'M[R]_n) : \tr (B *m (2%:R *: C)) = 2%:R * \tr (B *m C) by rewrite -scalemxAr mxtraceZ.
have tr22 (B : 'M[R]_n) : \tr (2%:R *: B) = 2%:R * \tr B by rewrite mxtraceZ.
rewrite [LHS]mx2P ![Q _ _ _ _ _ _ _ _]mxE !tE !aE !dE !lE !z2 ?z3 !v1 vv -/A1 (A1_homE W kp) (A2_homE W kp) tr12 tr22.
have cD : dot (col 1 a) (col 0 a) = dot (col 0 a) (col 1 a).
  by rewrite /dot ![(_ *m _) 0 0]mxE; apply: eq_bigr => i _; rewrite !mxE mulrC.
rewrite cD (mxtrace_mulC (A 1) (A 0)) {tE aE dE lE z2 z3 v1 vv cD}; congr mx2; rewrite [2%:R]mulr2n;
  clearbody a sg mu4; repeat match goal with |- context [dot ?b ?c] => move: (dot b c) => ? end; move: (\tr _) => t; mring R.
Qed.
End Gen.
Section Gen2.
Variables (D : finType) (v : 'I_n -> D -> R) (m3 : R).
Hypothesis D0 : (0 < #|D|)%N.
Hypothesis M1 : forall i, mom v 1 i = 0.
Hypothesis M2 : forall i, mom v 2 i = gv_sig2 us.
Hypothesis M3 : forall i, mom v 3 i = m3.
Hypothesis M4 : forall i, mom v 4 i = gv_mu4 us.
Lemma weight_homE k h (Z : 'M[R]_(n, k)) (H : 'M[R]_(n, h)) : get_vc_hom W A1 A2 u lam = moment_weight false A us Z H (vec v).
Proof.
rewrite weightE //; last exact: moments_hom_sym.
rewrite /get_vc_hom; case E : (hom_psi_n _ _ _ _ _) => [[p11 p12] p22]; rewrite (@Qh D v m3 M2 M3 M4 k h Z H false _ _ _ _ _ E erefl erefl).
have z r : col r (avec Z H A us false) = 0 by apply/matrixP => i j; rewrite !mxE.
have d0 (c : 'cV[R]_n) : dot 0 c = 0 by rewrite /dot trmx0 mul0mx mxE.
by rewrite !z !d0 !mulr0 !addr0.
Qed.
End Gen2.
(** the weighting matrix of GM_Error_Hom: n times the covariance matrix of the moments *)
Theorem C87_hom_weight k h (Z : 'M[R]_(n, k)) (H : 'M[R]_(n, h)) : (0 < n)%N ->
  get_vc_hom W A1 A2 u lam = moment_weight false A us Z H (random_signed_draw us) /\
  (\sum_i us i 0 = 0 -> get_vc_hom W A1 A2 u lam = moment_weight false A us Z H (random_draw us)).
Proof.
move=> n0; split=> [|s0].
  exact: (@weight_homE _ (vsdraw us) 0 (ordb_gt0 n0) (sdraw1 us) (sdraw2 us) (sdraw3 us) (sdraw4 us)).
exact: (@weight_homE _ (vdraw us) (gv_mu3 us) (ord_gt0 n0) (fun i => draw1 i s0) (draw2 us) (draw3 us) (draw4 us)).
Qed.
(** ... hence positive semidefinite, whatever the residuals *)
Theorem C87_hom_weight_psd : psd (get_vc_hom W A1 A2 u lam).
Proof.
case: (posnP n) => [n0|n0].
  rewrite /get_vc_hom; case: (hom_psi_n _ _ _ _ _) => [[p11 p12] p22]; rewrite n0 invr0 scale0r.
  by split=> [|c]; rewrite ?trmx0 // mulmx0 mul0mx mxE.
have [-> _] := @C87_hom_weight 0 0 0 0 n0; rewrite sdraw_vec; apply: weight_psd; exact: ordb_gt0.
Qed.
Notation draw_weight endog Z H := (moment_weight endog A us Z H (random_draw us)).
(** GM_Endog_Error_Hom, GM_Combo_Hom *)
Theorem C87_vm_endog_hom (G : 'M[R]_2) k h (z : 'M[R]_(n, k)) (hm : 'M[R]_(n, h)) : (0 < n)%N -> \sum_i us i 0 = 0 ->
  let zs := sp_filter W lam z in let zhat := hm *m invmx (hm^T *m hm) *m hm^T *m zs in let J := moment_slope G lam in
  let psi := moment_weight true A us zs hm (random_draw us) in
  get_omega_hom W A1 A2 z hm u lam G =
    if [&& hm^T *m hm \in unitmx, zhat^T *m zhat \in unitmx, psi \in unitmx & J != 0]
    then Some (estimator_cov true A us zs hm J (random_draw us), (us^T *m us) 0 0 / n%:R) else None.
Proof.
move=> n0 s0 zs zhat J psi.
have nz : n%:R != 0 :> R by rewrite pnatr_eq0 -lt0n.
rewrite /get_omega_hom /get_vc_hom_z -/zs -/us gv_jE -/J (la_inv_scale _ (invr_neq0 nz)) invrK.
case E : (hom_psi_n _ _ _ _ _) => [[p11 p12] p22]; have Q0 := Qh (draw2 us) (draw3 us) (draw4 us) E.
case: ifP => U0 //=.
set I := invmx (hm^T *m hm).
have [ZZ DE] := tsls_map zs U0; rewrite -/I -/zhat in ZZ DE.
have p0E : n%:R *: I *m (n%:R^-1 *: (hm^T *m zs)) = I *m (hm^T *m zs).
  by rewrite -scalemxAl -scalemxAr scalerA mulfV // scale1r.
have p1E : (n%:R^-1 *: (hm^T *m zs))^T *m (I *m (hm^T *m zs)) = n%:R^-1 *: (zhat^T *m zhat).
  by rewrite ZZ linearZ /= -scalemxAl trmx_mul trmxK !mulmxA.
rewrite p0E p1E (la_inv_scale _ (invr_neq0 nz)) invrK; case: ifP => U1 //=.
set P := I *m _ *m _.
have PE : P = n%:R *: (I *m (hm^T *m zs) *m invmx (zs^T *m hm *m I *m hm^T *m zs)).
  by rewrite /P ZZ -scalemxAr !mulmxA.
have HP : hm *m P = n%:R *: (Dm zs hm)^T by rewrite PE; exact: hP.
clearbody P; have {}Q0 := Q0 _ _ zs hm true _ _ erefl erefl; set av := avec zs hm A us true in Q0 *.
have Ec r : col r av = - 2%:R *: ((Dm zs hm)^T *m zs^T *m A r *m us).
  by apply/matrixP => i j; rewrite !mxE [j]ord1.
have aE r : hm *m P *m ((- 2%:R / n%:R) *: (zs^T *m (A r *m us))) = col r av.
  rewrite HP Ec -!scalemxAl -!scalemxAr !scalerA !mulmxA; congr (_ *: _); by rewrite mulrCA mulfV // mulr1.
have a1E := aE 0; have a2E := aE 1; rewrite -(A1_homE W kp) in a1E; rewrite -(A2_homE W kp) in a2E.
rewrite a1E a2E -Q0.
have -> : n%:R^-1 *: Q (vdraw us) zs hm A us true = psi.
  rewrite /psi draw_vec weightE //; [exact: ord_gt0|by move=> i; exact: draw1|exact: moments_hom_sym].
rewrite {1}/la_inv; case: ifP => U2 //=.
rewrite {1}/la_inv U0 {1}/la_inv.
have -> : zs^T *m (hm *m (invmx (hm^T *m hm) *m (hm^T *m zs))) = zhat^T *m zhat by rewrite ZZ !mulmxA.
rewrite U1 {1}/la_inv [J^T *m (_ *m J)]mulmxA.
have PS : psd psi by rewrite /psi draw_vec; apply: weight_psd; exact: ord_gt0.
rewrite quad_unit //; case: ifP => // J0; congr (Some (_, _)).
rewrite draw_vec estimator_covE //; [|exact: ord_gt0|by move=> i; exact: draw1|exact: moments_hom_sym].
rewrite -draw_vec -/psi -/(block_mx _ _ _ _) -/av S2h ?(S3h (draw3 us)); [|exact: draw2].
have PH : P^T *m hm^T = n%:R *: Dm zs hm by rewrite -trmx_mul HP linearZ /= trmxK.
have -> : P^T *m (n%:R^-1 *: (gv_mu3 us *: (hm^T *m row_mx (gv_vecd A1) 0) + gv_sig2 us *: (hm^T *m row_mx (col 0 av) (col 1 av)))) =
  Dm zs hm *m ((gv_sig2 us)%:M *m av + gv_mu3 us *: row_mx (gv_vecd A1) 0) :> 'M[R]_(k, 1 + 1).
  rewrite -row2 !scalemxAr -mulmxDr -scalemxAr mulmxA PH -scalemxAl scalerA mulVf // scale1r addrC mul_scalar_mx //.
congr block_mx.
have sI : I^T = I by apply: invmx_sym; rewrite trmx_mul trmxK.
have UM := U1; rewrite ZZ in UM; rewrite ZZ DE mul_mx_scalar -scalemxAl; congr (_ *: _); clear -sI U0 UM.
set M := zs^T *m hm *m I *m hm^T in UM *.
have MM : M *m M^T = M *m zs.
  have II : I *m (hm^T *m hm) = 1%:M by rewrite /I mulVmx.
  clearbody I; rewrite /M !trmx_mul sI !trmxK !mulmxA; congr (_ *m _); rewrite -[_ *m hm^T *m hm]mulmxA -[_ *m I *m (hm^T *m _)]mulmxA II mulmx1 //.
rewrite trmx_mul mulmxA -[_ *m M *m M^T]mulmxA MM mulVmx // mul1mx; apply/esym/invmx_sym.
by rewrite -MM trmx_mul trmxK.
Qed.
(** GM_Error_Hom.  The covariance of coefficients and spatial parameter is computed with the regressors x where the filtered regressors
    belong: V is the covariance matrix of the estimators plus two off-diagonal blocks. *)
Theorem C87_vm_error_hom (G : 'M[R]_2) k (x : 'M[R]_(n, k)) : (0 < n)%N -> \sum_i us i 0 = 0 ->
  let xs := sp_filter W lam x in let J := moment_slope G lam in
  let psi := moment_weight false A us xs xs (random_draw us) in
  let c := lam * ((\sum_i us i 0 ^+ 3) / n%:R) * ((invmx psi *m J) 0 0 / (n%:R * (J^T *m invmx psi *m J) 0 0)) in
  let E := c *: (invmx (xs^T *m xs) *m (W *m x)^T *m \col_i A 0 i i) in
  get_omega_hom_ols W A1 A2 x u lam G =
    if [&& xs^T *m xs \in unitmx, psi \in unitmx & J != 0]
    then Some (estimator_cov false A us xs xs J (random_draw us) + block_mx 0 E E^T 0, (us^T *m us) 0 0 / n%:R) else None.
Proof.
move=> n0 s0 xs J psi c E.
have nz : n%:R != 0 :> R by rewrite pnatr_eq0 -lt0n.
rewrite /get_omega_hom_ols -/xs -/us gv_jE -/J ((@C87_hom_weight _ _ xs xs n0).2 s0) -/psi (la_inv_scale _ (invr_neq0 nz)) invrK.
case: ifP => U0 //=; rewrite {1}/la_inv; case: ifP => U2 //=.
rewrite {1}/la_inv U0 [J^T *m (_ *m J)]mulmxA {1}/la_inv.
have PS : psd psi by rewrite /psi draw_vec; apply: weight_psd; exact: ord_gt0.
rewrite quad_unit //; case: ifP => // J0; congr (Some (_, _)).
rewrite draw_vec estimator_covE //; [|exact: ord_gt0|by move=> i; exact: draw1|exact: moments_hom_sym].
rewrite -draw_vec -/psi S2h ?(S3h (draw3 us)); [|exact: draw2].
have [_ DE] := tsls_map xs U0.
have D : Dm xs xs = invmx (xs^T *m xs) *m xs^T by rewrite DE mulmxV // mul1mx.
have sI : (invmx (xs^T *m xs))^T = invmx (xs^T *m xs) by apply: invmx_sym; rewrite trmx_mul trmxK.
rewrite D /avec mulmx0 add0r.
set oLL := n%:R^-1 *: invmx (J^T *m invmx psi *m J).
set va := row_mx (gv_vecd A1) 0.
have v2 (B : 'M[R]_(k, n)) (b : 'cV[R]_2) : B *m va *m b = b 0 0 *: (B *m \col_i A 0 i i).
  rewrite -mulmxA (_ : va *m b = b 0 0 *: \col_i A 0 i i) -?scalemxAr //.
  apply/matrixP => i j; rewrite [j]ord1 mxE big_ord_recl big_ord1 [RHS]mxE.
  have -> : va i ord0 = gv_vecd A1 i 0 by rewrite -[RHS](row_mxEl _ (0 : 'cV[R]_n)); congr (va i _); apply: val_inj.
  have -> : va i (lift ord0 0) = 0.
    transitivity ((0 : 'cV[R]_n) i 0); last by rewrite mxE.
    by rewrite -[RHS](row_mxEr (gv_vecd A1)); congr (va i _); apply: val_inj.
  rewrite mul0r addr0 mulrC (_ : ord0 = 0) //; congr (_ * _).
  by rewrite [LHS]mxE [RHS]mxE A1_homE.
have oE (B : 'cV[R]_k) : B *m oLL = (n%:R * (J^T *m invmx psi *m J) 0 0)^-1 *: B.
  have UJ : J^T *m invmx psi *m J \in unitmx by rewrite quad_unit.
  rewrite /oLL -scalemxAr invfM -scalerA; congr (_ *: _); move: (J^T *m invmx psi *m J) UJ => q UJ.
  have q0 : q 0 0 != 0 by rewrite -unit11.
  have -> : invmx q = (q 0 0)^-1%:M.
    have e : q = (q 0 0)%:M by apply/matrixP => a b; rewrite [a]ord1 [b]ord1 [RHS]mxE.
    by rewrite {1}e invmx_scalar.
  by rewrite mul_mx_scalar.
clearbody va oLL.
set T1 := invmx (xs^T *m xs) *m xs^T *m (gv_mu3 us *: va) *m (invmx psi *m J) *m oLL.
have -> : (n%:R *: invmx (xs^T *m xs))^T *m (n%:R^-1 *: (gv_mu3 us *: (x^T *m va))) *m (invmx psi *m J) *m oLL = T1 + E.
  have -> : (n%:R *: invmx (xs^T *m xs))^T = n%:R *: invmx (xs^T *m xs) by rewrite linearZ /= sI.
  have -> : x^T = xs^T + lam *: (W *m x)^T by rewrite /xs /sp_filter linearB /= linearZ /= subrK.
  rewrite /T1 !oE.
  have -> : E = (n%:R * (J^T *m invmx psi *m J) 0 0)^-1 *: ((lam * gv_mu3 us) *: (invmx (xs^T *m xs) *m (W *m x)^T *m va *m (invmx psi *m J))).
    rewrite v2 !scalerA /E /c /gv_mu3; congr (_ *: _); move: (_^-1) (_ / _) (_ 0 0) => a b d; mring R.
  rewrite -scalerDr; congr (_ *: _); clear E T1; clear c; move: ((W *m x)^T) (invmx psi *m J) (xs^T) (invmx (xs^T *m xs)) => Y b X I0.
  rewrite -!scalemxAl -!scalemxAr -!scalemxAl !scalerA mulfV // mul1r.
  rewrite !mulmxDl !mulmxDr !mulmxDl scalerDr !mulmxA; congr (_ + _).
  by rewrite -!scalemxAr -!scalemxAl scalerA mulrC.
rewrite -/(block_mx _ _ _ _) add_block_mx !addr0 (_ : (T1 + E)^T = T1^T + E^T); last exact: linearD.
congr block_mx.
rewrite mul_mx_scalar -scalemxAl trmx_mul trmxK sI; congr (_ *: _).
by rewrite mulmxA -[_ *m xs^T *m xs]mulmxA mulVmx // mul1mx.
Qed.
(* partial; missing: agreement with the covariance matrix of the estimators when the spatial parameter, the third moment of the filtered residuals and the
   products of W x with the diagonal of the first moment matrix are all non-zero (false then, C87_hom_refuted) *)
Theorem C87_vm_error_hom_partial (G : 'M[R]_2) k (x : 'M[R]_(n, k)) V s2 : (0 < n)%N -> \sum_i us i 0 = 0 ->
  get_omega_hom_ols W A1 A2 x u lam G = Some (V, s2) ->
  [\/ lam = 0, \sum_i us i 0 ^+ 3 = 0 | forall j, \sum_i (W *m x) i j * A 0 i i = 0] ->
  V = estimator_cov false A us (sp_filter W lam x) (sp_filter W lam x) (moment_slope G lam) (random_draw us) /\ psd V /\
  0 < V (rshift k 0) (rshift k 0).
Proof.
move=> n0 s0; rewrite C87_vm_error_hom //; case: ifP => // /and3P [U0 U J0] [<- _] H.
set E := _ *: (_ *m \col_i _).
have -> : E = 0.
  rewrite /E; case: H => [->|->|H]; rewrite ?mul0r ?mulr0 ?mul0r ?scale0r //.
  have Z0 : (W *m x)^T *m (\col_i A 0 i i) = 0.
    apply/matrixP => j l; rewrite [LHS]mxE [RHS]mxE -[RHS](H j); apply: eq_bigr => i _; by rewrite [_^T j i]mxE [X in _ * X]mxE.
  by rewrite -[_ *m (W *m x)^T *m _]mulmxA Z0 mulmx0 scaler0.
rewrite trmx0 (_ : block_mx 0 0 0 0 = 0) ?addr0; last by rewrite block_mx_const.
split=> //; by case: (@cov_psd _ _ _ _ _ (vdraw us) (ord_gt0 n0) (fun i => draw1 i s0) _ _ _ _ _ _ (@moments_hom_sym _ _ _ _) U J0) => ? [].
Qed.
Theorem C87_endog_hom_psd (G : 'M[R]_2) k h (z : 'M[R]_(n, k)) (hm : 'M[R]_(n, h)) V s2 : (0 < n)%N -> \sum_i us i 0 = 0 ->
  get_omega_hom W A1 A2 z hm u lam G = Some (V, s2) -> psd V /\ 0 < V (rshift k 0) (rshift k 0).
Proof.
move=> n0 s0; rewrite C87_vm_endog_hom //; case: ifP => // /and4P [_ _ U J0] [<- _].
by case: (@cov_psd _ _ _ _ _ (vdraw us) (ord_gt0 n0) (fun i => draw1 i s0) _ _ _ _ _ _ (@moments_hom_sym _ _ _ _) U J0) => ? [].
Qed.
End Hom.
