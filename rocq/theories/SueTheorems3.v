(** C85: the estimation loop of seemingly unrelated regressions with spatial errors. *)
From Coq Require Import Reals.
From mathcomp Require Import all_ssreflect all_algebra.
From Verif Require Import Rinst Mring LinRegModel LinRegProofs LinRegProofs2 FilterModel MLModel MLSpec MLProofs MLTheorems Kron PanelModel PfeModel PfeSpec PfeTheorems PreSpec PrrTheorems SurModel
  SurTheorems SueModel SueSpec SueProofs SueTheorems.
Set Implicit Arguments.
Unset Strict Implicit.
Unset Printing Implicit Defensive.
Import Order.TTheory GRing.Theory Num.Theory.
Local Open Scope ring_scope.

Lemma archiN (x : R) : exists N, x < N%:R.
Proof.
have I m : INR m = m%:R by elim: m => [|m IH]; [|rewrite S_INR IH -addn1 natrD].
case: (ltrP 0 x) => x0; last by exists 1%N; apply: le_lt_trans x0 _; rewrite ltr01.
have /ltRP xi : 0 < x^-1 by rewrite invr_gt0.
have [N [/ltRP HN /ssrnat.ltP N0]] := archimed_cor1 _ xi; exists N; move: HN; rewrite RinvE ?I; last by rewrite pnatr_eq0 -lt0n.
by rewrite ltf_pinv ?posrE ?ltr0n.
Qed.
Section Loop.
Variables (G n : nat) (K : 'I_G -> nat) (y : 'I_G -> 'cV[R]_n) (X : forall r, 'M[R]_(n, K r)) (W : 'M[R]_n) (lu : R -> 'M[R]_n).
Variables (minz : 'M[R]_(n, G) -> 'cV[R]_G -> 'cV[R]_G * R) (P : 'cV[R]_G -> Prop) (epsilon c : R).
Implicit Types (b : forall r, 'cV[R]_(K r)) (E : 'M[R]_(n, G)) (lam : 'cV[R]_G).
(** LU.U is the upper factor of I - a W *)
Hypothesis Hlu : forall a, is_lu (1%:M - a *: W) (lu a).
(** the minimiser stays in the box P and returns a point that is no worse than its starting value *)
Hypothesis Hmin : forall b lam, P lam -> let m := minz (sur_resids y X b) lam in
  [/\ P m.1, sue_clik lu W (sur_resids y X b) m.1 = Some m.2 & forall v, sue_clik lu W (sur_resids y X b) lam = Some v -> m.2 <= v].
(** the objective is defined and bounded below by c on the box *)
Hypothesis Hc : forall b lam, P lam -> exists2 v, sue_clik lu W (sur_resids y X b) lam = Some v & c <= v.
Hypothesis He : 0 < epsilon.
Lemma one_pass b lam e : P lam -> sue_est y X W lam (sur_resids y X b) = Some e ->
  let m := minz (sur_resids y X (e_b e)) lam in
  [/\ P m.1, sue_clik lu W (sur_resids y X (e_b e)) m.1 = Some m.2, c <= m.2 & forall v, sue_clik lu W (sur_resids y X b) lam = Some v -> m.2 <= v].
Proof.
move=> Pl He' m; have [Pm Em Lm] := Hmin (e_b e) Pl; have [v1 E1 c1] := Hc (e_b e) Pl; have [v2 E2 c2] := Hc (e_b e) Pm.
split=> // [|v Ev]; first by move: E2; rewrite Em => -[->].
have [_ U _] := sue_clikE Hlu Ev; have [_ /(_ _ _ Ev E1)] := C84_pass Hlu U He'; exact: le_trans (Lm _ E1).
Qed.
Lemma loop_inv fuel fun0 f lam b last it e lam' E' f' it' : P lam -> 
  sue_loop fuel y X W minz epsilon fun0 f lam (sur_resids y X b) last it = SueDone e lam' E' f' it' ->
  ((it' = it /\ last = Some e /\ lam' = lam /\ E' = sur_resids y X b /\ f' = f) \/
   [/\ E' = sur_resids y X (e_b e), sue_clik lu W E' lam' = Some f', P lam',
      (forall v, sue_clik lu W (sur_resids y X b) lam = Some v -> f' <= v)
    & exists lamp bp, [/\ P lamp, sue_est y X W lamp (sur_resids y X bp) = Some e & minz E' lamp = (lam', f')] ]) /\ 
   (it <= it')%N.
Proof.
elim: fuel fun0 f lam b last it => [|fuel IH] fun0 f lam b last it Pl /=; case: ifP => // _.
- by case: last => // e0 [-> <- <- <- <-]; split=> //; left.
- case Ee: sue_est => [e1|//]; case Em: (minz _ _) => [lam1 f1]; have := one_pass Pl Ee; rewrite Em /= => -[P1 C1 c1 L1] Hd.
  have [[[i1 [[<-] [l1 [e2 f2]]]]|[E1 C2 P2 L2 B]] I] := IH _ _ _ _ _ _ P1 Hd.
    split; last by rewrite i1.
    right; rewrite e2 l1 f2; split=> //; exists lam, b; split=> //.
  split; last exact: leq_trans I.
  right; split=> // v /L1; exact: le_trans (L2 _ C1).
- by case: last => // e0 [-> <- <- <- <-]; split=> //; left.
Qed.
Lemma loop_stops fuel fun0 f lam b last it : P lam -> sue_clik lu W (sur_resids y X b) lam = Some f -> f - c < fuel%:R * epsilon ->
  sue_loop fuel y X W minz epsilon fun0 f lam (sur_resids y X b) last it <> SueMore n K.
Proof.
elim: fuel fun0 f lam b last it => [|fuel IH] fun0 f lam b last it Pl Ef L /=; case: ifP => _; try by case: last.
  by have [v] := Hc b Pl; rewrite Ef => -[<-]; rewrite -subr_ge0 => H; have := le_lt_trans H L; rewrite mul0r ltxx.
case Ee: sue_est => [e1|//]; case Em: (minz _ _) => [lam1 f1]; have := one_pass Pl Ee; rewrite Em /= => -[P1 C1 c1 /(_ _ Ef) L1].
case: (ltrP epsilon (f - f1)) => d.
  apply: IH => //; rewrite -(ltr_add2l epsilon); apply: lt_le_trans (_ : f - c <= _); last first.
    by rewrite ltW // (_ : epsilon + _ = fuel.+1%:R * epsilon) // -add1n natrD mulrDl mul1r.
  by rewrite addrA ltr_add2r addrC -ltr_subr_addl.
case: fuel IH L => [|fuel] _ _ /=; by rewrite ger0_norm ?subr_ge0 // ltNge d.
Qed.
Variables (start : 'I_G -> R * R) (b0 : forall r, 'cV[R]_(K r)).
Hypothesis Hs : P (\col_r (start r).1).
Local Notation ml fuel := (base_sue_ml fuel y X W minz epsilon start (sur_resids y X b0)).
(** ** C85_result: what the estimator reports *)
Theorem C85_result : forall fuel r, ml fuel = Some r ->
  [/\ sm_E r = sur_resids y X (sm_b r),
      sue_llik G n (sm_clik r) = sue_loglik y X W (sm_b r) (sm_lam r) (n%:R^-1 *: ((sue_filter W (sm_lam r) (sm_E r))^T *m sue_filter W (sm_lam r) (sm_E r))),
      forall Sig, pd Sig -> sue_loglik y X W (sm_b r) (sm_lam r) Sig <= sue_llik G n (sm_clik r),
      forall Sig, pd Sig -> sue_loglik y X W b0 (sm_lamols r) Sig <= sue_llik G n (sm_clik r)
    & exists lamp, [/\ P lamp, sm_lam r = (minz (sm_E r) lamp).1,
        (exists bp, sm_sig r = n%:R^-1 *: ((sue_filter W lamp (sur_resids y X bp))^T *m sue_filter W lamp (sur_resids y X bp))), pd (sm_sig r)
      & forall b, sue_loglik y X W b lamp (sm_sig r) <= sue_loglik y X W (sm_b r) lamp (sm_sig r)] ].
Proof.
move=> fuel r; rewrite /base_sue_ml; case El: sue_loop => [e lam E f it||] // [<-] /=.
have [[[_ [//]]|[EE EC Pl L [lamp [bp [Pp Ep Em]]]]] _] := loop_inv Hs El.
have [v0 E0 c0] := Hc b0 Hs; rewrite EE in EC *; have [h1 h2 h3] := C84_clik Hlu EC; have [_ _ g3] := C84_clik Hlu E0.
have [v1 E1 _] := Hc bp Pp; have [_ U _] := sue_clikE Hlu E1; have [M _] := C84_pass Hlu U Ep; have [Es PS] := sue_est_sig Ep.
split=> //.
- move=> Sig PSig; apply: le_trans (g3 _ PSig) _; rewrite ler_add2l ler_opp2; exact: L.
- exists lamp; split=> //.
  + by rewrite EE in Em; rewrite Em.
  + by exists bp.
  + by rewrite Es.
  + by move=> b; case: (M b).
Qed.
(** ** C85_varb: the covariance matrix of the coefficients, the correlations and the reported starting values *)
Lemma sue_est_varb lam E e : sue_est y X W lam E = Some e -> e_varb e =
  invmx (\mxblock_(i, j) (invmx (e_sig e) i j *: (((1%:M - lam i 0 *: W) *m X i)^T *m ((1%:M - lam j 0 *: W) *m X j)))).
Proof.
move/est_fields => [_ _ _ -> _]; congr invmx; apply/eq_mxblockP => i j; congr (_ *: _); rewrite /crossXX.
have F k : (1%:M - lam k 0 *: W) *m X k = X k - lam k 0 *: (W *m X k) by rewrite mulmxBl mul1mx -scalemxAl.
by rewrite !F.
Qed.
Theorem C85_varb : forall fuel r, ml fuel = Some r -> exists lamp, [/\ P lamp, sm_lam r = (minz (sm_E r) lamp).1,
    sm_varb r = invmx (\mxblock_(i, j) (invmx (sm_sig r) i j *: (((1%:M - lamp i 0 *: W) *m X i)^T *m ((1%:M - lamp j 0 *: W) *m X j)))),
    (forall i j, sm_corr r i j * (Num.sqrt (sm_sig r i i) * Num.sqrt (sm_sig r j j)) = sm_sig r i j)
  & sm_lamols r = \col_r (start r).1 /\ sm_clikerr r = - \sum_r (start r).2].
Proof.
move=> fuel r; rewrite /base_sue_ml; case El: sue_loop => [e lam E f it||] // [<-] /=.
have [[[_ [//]]|[EE EC Pl L [lamp [bp [Pp Ep Em]]]]] _] := loop_inv Hs El.
have [Es PS] := sue_est_sig Ep; exists lamp; split=> //; first by rewrite Em.
  exact: sue_est_varb Ep.
move=> i j; rewrite mxE [X in _ / X * _]mxE big_ord1 !mxE divfK // mulf_neq0 // gt_eqF // sqrtr_gt0 Es; exact: pd_diag_gt0.
Qed.
(** ** C85_terminates: the loop, which has no iteration limit, ends *)
Theorem C85_terminates : forall v0 N, sue_clik lu W (sur_resids y X b0) (\col_r (start r).1) = Some v0 -> (v0 - c) / epsilon < N%:R -> forall fuel, (N < fuel)%N ->
  sue_loop fuel y X W minz epsilon 0 (\sum_r (start r).2) (\col_r (start r).1) (sur_resids y X b0) None 0 <> SueMore n K.
Proof.
move=> v0 N E0 L [//|fuel] NF /=; case: ifP => // _; case Ee: sue_est => [e1|//]; case Em: (minz _ _) => [lam1 f1].
have := one_pass Hs Ee; rewrite Em /= => -[P1 C1 c1 /(_ _ E0) L1]; apply: loop_stops => //.
apply: (@le_lt_trans _ _ (v0 - c)); first by rewrite ler_add2r.
apply: (@lt_le_trans _ _ (N%:R * epsilon)); first by rewrite -ltr_pdivr_mulr.
by rewrite ler_pmul2r // ler_nat.
Qed.
(** every estimation is possible when the explanatory variables of each equation are linearly independent *)
Lemma est_def b lam : (forall r (c : 'cV[R]_(K r)), X r *m c = 0 -> c = 0) -> P lam -> exists e, sue_est y X W lam (sur_resids y X b) = Some e.
Proof.
move=> F Pl; have [v Ev _] := Hc b Pl; have [PS U _] := sue_clikE Hlu Ev; apply/C46_defined; split; first exact: pd_unit.
move=> r d H; apply: F; apply: (iffLR (unitmx_inj _) (U r)); by rewrite /sB mulmxBl mul1mx -scalemxAl mulmxA -[RHS]H mulmxBl -scalemxAl.
Qed.
Lemma loop_defined fuel fun0 f lam b last it : (forall r (c : 'cV[R]_(K r)), X r *m c = 0 -> c = 0) -> P lam -> last <> None \/ epsilon < `|fun0 - f| ->
  sue_loop fuel y X W minz epsilon fun0 f lam (sur_resids y X b) last it <> SueRaise n K.
Proof.
move=> F; elim: fuel fun0 f lam b last it => [|fuel IH] fun0 f lam b last it Pl H /=; case: ifP => E.
- by [].
- by case: last H => // -[//|]; rewrite E.
- have [e1 Ee] := est_def b F Pl; rewrite Ee; have := one_pass Pl Ee; case Em: (minz _ _) => [lam1 f1] [P1 _ _ _]; apply: IH => //; by left.
- by case: last H => // -[//|]; rewrite E.
Qed.
(** ** C85_reports: under these conditions the estimator reports a result *)
Theorem C85_reports : forall v0 N, (forall r (c : 'cV[R]_(K r)), X r *m c = 0 -> c = 0) -> epsilon < `|\sum_r (start r).2| ->
  sue_clik lu W (sur_resids y X b0) (\col_r (start r).1) = Some v0 -> (v0 - c) / epsilon < N%:R -> exists r, ml N.+1 = Some r.
Proof.
move=> v0 N F S0 E0 L; have T := C85_terminates E0 L (ltnSn N).
have D : sue_loop N.+1 y X W minz epsilon 0 (\sum_r (start r).2) (\col_r (start r).1) (sur_resids y X b0) None 0 <> SueRaise n K.
  by apply: loop_defined => //; right; rewrite sub0r normrN.
rewrite /base_sue_ml; case: sue_loop T D => // e lam E f it _ _; by eexists.
Qed.
End Loop.
(** ** C85_unbound: when the concentrated likelihoods of the single equations add up to (nearly) zero, no pass is made and the constructor raises *)
Theorem C85_unbound : forall G n (K : 'I_G -> nat) (y : 'I_G -> 'cV[R]_n) (X : forall r, 'M[R]_(n, K r)) W minz epsilon start E0 fuel,
  `|\sum_r (start r).2| <= epsilon -> base_sue_ml fuel y X W minz epsilon start E0 = None /\
  sue_loop fuel y X W minz epsilon 0 (\sum_r (start r).2) (\col_r (start r).1) E0 None 0 = SueRaise n K.
Proof.
move=> G n K y X W minz epsilon start E0 fuel H.
have E : sue_loop fuel y X W minz epsilon 0 (\sum_r (start r).2) (\col_r (start r).1) E0 None 0 = SueRaise n K.
  by case: fuel => [|fuel] /=; rewrite sub0r normrN ltNge H.
by rewrite /base_sue_ml E.
Qed.
