(** C82: maximum likelihood spatial lag panel with random effects. *)
From Coq Require Import Reals Ring Field.
From mathcomp Require Import all_ssreflect all_algebra.
From mathcomp.fingroup Require Import perm.
From Verif Require Import Rinst Mring LinRegModel LinRegProofs LinRegProofs2 FilterModel MLModel MLSpec MLProofs MLTheorems Kron PanelModel PanelTheorems PanelTheorems2
  PfeModel PfeSpec PfeTheorems PfeTheorems2 PreModel PreSpec.
Set Implicit Arguments.
Unset Strict Implicit.
Unset Printing Implicit Defensive.
Import Order.TTheory GRing.Theory Num.Theory.
Local Open Scope ring_scope.

(** Sylvester's determinant identity *)
Lemma det_sylvester (F : comUnitRingType) m p (A : 'M[F]_(m, p)) (B : 'M[F]_(p, m)) : \det (1%:M - A *m B) = \det (1%:M - B *m A).
Proof.
have E1 : block_mx 1%:M A B 1%:M *m block_mx 1%:M 0 (- B) 1%:M = block_mx (1%:M - A *m B) A 0 (1%:M : 'M[F]_p).
  by rewrite mulmx_block !mulmx1 !mulmx0 !mul1mx !mulmxN !add0r subrr.
have E2 : block_mx 1%:M 0 (- B) 1%:M *m block_mx 1%:M A B 1%:M = block_mx 1%:M A 0 (1%:M - B *m A : 'M[F]_p).
  by rewrite mulmx_block !mul1mx !mul0mx !mulmx1 !mulNmx !addr0 addNr [- _ + _]addrC.
have := congr1 determinant E1; have := congr1 determinant E2.
by rewrite !det_mulmx !det_lblock !det_ublock !det1 !mul1r !mulr1 => -> ->.
Qed.

Section Cov.
Variables (T n : nat).
Hypothesis T0 : (0 < T)%N.
Local Notation dm p := (demean_panel p (1%:M : 'M[R]_(T * n))).
Lemma demean_wp c p (A : 'M[R]_n) (a : 'M[R]_(T * n, c)) : demean_panel p (w_nt T A *m a) = w_nt T A *m demean_panel p a.
Proof. by rewrite /demean_panel /w_nt !mulmxA !kron_mul !mul1mx !mulmx1. Qed.
Lemma det_demean (p : R) : \det (dm p) = p ^+ n.
Proof.
rewrite demeanE avgE; have -> : (tile T (unit_mean (1%:M : 'M[R]_(T * n)))) = tile T (1%:M : 'M[R]_n) *m unit_mean (1%:M : 'M[R]_(T * n)).
  by rewrite -tile_lin mul1mx.
rewrite scalemxAr det_sylvester -scalemxAl -unit_mean_lin mul1mx tile_mean_tile //.
have -> : 1%:M - (1 - p) *: 1%:M = p%:M :> 'M[R]_n by rewrite -{1}(scale1r 1%:M) -scalerBl opprB addrC subrK scalemx1.
by rewrite det_scalar.
Qed.
Lemma re_sigmaE s2 phi : s2 != 0 -> phi != 0 -> re_sigma T n s2 (s2 * (phi ^- 2 - 1) / T%:R) = s2 *: dm (phi ^- 2).
Proof.
move=> s0 p0; apply/matrixP => r c; rewrite demeanE mulmx1 !mxE.
have t0 : T%:R != 0 :> R by rewrite pnatr_eq0 -lt0n.
move: (phi ^- 2) (T%:R^-1 : R) => q v; rewrite mulr1; have E (b : bool) : (b%:R : R) = if b then 1 else 0 by case: b.
rewrite !E; case: (r == c); case: (pu r == pu c) => /=; mring R_realFieldType.
Qed.
Lemma demean_quad c p (a : 'M[R]_(T * n, c)) : (demean_panel p a)^T *m demean_panel p a = a^T *m dm (p ^+ 2) *m a.
Proof.
have H : forall D : 'M[R]_(T * n), D^T = D -> (D *m a)^T *m (D *m a) = a^T *m (D *m D) *m a.
  by move=> D Dt; rewrite trmx_mul Dt !mulmxA.
by rewrite (demean1 p a) H ?demean_tr // -(demean1 p (dm p)) demean_comp.
Qed.
Lemma re_normal s2 phi (e : 'cV[R]_(T * n)) : 0 < s2 -> 0 < phi -> 
  normal_loglik (re_sigma T n s2 (s2 * (phi ^- 2 - 1) / T%:R)) e = gauss_loglik (phi ^+ n) (demean_panel phi e) s2.
Proof.
move=> s0 p0; have s1 := lt0r_neq0 s0; have p1 := lt0r_neq0 p0.
have pp : 0 < phi ^- 2 by rewrite invr_gt0 exprn_gt0.
have I : (s2 *: dm (phi ^- 2)) *m (s2^-1 *: dm (phi ^+ 2)) = 1%:M.
  by rewrite -scalemxAr -scalemxAl scalerA mulVf // scale1r -demean1 demean_comp // mulVf ?C41_full_weight // expf_neq0.
have [U _] := mulmx1_unit I.
rewrite re_sigmaE //; have V : invmx (s2 *: dm (phi ^- 2)) = s2^-1 *: dm (phi ^+ 2) by rewrite -[LHS]mulmx1 -[X in _ *m X]I mulKmx.
rewrite /normal_loglik V detZ det_demean.
have -> : ln (s2 ^+ (T * n) * phi ^- 2 ^+ n) = (T * n)%:R * ln s2 - 2%:R * (n%:R * ln phi).
  rewrite lnM ?exprn_gt0 // !ln_pow // lnV ?exprn_gt0 // ln_pow //; move: (ln s2) (ln phi) => a c; mring R_realFieldType.
rewrite /gauss_loglik gtr0_norm ?exprn_gt0 // ln_pow //.
have -> : (e^T *m (s2^-1 *: dm (phi ^+ 2)) *m e) 0 0 = s2^-1 * ssq (demean_panel phi e).
  by rewrite -scalemxAr -scalemxAl mxE ssqE utuE demean_quad.
have t0 : 2%:R != 0 :> R by rewrite pnatr_eq0.
move: (ln _) (ln _) (ln _) (ssq _) => a c d f; mfield R_realFieldType; by split; apply/eqP.
Qed.
End Cov.

Section Bridge.
Variables (T n k : nat) (y : 'cV[R]_(T * n)) (x : 'M[R]_(T * n, k)) (W : 'M[R]_n).
Hypothesis T0 : (0 < T)%N.
Local Notation A rho := (w_nt T (1%:M - rho *: W)).
Lemma re_residE b rho : re_lag_resid y x W b rho = A rho *m y - x *m b.
Proof.
apply/colP => r; rewrite mxE; have := lag_residE y x W rho b 0 (pt r); rewrite /lag_resid subr0 tile0 subr0 => ->.
by rewrite mxE pix_pt_pu.
Qed.
Lemma demean_resid p b rho : demean_panel p (re_lag_resid y x W b rho) = A rho *m demean_panel p y - demean_panel p x *m b.
Proof.
have L : forall (D : 'M[R]_(T * n)) a, D *m (a - x *m b) = D *m a - (D *m x) *m b by move=> D a; rewrite mulmxBr mulmxA.
by rewrite re_residE -demean_wp [LHS]demean1 L -!(demean1 p).
Qed.
Lemma re_lagE b rho s2 phi : 0 < s2 -> 0 < phi -> \det (1%:M - rho *: W) != 0 ->
  re_lag_loglik y x W b rho s2 (s2 * (phi ^- 2 - 1) / T%:R) =
  gauss_loglik (`|\det (1%:M - rho *: W)| ^+ T * phi ^+ n) (demean_panel phi (re_lag_resid y x W b rho)) s2.
Proof.
move=> s0 p0 D0; rewrite /re_lag_loglik re_normal // /gauss_loglik normrM !normrX normr_id gtr0_norm //.
have d0 : 0 < `|\det (1%:M - rho *: W)| by rewrite normr_gt0.
rewrite [ln (_ ^+ T * _)]lnM ?exprn_gt0 // (ln_pow _ d0).
move: (ln (2%:R * PI)) (ln s2) (ln (phi ^+ n)) (ln `|_|) (ssq _ / _) => a c d f g; mring R_realFieldType.
Qed.
(** the natural parameters *)
Lemma re_param (s2 smu2 phi : R) : 0 < s2 -> 0 < phi -> s2 / (s2 + T%:R * smu2) = phi ^+ 2 -> smu2 = s2 * (phi ^- 2 - 1) / T%:R.
Proof.
move=> s0 p0 H; have s1 := lt0r_neq0 s0; have t0 : T%:R != 0 :> R by rewrite pnatr_eq0 -lt0n.
have d0 : s2 + T%:R * smu2 != 0.
  by apply/negP => /eqP D; move: H; rewrite D invr0 mulr0 => /esym/eqP; rewrite expf_eq0 (gt_eqF p0).
rewrite -H invf_div; move: d0; move: (T%:R : R) t0 => t t0 d0.
by rewrite mulrBr mulr1 mulrCA mulfV // mulr1 addrAC subrr add0r mulrAC mulfV // mul1r.
Qed.
End Bridge.

Section Fit.
Variables (T n k : nat) (y : 'cV[R]_(T * n)) (x : 'M[R]_(T * n, k)) (W : 'M[R]_n).
Variables (minphi : (R -> option R) -> R) (minrho : (R -> option R) -> R * R) (lu : R -> 'M[R]_n).
Hypothesis T0 : (0 < T)%N.
Hypothesis n0 : (0 < n)%N.
Local Notation step := (re_lag_step minphi minrho lu y x W).
(** a state as left by an iteration *)
Definition re_ok (s : re_state T n k) : Prop :=
  lag_aux_of (demean_panel (rs_phi s) y) (demean_panel (rs_phi s) x) (w_nt T W) = Some (rs_ax s) /\
  rs_b s = la_b0 (rs_ax s) - rs_rho s *: la_b1 (rs_ax s).
(** the concentrated function of rho *)
Definition re_obj (ax : lag_aux (T * n) k) (rho : R) : option R := fe_lag_obj T (lag_ssr ax rho) (lu rho).
Lemma step_min rho b s : step rho b = Some s -> rs_phi s = minphi (re_phi_obj y x W rho b) /\ minrho (re_obj (rs_ax s)) = (rs_rho s, rs_fun s).
Proof. by rewrite /re_lag_step; case E: lag_aux_of => [ax|//]; rewrite -/(re_obj ax); case Em: minrho => [r f] [<-]. Qed.
Lemma step_ok rho b s : step rho b = Some s -> re_ok s.
Proof. by rewrite /re_lag_step; case E: lag_aux_of => [ax|//]; case: minrho => r f [<-]; split. Qed.

(** every state of the history is the result of an iteration *)
Lemma loop_min cr fuel cv phi rho b l : re_lag_loop minphi minrho lu y x W cr fuel cv phi rho b = Some l ->
  forall s, List.In s l -> minrho (re_obj (rs_ax s)) = (rs_rho s, rs_fun s).
Proof.
elim: fuel cv phi rho b l => [|f IH] cv phi rho b l /=; first by case: ifP => _ [<-].
case: ifP => _; last by case=> <-.
case E: re_lag_step => [s|//]; case El: re_lag_loop => [l'|//] [<-] s' /= [<-|]; first by case: (step_min E).
exact: IH El s'.
Qed.
Lemma loop_ok cr fuel cv phi rho b l : re_lag_loop minphi minrho lu y x W cr fuel cv phi rho b = Some l -> forall s, List.In s l -> re_ok s.
Proof.
elim: fuel cv phi rho b l => [|f IH] cv phi rho b l /=; first by case: ifP => _ [<-].
case: ifP => _; last by case=> <-.
case E: re_lag_step => [s|//]; case El: re_lag_loop => [l'|//] [<-] s' /= [<-|]; first exact: step_ok E.
exact: IH El s'.
Qed.
Lemma iter_ok l s : re_lag_iter minphi minrho lu y x W = Some l -> List.In s l -> re_ok s.
Proof. by rewrite /re_lag_iter; case: la_inv => [xi|//] H; exact: loop_ok H s. Qed.
Lemma last_in (B : Type) (a : B) l : List.In (last a l) (a :: l).
Proof. by elim: l a => [|c l IH] a /=; [left|right; exact: IH]. Qed.
Lemma base_final adj eps mx r : base_re_lag adj minphi minrho lu y x W eps mx = Some r ->
  exists2 s, re_ok s /\ minrho (re_obj (rs_ax s)) = (rs_rho s, rs_fun s) & re_lag_final adj y x W s eps mx = Some r.
Proof.
rewrite /base_re_lag; case E: re_lag_iter => [[//|s l]|//] H; exists (last s l) => //.
split; first exact: iter_ok E (last_in _ _).
by move: E; rewrite /re_lag_iter; case: la_inv => [xi|//] E; exact: loop_min E _ (last_in _ _).
Qed.
(** the residuals transformed by the reported phi *)
Local Notation res p b rho := (demean_panel p (re_lag_resid y x W b rho)).
Lemma ok_fit s rho' : re_ok s -> let ax := rs_ax s in let b := la_b0 ax - rho' *: la_b1 ax in let u := la_e0 ax - rho' *: la_e1 ax in
  u = res (rs_phi s) b rho' /\ forall b', ssq (res (rs_phi s) b' rho') = ssq u + ssq (demean_panel (rs_phi s) x *m (b' - b)).
Proof.
case=> E _ ax b u; have [Hu _ Hm] := lag_aux_fit rho' E; rewrite -w_ntB in Hu; rewrite -w_ntB in Hm.
by split=> [|b']; rewrite demean_resid.
Qed.
Lemma ok_gram s : re_ok s -> (demean_panel (rs_phi s) x)^T *m demean_panel (rs_phi s) x \in unitmx.
Proof. by case=> E _; move: E; rewrite /lag_aux_of; case Ei: la_inv => [xi|//] _; case: (la_invP Ei). Qed.
Lemma final_fields adj s eps mx r : re_lag_final adj y x W s eps mx = Some r ->
  [/\ rl_b r = rs_b s, rl_rho r = rs_rho s, rl_phi r = rs_phi s,
      rl_u r = la_e0 (rs_ax s) - rs_rho s *: la_e1 (rs_ax s) &
      [/\ rl_predy r = demean_panel (rs_phi s) y - rl_u r, rl_sig2 r = utu_of (rl_u r) / (T * n)%:R &
      rl_logll r = - rs_fun s + (if adj then n%:R / 2%:R * ln (rs_phi s ^+ 2) else 0) - (T * n)%:R / 2%:R * ln (2%:R * PI) - (T * n)%:R / 2%:R]].
Proof.
rewrite /re_lag_final; case: power_expansion => [p|//]; case: la_inv => [ai|//]; case: la_inv => [v|//]; case: la_inv => [w|//] [<-] //.
Qed.
Lemma gls_quad phi (e : 'cV[R]_(T * n)) : 0 < phi -> (e^T *m invmx (re_sigma T n 1 ((phi ^- 2 - 1) / T%:R)) *m e) 0 0 = ssq (demean_panel phi e).
Proof.
move=> p0; have p1 := lt0r_neq0 p0.
have I : demean_panel (phi ^- 2) (1%:M : 'M[R]_(T * n)) *m demean_panel (phi ^+ 2) 1%:M = 1%:M.
  by rewrite -demean1 demean_comp // mulVf ?C41_full_weight // expf_neq0.
have -> : re_sigma T n 1 ((phi ^- 2 - 1) / T%:R) = demean_panel (phi ^- 2) 1%:M.
  by have := re_sigmaE n T0 (oner_neq0 _) p1; rewrite scale1r mul1r.
have [U _] := mulmx1_unit I.
have -> : invmx (demean_panel (phi ^- 2) (1%:M : 'M[R]_(T * n))) = demean_panel (phi ^+ 2) 1%:M by rewrite -[LHS]mulmx1 -[X in _ *m X]I mulKmx.
by rewrite -demean_quad // ssqE utuE.
Qed.
(** C82: at the reported rho and phi the coefficients are those of generalised least squares with the covariance matrix of the random
    effects model, whose variance ratio s2 / (s2 + T smu2) is phi^2; sig2 is the weighted mean of squares of those residuals. *)
Theorem C82_fit : forall adj eps mx r, base_re_lag adj minphi minrho lu y x W eps mx = Some r -> 0 < rl_phi r ->
  let S := re_sigma T n 1 ((rl_phi r ^- 2 - 1) / T%:R) in
  let Q b := ((re_lag_resid y x W b (rl_rho r))^T *m invmx S *m re_lag_resid y x W b (rl_rho r)) 0 0 in
  [/\ forall b', Q (rl_b r) <= Q b' /\ (Q b' = Q (rl_b r) -> b' = rl_b r),
      rl_sig2 r = Q (rl_b r) / (T * n)%:R,
      forall t, period t (rl_u r) = let e := re_lag_resid y x W (rl_b r) (rl_rho r) in period t e - (1 - rl_phi r) *: over_time e &
      rl_predy r + rl_u r = y - (1 - rl_phi r) *: constant_units T (over_time y)].
Proof.
move=> adj eps mx r /base_final [s [Ok _] Hf]; have [Eb Er Ep Eu [Ey Es _]] := final_fields Hf; rewrite Ep => p0 S Q.
have [Hu Hm] := ok_fit (rs_rho s) Ok; rewrite -Eu in Hu Hm; have Ebs := proj2 Ok; rewrite -Ebs -Eb in Hu Hm.
have QE b : Q b = ssq (res (rs_phi s) b (rs_rho s)) by rewrite /Q /S gls_quad // Er.
have Q0 : Q (rl_b r) = ssq (rl_u r) by rewrite QE -Hu.
split.
- move=> b'; rewrite Q0 QE Hm; split; first by rewrite ler_addl ssqE utu_ge0.
  move/eqP; rewrite -subr_eq0 addrAC subrr add0r ssqE utu_eq0 => /eqP H.
  by apply/eqP; rewrite -subr_eq0; apply/eqP; exact: (iffLR (gram_unit _) (ok_gram Ok)).
- by rewrite Q0 Es ssqE.
- move=> t; cbv zeta; rewrite Hu Er over_timeE; apply/matrixP => i j; rewrite mxE demeanE avgE !mxE pu_pix //.
- by rewrite Ey subrK demeanE avgE constantE over_timeE.
Qed.
(** the natural parameters of the reported estimates *)
Definition re_smu2 (s2 phi : R) : R := s2 * (phi ^- 2 - 1) / T%:R.
Lemma smu2_ratio (s2 phi : R) : 0 < s2 -> 0 < phi -> s2 / (s2 + T%:R * re_smu2 s2 phi) = phi ^+ 2.
Proof.
move=> s0 p0; have t0 : T%:R != 0 :> R by rewrite pnatr_eq0 -lt0n.
by rewrite /re_smu2 [T%:R * _]mulrC mulfVK // mulrBr mulr1 addrC subrK invfM invrK mulrA mulfV ?mul1r // gt_eqF.
Qed.
Hypothesis Hlu : forall rho, is_lu (1%:M - rho *: W) (lu rho).
Lemma obj_value s rho' f : re_ok s -> 0 < rs_phi s -> let u := la_e0 (rs_ax s) - rho' *: la_e1 (rs_ax s) in
  fe_lag_obj T (lag_ssr (rs_ax s) rho') (lu rho') = Some f ->
  [/\ 0 < ssq u, \det (1%:M - rho' *: W) != 0 &
      f - n%:R / 2%:R * ln (rs_phi s ^+ 2) = (T * n)%:R / 2%:R * ln (ssq u / (T * n)%:R) - ln (`|\det (1%:M - rho' *: W)| ^+ T * rs_phi s ^+ n)].
Proof.
move=> Ok p0 u; rewrite /fe_lag_obj /np_log.
have -> : n%:R * T%:R = (T * n)%:R :> R by rewrite natrM mulrC.
have -> : lag_ssr (rs_ax s) rho' = ssq u by rewrite /lag_ssr ssqE utuE.
case: ifP => // S0; case Ej: t_jacob => [j|//] [<-]; have [D0 ->] := lu_jacob (Hlu rho') Ej.
have N0 : (0 < T * n)%N by rewrite muln_gt0 T0 n0.
split=> //; first by move: S0; rewrite pmulr_lgt0 // invr_gt0 ltr0n.
rewrite [ln (_ ^+ T * _)]lnM ?exprn_gt0 ?normr_gt0 // [ln (rs_phi s ^+ n)]ln_pow // [ln (rs_phi s ^+ 2)]ln_pow //.
have t2 : 2%:R != 0 :> R by rewrite pnatr_eq0.
move: (ln _) (ln _) (ln _) => a c d; mfield R_realFieldType; exact/eqP.
Qed.
Lemma obj_def s rho' : re_ok s -> 0 < ssq (la_e0 (rs_ax s) - rho' *: la_e1 (rs_ax s)) -> \det (1%:M - rho' *: W) != 0 ->
  exists f, fe_lag_obj T (lag_ssr (rs_ax s) rho') (lu rho') = Some f.
Proof.
move=> Ok S0 D0; rewrite /fe_lag_obj /np_log (lu_jacob_def T (Hlu rho') D0).
have -> : lag_ssr (rs_ax s) rho' = ssq (la_e0 (rs_ax s) - rho' *: la_e1 (rs_ax s)) by rewrite /lag_ssr ssqE utuE.
by rewrite divr_gt0 ?mulr_gt0 ?ltr0n //; eexists.
Qed.
(** a state is the maximum over (b, rho in P, s2) of the likelihood at its phi *)
Lemma state_max P s : re_ok s -> 0 < rs_phi s -> minimises P (re_obj (rs_ax s)) (rs_rho s, rs_fun s) ->
  (forall rho', P rho' -> \det (1%:M - rho' *: W) != 0) -> (forall b' rho', P rho' -> re_lag_resid y x W b' rho' != 0) ->
  let s2 := ssq (la_e0 (rs_ax s) - rs_rho s *: la_e1 (rs_ax s)) / (T * n)%:R in
  let L := re_lag_loglik y x W (rs_b s) (rs_rho s) s2 (re_smu2 s2 (rs_phi s)) in
  [/\ 0 < s2, L = - rs_fun s + n%:R / 2%:R * ln (rs_phi s ^+ 2) - (T * n)%:R / 2%:R * ln (2%:R * PI) - (T * n)%:R / 2%:R &
  forall b' rho' s2', P rho' -> 0 < s2' -> re_lag_loglik y x W b' rho' s2' (re_smu2 s2' (rs_phi s)) <= L].
Proof.
move=> Ok p0 [Pr Ho Hmin] PD Hne s2 L.
have N0 : (0 < T * n)%N by rewrite muln_gt0 T0 n0.
have [S0 D0 Ef] := obj_value Ok p0 Ho.
have s0 : 0 < s2 by rewrite divr_gt0 // ltr0n.
have [Hu _] := ok_fit (rs_rho s) Ok; rewrite -(proj2 Ok) in Hu.
have LE : L = - rs_fun s + n%:R / 2%:R * ln (rs_phi s ^+ 2) - (T * n)%:R / 2%:R * ln (2%:R * PI) - (T * n)%:R / 2%:R.
  rewrite /L /re_smu2 re_lagE // -Hu gl_eq //; last by rewrite mulr_gt0 ?exprn_gt0 ?normr_gt0.
  by rewrite -Ef opprB [_ - rs_fun s]addrC.
split=> // b' rho' s2' Pr' s0'.
have [Hu' Hm'] := ok_fit rho' Ok.
set u' := la_e0 (rs_ax s) - rho' *: _ in Hu' Hm'.
have S0' : 0 < ssq u'.
  rewrite lt_def utu_ge0 andbT; apply/negP; rewrite ssqE utu_eq0 Hu' => /eqP Z.
  have := Hne (la_b0 (rs_ax s) - rho' *: la_b1 (rs_ax s)) _ Pr'; case/eqP.
  have := congr1 (demean_panel (rs_phi s)^-1) Z; rewrite demean_comp // mulVf ?gt_eqF // C41_full_weight => ->.
  by rewrite demeanE mulmx0 scaler0 subr0.
have D0' := PD _ Pr'; have [f' Ho'] := obj_def Ok S0' D0'.
have [_ _ Ef'] := obj_value Ok p0 Ho'.
apply: (@le_trans _ _ (gauss_loglik (`|\det (1%:M - rho' *: W)| ^+ T * rs_phi s ^+ n) u' (ssq u' / (T * n)%:R))).
  by rewrite /re_smu2 re_lagE //; apply: gl_le => //; rewrite Hm' ler_addl ssqE utu_ge0.
rewrite gl_eq //; last by rewrite mulr_gt0 ?exprn_gt0 ?normr_gt0.
by rewrite -Ef' opprB LE !ler_add2r addrC ler_add2r ler_opp2 (Hmin _ _ Pr' Ho').
Qed.
End Fit.
