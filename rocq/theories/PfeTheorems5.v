(** C81: when results are returned, and a case that meets all the hypotheses. *)
From Coq Require Import Reals Ring Field.
From mathcomp Require Import all_ssreflect all_algebra.
From mathcomp.fingroup Require Import fingroup perm.
From Verif Require Import Rinst Mring LinRegModel LinRegProofs LinRegProofs2 FilterModel MLModel MLSpec MLProofs MLTheorems MLTheorems2 MLTheorems3 MLTheorems4 Kron
  PanelModel PanelTheorems PfeModel PfeSpec PfeTheorems PfeTheorems2 PfeTheorems3 PfeTheorems4.
Set Implicit Arguments.
Unset Strict Implicit.
Unset Printing Implicit Defensive.
Import Order.TTheory GRing.Theory Num.Theory.
Local Open Scope ring_scope.

Lemma nonscalar_nt T n (G : 'M[R]_n) : (0 < T)%N -> (forall a, G + G^T <> a%:M) -> forall a, w_nt T G + (w_nt T G)^T <> a%:M.
Proof.
move=> T0 H a E; apply: (H a); apply/matrixP => i j; have t : 'I_T by exact: Ordinal T0.
have := congr1 (fun M : 'M[R]_(T * n) => M (pix t i) (pix t j)) E.
rewrite !mxE !pt_pix !pu_pix !eqxx !mul1r => ->; congr (_ *+ nat_of_bool _); apply/eqP/eqP => [E2|-> //].
by rewrite -(pu_pix t i) E2 pu_pix.
Qed.

(** C81: regressors that vary over time within units and are not collinear, row standardised weights, rho inside (-1, 1), no exact
    fit and a non-trivial weights matrix: the fixed effects lag panel returns a result. *)
Theorem C81_lag_defined : forall T n k (y : 'cV[R]_(T * n)) (x : 'M[R]_(T * n, k)) (W : 'M[R]_n) rho fn eps mx p ax,
  (0 < T)%N -> (0 < n)%N -> zero_diag W -> substochastic W -> `|rho| < 1 -> (forall c : 'cV[R]_k, demean_panel 0 x *m c = 0 -> c = 0) ->
  (forall b mu, exists t, lag_resid y x W rho b mu t != 0) -> (forall a, wai_of W rho + (wai_of W rho)^T <> a%:M) ->
  lag_aux_of (demean_panel 0 y) (demean_panel 0 x) (w_nt T W) = Some ax ->
  power_expansion (w_nt T W) (demean_panel 0 x *m (la_b0 ax - rho *: la_b1 ax)) rho eps mx = Done p ->
  exists r, base_fe_lag y x W (rho, fn) eps mx = Some r.
Proof.
move=> T n k y x W rho fn eps mx p ax T0 n0 Wd [W0 W1] r1 Hx Hne HG Hax Hp; rewrite /base_fe_lag Hax Hp.
have UA := dominance W0 W1 r1; rewrite (la_inv_unit (A := a_of W rho)) ?a_ofE //.
have [Eu _ _] := lag_aux_fit rho Hax; rewrite -w_ntB in Eu; set b := la_b0 ax - _ in Eu *; set u := la_e0 ax - _ in Eu *.
have N0 : (0 < T * n)%N by rewrite muln_gt0 T0 n0.
have s0 : 0 < utu_of u / (T * n)%:R.
  rewrite divr_gt0 ?ltr0n // lt_def utu_ge0 andbT; apply/negP => /eqP S; have [t] := Hne b (lag_mu y x W rho b).
  have := lag_split0 y x W T0 rho b; rewrite -Eu ssqE S => /eqP; rewrite psumr_eq0 => [|s _]; last exact: utu_ge0.
  by move/allP/(_ t (mem_index_enum _)) => /=; rewrite ssqE utu_eq0 => ->.
set G := W *m invmx (1%:M - rho *: W).
have [_ U] := C60_lag_info (demean_panel 0 x) (w_nt T G *m (demean_panel 0 x *m b)) (w_nt T G) s0 N0.
rewrite fe_lag_infoE // la_inv_unit; first by eexists.
apply: pd_unit; apply: U => //; apply: nonscalar_nt => // a; have := HG a; by rewrite /wai_of a_ofE.
Qed.
Theorem C81_err_defined : forall T n k (y : 'cV[R]_(T * n)) (x : 'M[R]_(T * n, k)) (W : 'M[R]_n) adj lam fn,
  (0 < T)%N -> (0 < n)%N -> zero_diag W -> substochastic W -> `|lam| < 1 -> (forall c : 'cV[R]_k, demean_panel 0 x *m c = 0 -> c = 0) ->
  (forall b mu, exists t, period t y - period t x *m b - mu != 0) -> (forall a, wai_of W lam + (wai_of W lam)^T <> a%:M) ->
  exists r, base_fe_err adj y x W (lam, fn) = Some r.
Proof.
move=> T n k y x W adj lam fn T0 n0 Wd [W0 W1] l1 Hx Hne HG; rewrite /base_fe_err.
have UA := dominance W0 W1 l1; have [UK _] := kron_unit (unitmx1 _ T) UA.
have N0 : (0 < T * n)%N by rewrite muln_gt0 T0 n0.
set yd := demean_panel 0 y; set xd := demean_panel 0 x.
set X := xd - lam *: (w_nt T W *m xd).
have EX : X = w_nt T (1%:M - lam *: W) *m xd by rewrite w_ntB mulmxBl mul1mx -scalemxAl.
have UX : X^T *m X \in unitmx.
  by apply/gram_unit => c; rewrite EX -mulmxA => H; apply: Hx; move: H; apply: (iffLR (unitmx_inj _)).
rewrite (la_inv_unit UX); set b := invmx _ *m _; rewrite (la_inv_unit (A := a_of W lam)) ?a_ofE //.
set u := yd - xd *m b.
have e0 : u - lam *: (w_nt T W *m u) != 0.
  have -> : u - lam *: (w_nt T W *m u) = w_nt T (1%:M - lam *: W) *m u by rewrite w_ntB mulmxBl mul1mx -scalemxAl.
  apply/eqP => H0; have {}H0 : u = 0 by exact: (iffLR (unitmx_inj _) UK).
  have [t] := Hne b (err_mu y x b).
  have := err_split0 y x W T0 0 b; rewrite -/yd -/xd -/u H0 mulmx0 ssq0 => /eqP; rewrite psumr_eq0 => [|s _]; last exact: utu_ge0.
  by move/allP/(_ t (mem_index_enum _)) => /=; rewrite ssqE utu_eq0 /err_residF scale0r subr0 => ->.
set ef := u - _ in e0 *; have s0 : 0 < (ef^T *m ef) 0 0 / (T * n)%:R.
  by rewrite divr_gt0 ?ltr0n // -utuE lt_def utu_ge0 utu_eq0 e0.
set s2 := _ / (T * n)%:R in s0 *; set G := W *m invmx (1%:M - lam *: W).
have [_ [_ U]] := C60_err_info (w_nt T G) s0 N0.
have -> : block_mx (T%:R * (tr2_of G + tr3_of G))%:M (T%:R * tr1_of G / s2)%:M (T%:R * tr1_of G / s2)%:M ((T * n)%:R / (2%:R * s2 ^+ 2))%:M =
  err_info (w_nt T G) s2 :> 'M[R]_(1 + 1).
  rewrite /err_info /tr2_of /tr3_of /tr1_of -!/(mxtrace _) w_nt_tr !w_nt_mul !tr_w_nt; by rewrite mulrDr.
rewrite la_inv_unit; first by eexists.
apply: U; apply: nonscalar_nt => // a; have := HG a; by rewrite /wai_of a_ofE.
Qed.

(** A case: four units in two pairs, two periods, one regressor; any unit effects. *)
Section Witness.
Definition pm (m : 'cV[R]_(2 + 2)) : 'cV[R]_(2 * (2 + 2)) := \col_r (if pt r == 0 then m (pu r) 0 else - m (pu r) 0).
Lemma pm_period t m : period t (pm m) = if t == 0 then m else - m.
Proof. by apply/matrixP => i j; rewrite (ord1 j) !mxE pt_pix pu_pix; case: (t == 0); rewrite ?mxE. Qed.
Lemma sum2 (V : zmodType) (f : 'I_2 -> V) : \sum_t f t = f 0 + f (lift 0 0).
Proof. by rewrite !big_ord_recl big_ord0 addr0. Qed.
Lemma pm_mean m : over_time (pm m) = 0.
Proof. by apply/matrixP => i j; rewrite mxE sum2 !pm_period /= [(- m) _ _]mxE subrr mul0r mxE. Qed.
Lemma pm_demean m : demean_panel 0 (pm m) = pm m.
Proof. by rewrite demean0 -over_timeE pm_mean tile0 subr0. Qed.
Lemma period_inj c (a b : 'M[R]_(2 * (2 + 2), c)) : (forall t, period t a = period t b) -> a = b.
Proof.
move=> H; apply/matrixP => r j; rewrite -(pix_pt_pu r); have := congr1 (fun M : 'M[R]_(2 + 2, c) => M (pu r) j) (H (pt r)); by rewrite !mxE.
Qed.
Lemma pm_w A m : w_nt 2 A *m pm m = pm (A *m m).
Proof. by apply: period_inj => t; rewrite period_w !pm_period; case: (t == 0); rewrite ?mulmxN. Qed.
Lemma pm_dot (m p : 'cV[R]_(2 + 2)) : (pm m)^T *m pm p = 2%:R *: (m^T *m p).
Proof.
rewrite stack_mul sum2 !pm_period /=; have -> : (- m)^T = - m^T by apply/matrixP => i j; rewrite !mxE.
by rewrite mulNmx mulmxN opprK scaler_nat mulr2n.
Qed.
Lemma pm_lin rho m p : pm m - rho *: pm p = pm (m - rho *: p).
Proof.
by apply/matrixP => r j; rewrite !mxE; case: (pt r == 0); rewrite ?mxE // mulrN opprK opprB addrC.
Qed.
Lemma pm0 : pm 0 = 0. Proof. by apply/matrixP => r j; rewrite !mxE oppr0 if_same. Qed.
Lemma pm_ssq m : ssq (pm m) = 2%:R * ssq m.
Proof. by rewrite !ssqE !utuE pm_dot mxE. Qed.
Definition wl rho : 'M[R]_(2 + 2) := block_mx 1%:M 0 (- rho)%:M 1%:M.
Definition wu rho : 'M[R]_(2 + 2) := block_mx 1%:M (- rho)%:M 0 (1 - rho ^+ 2)%:M.
Lemma w_lu rho : is_lu (1%:M - rho *: wW) (wu rho).
Proof.
exists (wl rho), 1%g, 1%g; split.
- rewrite !perm_mx1 mul1mx mulmx1 mulmx_block !mul1mx !mulmx1 !mul0mx ?mulmx0 !addr0 -scalar_mxM -raddfD /= mulrNN -expr2 [rho ^+ 2 + _]addrC subrK.
  have -> : 1%:M = block_mx 1%:M 0 0 1%:M :> 'M[R]_(2 + 2) by rewrite -scalar_mx_block.
  rewrite /wW scale_block_mx opp_block_mx add_block_mx !scaler0 !oppr0 !addr0 !add0r.
  by have -> : (- rho)%:M = - (rho *: 1%:M) :> 'M[R]_2 by rewrite scalemx1 raddfN.
- by move=> i; rewrite /wl -[i]splitK; case: split => a; rewrite /= ?block_mxEul ?block_mxEdr mxE eqxx.
- apply/is_trig_mxP => i j; rewrite /wl -[i]splitK -[j]splitK; case: split => a; case: split => c; rewrite /= ?block_mxEul ?block_mxEdr ?block_mxEur ?block_mxEdl => H;
    rewrite mxE //; try (by rewrite -val_eqE /= ltn_eqF // -(ltn_add2l 2)).
  by move: H; rewrite ltnNge (ltnW (leq_trans (ltn_ord c) (leq_addr a 2))).
- apply/is_trig_mxP => i j; rewrite mxE /wu -[i]splitK -[j]splitK; case: split => a; case: split => c; rewrite /= ?block_mxEul ?block_mxEdr ?block_mxEur ?block_mxEdl => H;
    rewrite mxE //; try (by rewrite -val_eqE /= gtn_eqF // -(ltn_add2l 2)).
  by move: H; rewrite ltnNge (ltnW (leq_trans (ltn_ord c) (leq_addr a 2))).
Qed.
Definition ey : 'cV[R]_(2 * (2 + 2)) := pm wy.
Definition ex : 'M[R]_(2 * (2 + 2), 1) := pm wx.
Definition eax : lag_aux (2 * (2 + 2)) 1 := LagAux 0 0 (pm wy) (pm wWy).
Lemma exx (c : 'cV[R]_1) : ex *m c = 0 -> c = 0.
Proof.
move=> H; apply: wxx; have := congr1 (fun v => period 0 v) H; rewrite period_mul pm_period /= => ->.
by apply/matrixP => i j; rewrite !mxE.
Qed.
Lemma eaxE : lag_aux_of (demean_panel 0 ey) (demean_panel 0 ex) (w_nt 2 wW) = Some eax.
Proof.
rewrite !pm_demean /lag_aux_of la_inv_unit; last by apply/gram_unit; exact: exx.
by rewrite pm_w wWyE !pm_dot wxy wxWy !scaler0 !mulmx0 !subr0.
Qed.
Lemma essr rho : lag_ssr eax rho = 16%:R * (1 + rho ^+ 2).
Proof. by rewrite /lag_ssr /= pm_lin -utuE -ssqE pm_ssq wssq mulrA -natrM. Qed.
Lemma eobj rho : `|rho| < 1 -> fe_lag_obj 2 (lag_ssr eax rho) (wu rho) = Some (2%:R * wobj rho).
Proof.
move=> r1; have D : 0 < \det (1%:M - rho *: wW) by rewrite wdet exprn_gt0 ?wlt.
rewrite /fe_lag_obj (lu_jacob_def 2 (w_lu rho)) ?gt_eqF // essr gtr0_norm // ln_pow // wdet.
have -> : 16%:R * (1 + rho ^+ 2) / ((2 + 2)%N%:R * 2%:R) = 2%:R * (1 + rho ^+ 2) :> R.
  have -> : 16%:R = 2%:R * ((2 + 2)%N%:R * 2%:R) :> R by rewrite -!natrM.
  by rewrite mulrAC mulfK // mulf_neq0 // pnatr_eq0.
rewrite /np_log mulr_gt0 ?w1p ?ltr0n //; congr Some; rewrite /wobj mulrBr mulrA; congr (_ * _ - _).
by rewrite mulrAC wn.
Qed.
Lemma ene rho b mu : `|rho| < 1 -> exists t, lag_resid ey ex wW rho b mu t != 0.
Proof.
move=> r1; have H t : t = 0 \/ t = lift 0 0 :> 'I_2 by case: t => -[|[|//]] Ht; [left|right]; exact: val_inj.
have [/forallP Hz|] := boolP [forall t, lag_resid ey ex wW rho b mu t == 0]; last by rewrite negb_forall => /existsP.
have S0 : \sum_t ssq (lag_resid ey ex wW rho b mu t) = 0.
  rewrite big1 // => t _; by rewrite (eqP (Hz t)) ssq0.
move: S0; rewrite lag_split // !pm_demean w_ntB.
have := lag_aux_fit rho eaxE; rewrite !pm_demean => -[_ _ Hm]; rewrite Hm /= pm_lin pm_ssq wssq => /eqP.
rewrite -addrA paddr_eq0 ?addr_ge0 ?mulr_ge0 ?utu_ge0 ?ler0n ?(ltW (w1p _)) //.
by rewrite mulf_eq0 pnatr_eq0 /= mulf_eq0 pnatr_eq0 /= gt_eqF ?w1p.
Qed.
Example C81_lag_witness (a : 'cV[R]_(2 + 2)) : let y := ey + constant_units 2 a in exists r,
  base_fe_lag y ex wW (0, 2%:R * wobj 0) 1 100 = Some r /\
  forall b' rho' mu' s2, `|rho'| < 1 -> 0 < s2 ->
    fe_lag_loglik y ex wW b' rho' mu' s2 <= fe_lag_loglik y ex wW (ml_b r) (ml_rho r) (lag_mu y ex wW (ml_rho r) (ml_b r)) (ml_sig2 r).
Proof.
move=> y; move: (100%N) => mx.
have Ed : demean_panel 0 y = demean_panel 0 ey by exact: demean_shift.
have Hne rho b mu : `|rho| < 1 -> exists t, lag_resid y ex wW rho b mu t != 0.
  move=> r1; have [t Ht] := ene b (mu - (a - rho *: (wW *m a))) r1; exists t; apply: contraNN Ht => /eqP E; apply/eqP; rewrite -E /lag_resid.
  have -> : period t y = period t ey + a by apply/matrixP => i j; rewrite !mxE pu_pix.
  rewrite mulmxDr; move: (wW *m period t ey) (wW *m a) (period t ex *m b) (period t ey) => p q s e.
  by apply/matrixP => i j; rewrite !mxE; move: (e i j) (p i j) (q i j) (s i j) (a i j) (mu i j) => e1 p1 q1 s1 a1 m1; mring R_realFieldType.
have Hax : lag_aux_of (demean_panel 0 y) (demean_panel 0 ex) (w_nt 2 wW) = Some eax by rewrite Ed eaxE.
have Hp : power_expansion (w_nt 2 wW) (demean_panel 0 ex *m (la_b0 eax - 0 *: la_b1 eax)) 0 1 mx = Done 0.
  have -> : la_b0 eax - 0 *: la_b1 eax = 0 by rewrite [la_b1 eax]/= [la_b0 eax]/= scaler0 subr0.
  rewrite mulmx0 /power_expansion; case: mx => [|m]; rewrite [pe_loop _ _ _ _ _ _]/=; first by case: ifP.
  rewrite scale0r.
  have Z : la_norm (0 : 'cV[R]_(2 * (2 + 2))) = 0.
    rewrite /la_norm big1 ?sqrtr0 // => i _; rewrite big1 // => j _; by rewrite mxE expr0n.
  rewrite Z addr0 [test0 _ < 0]ltNge /test0 exprn_ge0 ?ler0n //.
  by case: m => [|m]; rewrite /pe_loop -/pe_loop [(1 : R) < 0]ltNge ler01; case: ifP.
have Hx (c : 'cV[R]_1) : demean_panel 0 ex *m c = 0 -> c = 0 by rewrite pm_demean; exact: exx.
have [r Hr] := C81_lag_defined (2%:R * wobj 0) (isT : (0 < 2)%N) (isT : (0 < 2 + 2)%N) wzd wsub w01 Hx (fun b mu => Hne 0 b mu w01) wG Hax Hp.
exists r; split=> //; apply: (C81_lag_global (P := fun rho => `|rho| < 1) (isT : (0 < 2)%N) (isT : (0 < 2 + 2)%N) Hax w_lu _ _ (eobj w01) _ Hr).
- by move=> rho r1; rewrite wdet expf_neq0 // gt_eqF // wlt.
- by move=> rho b mu r1; exact: Hne.
- move=> rho fn r1; rewrite (eobj r1) => -[<-]; rewrite ler_pmul2l ?ltr0n //; exact: wmin.
Qed.
Lemma eerr lam : `|lam| < 1 -> fe_err_obj ey ex wW lam (wu lam) = Some (2%:R * wobj lam + 4%:R * ln 8%:R).
Proof.
move=> l1; have D : 0 < \det (1%:M - lam *: wW) by rewrite wdet exprn_gt0 ?wlt.
rewrite /fe_err_obj !pm_demean !pm_w wWyE wxW /err_ssr !pm_lin.
have Ux : (pm (wx - lam *: wx))^T *m pm (wx - lam *: wx) \in unitmx.
  apply/gram_unit => c H; apply: exx.
  have E : pm (wx - lam *: wx) = (1 - lam) *: ex by apply/matrixP => r j; rewrite !mxE; case: (pt r == 0); mring R_realFieldType.
  move: H; rewrite E -scalemxAl => /eqP; rewrite scaler_eq0 subr_eq0 => /orP [/eqP l|/eqP //].
  by move: l1; rewrite -l normr1 ltxx.
rewrite la_inv_unit // [(pm (wx - _))^T *m pm (wy - _)]pm_dot.
have -> : (wx - lam *: wx)^T *m (wy - lam *: wWy) = 0.
  have -> : (wx - lam *: wx)^T = (1 - lam) *: wx^T by apply/matrixP => i j; rewrite !mxE; mring R_realFieldType.
  by rewrite -scalemxAl mulmxBr wxy -scalemxAr wxWy scaler0 subr0 scaler0.
rewrite scaler0 mulmx0 [X in fe_obj_ssr _ (_ - X) _]mxE big1 => [|i _]; last by rewrite !mxE mulr0.
rewrite subr0 -utuE -ssqE pm_ssq wssq /fe_obj_ssr (lu_jacob_def 2 (w_lu lam)) ?gt_eqF // gtr0_norm // ln_pow // wdet.
rewrite /np_log !mulr_gt0 ?w1p ?ltr0n //; congr Some.
have -> : 2%:R * (8%:R * (1 + lam ^+ 2)) = 8%:R * (2%:R * (1 + lam ^+ 2)) :> R by rewrite mulrCA.
rewrite lnM ?mulr_gt0 ?w1p ?ltr0n // /wobj.
have -> : (2 + 2)%N%:R * 2%:R / 2%:R = 4%:R :> R by rewrite mulfK // pnatr_eq0.
have -> : 2%:R * (2%:R * ln (2%:R * (1 + lam ^+ 2)) - ln ((1 - lam ^+ 2) ^+ 2)) = 4%:R * ln (2%:R * (1 + lam ^+ 2)) - 2%:R * ln ((1 - lam ^+ 2) ^+ 2).
  by rewrite mulrBr mulrA -natrM.
move: (ln 8%:R) (ln _) (ln _) (4%:R : R) (2%:R : R) => p1 p2 p3 p4 p5; mring R_realFieldType.
Qed.
Example C81_err_witness (a : 'cV[R]_(2 + 2)) : let y := ey + constant_units 2 a in exists r,
  base_fe_err true y ex wW (0, 2%:R * wobj 0 + 4%:R * ln 8%:R) = Some r /\
  forall b' lam' mu' s2, `|lam'| < 1 -> 0 < s2 ->
    fe_err_loglik y ex wW b' lam' mu' s2 <= fe_err_loglik y ex wW (me_b r) (me_lam r) (fe_mu_i y ex (me_b r)) (me_sig2 r).
Proof.
move=> y; have Ed : demean_panel 0 y = demean_panel 0 ey by exact: demean_shift.
have Hne b mu : exists t, period t y - period t ex *m b - mu != 0.
  have [t Ht] := ene b (mu - a) w01; exists t; apply: contraNN Ht => /eqP E; apply/eqP; rewrite -E /lag_resid scale0r subr0.
  have -> : period t y = period t ey + a by apply/matrixP => i j; rewrite !mxE pu_pix.
  move: (period t ex *m b) (period t ey) => s e; apply/matrixP => i j; rewrite !mxE; move: (e i j) (s i j) (a i j) (mu i j) => e1 s1 a1 m1; mring R_realFieldType.
have Hx (c : 'cV[R]_1) : demean_panel 0 ex *m c = 0 -> c = 0 by rewrite pm_demean; exact: exx.
have Eo lam : fe_err_obj y ex wW lam (wu lam) = fe_err_obj ey ex wW lam (wu lam) by rewrite /fe_err_obj Ed.
have Ho : fe_err_obj y ex wW 0 (wu 0) = Some (2%:R * wobj 0 + 4%:R * ln 8%:R) by rewrite Eo (eerr w01).
have [r Hr] := C81_err_defined true (2%:R * wobj 0 + 4%:R * ln 8%:R) (isT : (0 < 2)%N) (isT : (0 < 2 + 2)%N) wzd wsub w01 Hx Hne wG.
exists r; split=> //; apply: (C81_err_global (P := fun rho => `|rho| < 1) (isT : (0 < 2)%N) (isT : (0 < 2 + 2)%N) wzd w_lu _ Hne Hx Ho _ Hr).
- by move=> rho r1; rewrite wdet expf_neq0 // gt_eqF // wlt.
- move=> rho fn r1; rewrite Eo (eerr r1) => -[<-]; rewrite ler_add2r ler_pmul2l ?ltr0n //; exact: wmin.
Qed.
End Witness.
Print Assumptions C81_lag_witness.
