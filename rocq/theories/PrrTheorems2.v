(** C83, continued: the reported log-likelihood, and the minimum of the objective is the maximum of the likelihood (symmetric weights). *)
From Coq Require Import Reals Ring Field.
From mathcomp Require Import all_ssreflect all_algebra.
From Verif Require Import Rinst Mring LinRegModel LinRegProofs LinRegProofs2 FilterModel MLModel MLSpec MLProofs MLTheorems Kron PanelModel PanelTheorems PanelTheorems2
  PfeModel PfeSpec PfeTheorems PfeTheorems2 PfeTheorems3 PreSpec PreTheorems PrrModel PrrSpec PrrTheorems.
Set Implicit Arguments.
Unset Strict Implicit.
Unset Printing Implicit Defensive.
Import Order.TTheory GRing.Theory Num.Theory.
Local Open Scope ring_scope.

Lemma osum_pos (I : eqType) (l : seq I) (f : I -> R) v : osum [seq np_log (f i) | i <- l] = Some v -> forall i, i \in l -> 0 < f i.
Proof.
elim: l v => [//|a l IH] v /=; rewrite /np_log; case: ifP => // a0; case E: osum => [w|//] _ i; rewrite inE => /orP [/eqP -> //|]; exact: IH E i.
Qed.

Lemma inv_of m (A C : 'M[R]_m) : A *m C = 1%:M -> invmx A = C.
Proof. by move=> E; have [U _] := mulmx1_unit E; rewrite -[LHS]mulmx1 -E mulKmx. Qed.
Section Sym.
Variables (T n k : nat) (y : 'cV[R]_(T * n)) (x : 'M[R]_(T * n, k)) (W V : 'M[R]_n) (om : 'rV[R]_n).
Hypothesis T0 : (0 < T)%N.
Hypothesis n0 : (0 < n)%N.
Hypothesis Hom : is_eigh W om V.
Local Notation B lam := (1%:M - lam *: W).
Local Notation K lam phi := ((T%:R * phi) *: 1%:M + invmx ((B lam)^T *m B lam)).
Local Notation g lam i := (1 - lam * om 0 i).
Local Notation h lam phi i := (1 + T%:R * phi ^+ 2 * g lam i ^+ 2).
Local Notation cv lam phi := (\row_i (T%:R * phi ^+ 2 + 1 / g lam i ^+ 2)).

Lemma V1 : V *m V^T = 1%:M. Proof. by case: Hom. Qed.
Lemma V2 : V^T *m V = 1%:M. Proof. exact: mulmx1C V1. Qed.
Lemma conj_mul d e : (V *m diag_mx d *m V^T) *m (V *m diag_mx e *m V^T) = V *m diag_mx (\row_j (d 0 j * e 0 j)) *m V^T.
Proof. by rewrite !mulmxA -[_ *m V^T *m V]mulmxA V2 mulmx1 -[V *m _ *m diag_mx e]mulmxA mulmx_diag. Qed.
Lemma conj1 : V *m diag_mx (const_mx 1) *m V^T = 1%:M. Proof. by rewrite diag_const_mx mulmx1 V1. Qed.
Lemma conj_lin a b d e : a *: (V *m diag_mx d *m V^T) + b *: (V *m diag_mx e *m V^T) = V *m diag_mx (a *: d + b *: e) *m V^T.
Proof. by rewrite linearD /= !linearZ /= mulmxDr mulmxDl -!scalemxAr -!scalemxAl. Qed.
Lemma BE lam : B lam = V *m diag_mx (\row_i g lam i) *m V^T.
Proof.
rewrite -conj1 (proj2 Hom) -scaleNr -{1}[V *m _ *m _]scale1r conj_lin; congr (_ *m diag_mx _ *m _).
by apply/rowP => i; rewrite !mxE mulr1 mulNr.
Qed.
Lemma detB lam : \det (B lam) = \prod_i g lam i.
Proof.
rewrite BE !det_mulmx mulrAC -det_mulmx V1 det1 mul1r det_diag; by apply: eq_bigr => i _; rewrite mxE.
Qed.
Lemma B_unit lam : (forall i, g lam i != 0) -> B lam \in unitmx.
Proof. by move=> H; rewrite unitmxE unitfE detB; apply/prodf_neq0 => i _. Qed.
Lemma BtB lam : (forall i, g lam i != 0) -> invmx ((B lam)^T *m B lam) = V *m diag_mx (\row_i (1 / g lam i ^+ 2)) *m V^T.
Proof.
move=> H; have Bt : (B lam)^T = B lam by rewrite BE !trmx_mul trmxK tr_diag_mx mulmxA.
have E : ((B lam)^T *m B lam) *m (V *m diag_mx (\row_i (1 / g lam i ^+ 2)) *m V^T) = 1%:M.
  rewrite Bt {1 2}BE !conj_mul -conj1; congr (_ *m diag_mx _ *m _); apply/rowP => i; rewrite !mxE mul1r -expr2 mulfV // expf_neq0 //.
exact: inv_of.
Qed.
Lemma K_eigh lam phi : (forall i, g lam i != 0) -> is_eigh (K lam (phi ^+ 2)) (cv lam phi) V.
Proof.
move=> H; split; first exact: V1.
rewrite BtB // -conj1 -[X in _ + X]scale1r conj_lin; congr (_ *m diag_mx _ *m _); apply/rowP => i; by rewrite !mxE mulr1 mul1r.
Qed.
Lemma cv_pos lam phi : (forall i, g lam i != 0) -> forall i, 0 < (cv lam phi) 0 i.
Proof.
move=> H i; rewrite mxE; apply: ltr_paddl; first by rewrite mulr_ge0 ?ler0n ?sqr_ge0.
by rewrite div1r invr_gt0 exprn_even_gt0 //= H.
Qed.
Lemma obj_white lam phi : (forall i, g lam i != 0) -> let P := re_err_P T om V lam (phi ^+ 2) in K lam (phi ^+ 2) *m (P^T *m P) = 1%:M.
Proof.
move=> H P; have := eigh_root (K_eigh phi H) (cv_pos phi H); cbv zeta; set Q := V *m _.
have -> : Q^T *m Q = P^T *m P; last by [].
have -> : P = V^T *m Q by rewrite /Q /P /re_err_P mulmxA V2 mul1mx; do 2?congr (_ *m _); congr diag_mx; apply/rowP => i; rewrite !mxE.
by move: Q => Q; rewrite trmx_mul trmxK mulmxA -[Q^T *m V *m V^T]mulmxA V1 mulmx1.
Qed.
Lemma obj_jac lam phi : (forall i, 0 < g lam i) -> let P := re_err_P T om V lam (phi ^+ 2) in
  ln `|\det (B lam) ^+ T * (\det P / \det (B lam))| = T%:R * ln (\prod_i g lam i) - 1 / 2%:R * ln (\prod_i h lam phi i).
Proof.
move=> H P; have G0 : 0 < \prod_i g lam i by apply: prodr_gt0 => i _.
have g1 i : g lam i != 0 by rewrite gt_eqF.
have h0 i : 0 < h lam phi i by apply: (@lt_le_trans _ _ 1); rewrite ?ltr01 // ler_addl mulr_ge0 ?sqr_ge0 // mulr_ge0 ?ler0n ?sqr_ge0.
have H0 : 0 < \prod_i h lam phi i by apply: prodr_gt0 => i _.
pose q := `|\det P| / \prod_i g lam i.
have dV : `|\det V| ^+ 2 = 1.
  by have := congr1 determinant V1; rewrite det_mulmx det_tr det1 -expr2 -normrX => ->; rewrite normr1.
have dP : \det P ^+ 2 * \prod_i (cv lam phi) 0 i = 1.
  rewrite /P /re_err_P det_mulmx det_tr exprMn -[\det V ^+ 2]ger0_norm ?sqr_ge0 // normrX dV mulr1 det_diag -prodrXl -big_split /= big1 // => i _.
  have := cv_pos phi g1 i; rewrite !mxE => c0.
  by rewrite exprVn sqr_sqrtr ?mulVf ?gt_eqF // ltW.
have cE : \prod_i (cv lam phi) 0 i * (\prod_i g lam i) ^+ 2 = \prod_i h lam phi i.
  rewrite -prodrXl -big_split /=; apply: eq_bigr => i _; rewrite mxE mulrDl mulfVK ?mul1r ?expf_neq0 //; by rewrite addrC.
have q2 : q ^+ 2 * \prod_i h lam phi i = 1.
  rewrite -cE /q expr_div_n [_ * (_ ^+ 2)]mulrC mulrA mulfVK ?expf_neq0 ?gt_eqF //.
  by rewrite -normrX ger0_norm ?sqr_ge0.
have q0 : 0 < q.
  rewrite lt_def divr_ge0 ?normr_ge0 ?ltW // andbT; apply/negP => /eqP Z.
  by move: q2; rewrite Z expr0n /= mul0r => /esym/eqP; rewrite oner_eq0.
have -> : `|\det (B lam) ^+ T * (\det P / \det (B lam))| = (\prod_i g lam i) ^+ T * q.
  by rewrite detB normrM normf_div normrX (gtr0_norm G0).
rewrite [ln (_ ^+ T * _)]lnM ?exprn_gt0 // (ln_pow _ G0).
have : 2%:R * ln q + ln (\prod_i h lam phi i) = 0 by rewrite -ln_pow // -lnM ?exprn_gt0 // q2 ln1.
move/eqP; rewrite addr_eq0 => /eqP E; have t0 : 2%:R != 0 :> R by rewrite pnatr_eq0.
by congr (_ + _); rewrite -mulrN -[LHS](mulKf t0) E mul1r.
Qed.
Local Notation N := (T * n)%N.
Local Notation PP lam phi := (re_err_P T om V lam (phi ^+ 2)).
Local Notation jac lam phi := (\det (B lam) ^+ T * (\det (PP lam phi) / \det (B lam))).
Local Notation rs lam phi b := (re_filter (PP lam phi) W lam y - re_filter (PP lam phi) W lam x *m b).
Lemma obj_value adj lam phi f : re_err_obj adj y x W om V lam phi = Some f -> (forall i, 0 < g lam i) /\ exists b,
  [/\ 0 < ssq (rs lam phi b), forall b', ssq (rs lam phi b) <= ssq (rs lam phi b') &
      f = N%:R / 2%:R * ln (if adj then ssq (rs lam phi b) / N%:R else ssq (rs lam phi b)) - ln `|jac lam phi|].
Proof.
rewrite /re_err_obj /re_err_ssr; case Ex: la_inv => [xi|//].
set ys := re_filter _ _ _ y; set xs := re_filter _ _ _ x; rewrite -/xs in Ex; have Es := ls_ssr ys Ex; cbv zeta in Es; rewrite Es.
have NE : n%:R * T%:R = N%:R :> R by rewrite natrM mulrC.
rewrite NE; set b := xi *m _; case El: np_log => [l|//]; case Eh: osum => [v|//]; case Eg: osum => [w|//] [<-].
have g0 i : 0 < g lam i by apply: (osum_pos Eg); rewrite mem_enum.
have h0 i : 0 < h lam phi i by apply: (osum_pos Eh); rewrite mem_enum.
have Nr : 0 < N%:R :> R by rewrite ltr0n muln_gt0 T0 n0.
split=> //; exists b.
have S0 : 0 < ssq (ys - xs *m b) by move: El; rewrite /np_log; case: adj; case: ifP => // H _; move: H; rewrite ?pmulr_lgt0 ?invr_gt0.
have El' : l = ln (if adj then ssq (ys - xs *m b) / N%:R else ssq (ys - xs *m b)) by move: El; rewrite /np_log; case: adj; case: ifP => // _ [].
split=> // [b'|]; first by rewrite (ls_split ys b' Ex) -/b ler_addl ssqE utu_ge0.
have -> : v = ln (\prod_i h lam phi i) by move: Eh; rewrite osum_log // big_enum /= => -[].
have -> : w = ln (\prod_i g lam i) by move: Eg; rewrite osum_log // big_enum /= => -[].
rewrite obj_jac // El'; move: (ln _) (ln _) (ln _) => a1 a2 a3.
by rewrite opprB -addrA.
Qed.
Lemma obj_def adj lam phi : (forall i, 0 < g lam i) -> (forall b', y - x *m b' != 0) -> (forall c : 'cV[R]_k, x *m c = 0 -> c = 0) ->
  exists f, re_err_obj adj y x W om V lam phi = Some f.
Proof.
move=> g0 Hy Hx; have g1 i : g lam i != 0 by rewrite gt_eqF.
have UB := B_unit g1; have HP := obj_white phi g1; cbv zeta in HP.
have [_ UF] := whiten (whitens T0 UB HP).
rewrite /re_err_obj /re_err_ssr; set ys := re_filter _ _ _ y; set xs := re_filter _ _ _ x.
have Ux : xs^T *m xs \in unitmx.
  apply/gram_unit => c; rewrite /xs re_filterE // -mulmxA => H; apply: Hx.
  by rewrite -[LHS](mulKmx UF) H mulmx0.
have Ex : la_inv (xs^T *m xs) = Some (invmx (xs^T *m xs)) by rewrite /la_inv Ux.
rewrite Ex; have Es := ls_ssr ys Ex; cbv zeta in Es; rewrite Es; set b := invmx _ *m _.
have S0 : 0 < ssq (ys - xs *m b).
  rewrite lt_def ssqE utu_ge0 utu_eq0 andbT; apply/negP => /eqP; rewrite /ys /xs !re_filterE // -mulmxA -mulmxBr => H.
  by have := Hy b; rewrite -[y - _](mulKmx UF) H mulmx0 eqxx.
have h0 i : 0 < h lam phi i by apply: (@lt_le_trans _ _ 1); rewrite ?ltr01 // ler_addl mulr_ge0 ?sqr_ge0 // mulr_ge0 ?ler0n ?sqr_ge0.
rewrite !osum_log // /np_log; case: adj; rewrite ?S0; last by eexists.
by rewrite divr_gt0 // ?mulr_gt0 ?ltr0n //; eexists.
Qed.
(** a value of the objective is minus the maximum of the likelihood over the coefficients and the scale *)
Lemma obj_max adj lam phi f : re_err_obj adj y x W om V lam phi = Some f ->
  exists b, let Q := rs lam phi b in let s2 := ssq Q / N%:R in
  [/\ 0 < s2, forall b', ssq Q <= ssq (rs lam phi b'),
      re_err_loglik y x W b lam s2 (phi ^+ 2 * s2) = re_err_logll T n f + (if adj then 0 else N%:R / 2%:R * ln N%:R)
    & forall b' s2', 0 < s2' -> re_err_loglik y x W b' lam s2' (phi ^+ 2 * s2') <= re_err_loglik y x W b lam s2 (phi ^+ 2 * s2)].
Proof.
move=> /obj_value [g0 [b [S0 Hb ->]]]; exists b; have g1 i : g lam i != 0 by rewrite gt_eqF.
have UB := B_unit g1; have HP := obj_white phi g1; cbv zeta in HP; move=> Q s2.
have Nr : 0 < N%:R :> R by rewrite ltr0n muln_gt0 T0 n0.
have N0 : (0 < N)%N by rewrite muln_gt0 T0 n0.
have s0 : 0 < s2 by rewrite divr_gt0.
have [_ UF] := whiten (whitens T0 UB HP).
have j0 : 0 < `|jac lam phi|.
  by rewrite normr_gt0 -det_blk // -unitfE -unitmxE.
have E b' s2' : 0 < s2' -> re_err_loglik y x W b' lam s2' (phi ^+ 2 * s2') = gauss_loglik `|jac lam phi| (rs lam phi b') s2'.
  by move=> s0'; rewrite (re_normal_err y x T0 b' s0' UB HP) /gauss_loglik normr_id.
split=> //; last first.
  by move=> b' s2' s0'; rewrite !E //; apply: gl_le.
rewrite E // gl_eq // /re_err_logll -/Q; case: (adj); first by rewrite addr0.
rewrite (ln_split S0 Nr); move: (ln _) (ln _) (ln _) (ln _) => a1 a2 a3 a4; rewrite /Q; mring R_realFieldType.
Qed.
End Sym.

(** C83: with symmetric weights the reported log-likelihood is the Gaussian log-likelihood at the reported estimates, and no other
    coefficients and variances with the reported lambda and variance ratio give a larger one. *)
(* partial; missing: non-symmetric weights (C83_nonsymmetric_refuted) and the deprecated class (C83_old_loglik_refuted) *)
Theorem C83_loglik_partial : forall T n k (y : 'cV[R]_(T * n)) (x : 'M[R]_(T * n, k)) (W V : 'M[R]_n) om eigh lam phi0 fn r, (0 < T)%N -> (0 < n)%N ->
  is_eigh W om V -> (let O := re_err_between T W lam (phi0 ^+ 2) in is_eigh O (eigh O).1 (eigh O).2) ->
  re_err_obj true y x W om V lam phi0 = Some fn -> base_re_err eigh y x W ((lam, phi0), fn) = Some r ->
  er_logll r = re_err_loglik y x W (er_b r) (er_lam r) (er_sig2 r) (er_sig2_u r) /\
  forall b' s2', 0 < s2' -> re_err_loglik y x W b' (er_lam r) s2' (er_phi r * s2') <= er_logll r.
Proof.
move=> T n k y x W V om eigh lam phi0 fn r T0 n0 Hom Heig Ho Hr.
have [[El Ep] Hb [Es Eu] _ _] := @C83_fit_partial _ _ _ y x W T0 eigh ((lam, phi0), fn) r Heig Hr; rewrite /= in El Ep; rewrite El Ep in Hb Es Eu *.
have EL : er_logll r = re_err_logll T n fn.
  move: Hr; rewrite /base_re_err; case: la_inv => // Bi; case: (eigh _) => d U; do 4 (case: la_inv => // ?); by case=> <-.
have [g0 _] := obj_value T0 n0 Hom Ho; have g1 i : 1 - lam * om 0 i != 0 by rewrite gt_eqF.
have UB := B_unit Hom g1; have HP := obj_white T Hom phi0 g1; cbv zeta in HP.
have [b [s0 Hmin E H]] := obj_max T0 n0 Hom Ho; rewrite addr0 in E.
have QE c := gls_err y x T0 c UB HP; cbv zeta in QE.
have Eb : b = er_b r.
  have [H1 H2] := Hb b; apply: H2; apply/eqP; rewrite eq_le H1 andbT !QE; exact: Hmin.
rewrite Eb in E H.
have E2 : er_sig2 r = ssq (re_filter (re_err_P T om V lam (phi0 ^+ 2)) W lam y - re_filter (re_err_P T om V lam (phi0 ^+ 2)) W lam x *m er_b r) / (T * n)%:R.
  by rewrite Es QE.
by rewrite Eu E2 E EL; split=> // b' s2' s0'; rewrite -E; exact: H.
Qed.
(** C83: a minimum of the objective over a set of (lambda, phi) is a maximum of the likelihood in all parameters. *)
(* partial; missing: non-symmetric weights (C83_nonsymmetric_refuted) *)
Theorem C83_global_partial : forall T n k (y : 'cV[R]_(T * n)) (x : 'M[R]_(T * n, k)) (W V : 'M[R]_n) om eigh (P : R -> R -> Prop) lam phi0 fn r, (0 < T)%N -> (0 < n)%N ->
  is_eigh W om V ->
  (forall lam' phi', P lam' phi' -> forall i, 0 < 1 - lam' * om 0 i) ->
  (forall b', y - x *m b' != 0) -> (forall c : 'cV[R]_k, x *m c = 0 -> c = 0) ->
  re_err_obj true y x W om V lam phi0 = Some fn ->
  (forall lam' phi' fn', P lam' phi' -> re_err_obj true y x W om V lam' phi' = Some fn' -> fn <= fn') ->
  base_re_err eigh y x W ((lam, phi0), fn) = Some r ->
  forall b' lam' phi' s2', P lam' phi' -> 0 < s2' -> re_err_loglik y x W b' lam' s2' (phi' ^+ 2 * s2') <= er_logll r.
Proof.
move=> T n k y x W V om eigh P lam phi0 fn r T0 n0 Hom HP Hy Hx Ho Hmin Hr b' lam' phi' s2' HP' s0'.
have EL : er_logll r = re_err_logll T n fn.
  move: Hr; rewrite /base_re_err; case: la_inv => // Bi; case: (eigh _) => d U; do 4 (case: la_inv => // ?); by case=> <-.
have [f' Ho'] := obj_def T0 n0 Hom true phi' (HP _ _ HP') Hy Hx.
have [b [_ _ E H]] := obj_max T0 n0 Hom Ho'; rewrite addr0 in E.
apply: le_trans (H b' s2' s0') _; rewrite E EL /re_err_logll !ler_add2r ler_opp2.
exact: Hmin Ho'.
Qed.
(** C83: the deprecated Panel_RE_Error reports a log-likelihood that is too small by (NT/2) ln(NT). *)
Theorem C83_old_loglik_refuted : forall T n k (y : 'cV[R]_(T * n)) (x : 'M[R]_(T * n, k)) (W V : 'M[R]_n) om lam phi fn, (0 < T)%N -> (0 < n)%N ->
  is_eigh W om V -> re_err_obj false y x W om V lam phi = Some fn ->
  exists b s2, [/\ 0 < s2,
    forall b' s2', 0 < s2' -> re_err_loglik y x W b' lam s2' (phi ^+ 2 * s2') <= re_err_loglik y x W b lam s2 (phi ^+ 2 * s2)
    & re_err_logll T n fn = re_err_loglik y x W b lam s2 (phi ^+ 2 * s2) - (T * n)%:R / 2%:R * ln (T * n)%:R].
Proof.
move=> T n k y x W V om lam phi fn T0 n0 Hom Ho; have [b [s0 _ E H]] := obj_max T0 n0 Hom Ho.
by exists b, (ssq (re_filter (re_err_P T om V lam (phi ^+ 2)) W lam y - re_filter (re_err_P T om V lam (phi ^+ 2)) W lam x *m b) / (T * n)%:R); split=> //; rewrite E addrK.
Qed.
