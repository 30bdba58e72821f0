(** C97: the Hausman test of PanelRE. *)
From Coq Require Import Ring Field.
From mathcomp Require Import all_ssreflect all_algebra.
From Verif Require Import Mring LinRegModel LinRegProofs LinRegProofs2 Kron PanelModel PanelTheorems PanelTheorems2 MLTheorems3 HausModel.
Set Implicit Arguments.
Unset Strict Implicit.
Unset Printing Implicit Defensive.
Import Order.TTheory GRing.Theory Num.Theory.
Local Open Scope ring_scope.

Section Haus.
Variables (R : rcfType) (T n k : nat) (valid : 'I_k -> bool) (solve : 'M[R]_k -> 'cV[R]_k -> 'cV[R]_k).
Variables (cdf : R -> nat -> R) (y : 'cV[R]_(T * n)) (x : 'M[R]_(T * n, k)) (r : panel_re R T n k).
Local Notation m := #|[pred c | valid c]|.
Local Notation slim := (fe_slim valid x).
(** the matrix that picks the columns that vary *)
Definition pick : 'M[R]_(k, m) := \matrix_(c, j) (c == enum_val j)%:R.
Lemma pick_mul p (a : 'M[R]_(p, k)) : a *m pick = \matrix_(i, j) a i (enum_val j).
Proof.
apply/matrixP => i j; rewrite !mxE (bigD1 (enum_val j)) //= !mxE eqxx mulr1 big1 ?addr0 // => c /negPf Hc.
by rewrite !mxE Hc mulr0.
Qed.
Lemma pick_tr p (a : 'M[R]_(k, p)) : pick^T *m a = \matrix_(i, j) a (enum_val i) j.
Proof. by apply: trmx_inj; rewrite trmx_mul trmxK pick_mul; apply/matrixP => i j; rewrite !mxE. Qed.
Lemma slimE : slim = (x - tile T (unit_mean x)) *m pick.
Proof. by rewrite pick_mul. Qed.
Lemma sub_mxE (A : 'M[R]_k) : (\matrix_(i < m, j < m) A (enum_val i) (enum_val j)) = pick^T *m A *m pick.
Proof. by rewrite pick_tr pick_mul; apply/matrixP => i j; rewrite !mxE. Qed.
Lemma sub_colE (b : 'cV[R]_k) : (\col_(i < m) b (enum_val i) 0) = pick^T *m b.
Proof. by rewrite pick_tr; apply/matrixP => i j; rewrite !mxE ord1. Qed.

Hypothesis T0 : (0 < T)%N.
Hypothesis Fit : base_panel_re valid solve y x = Some r.

Lemma fit_gram : m != 0%N -> slim^T *m slim \in unitmx.
Proof.
move=> m0; move: Fit; rewrite /base_panel_re /re_sigma2_eps (negPf m0).
have -> : \matrix_(r0, c) (x - tile T (unit_mean x)) r0 (@enum_val _ [pred c | valid c] c) = slim by [].
by case E: (la_inv _) => [xi|//] _; have [] := la_invP E.
Qed.

(** C97: the two estimates of the same coefficients, and their covariance matrices *)
Definition hd : 'cV[R]_m := invmx (slim^T *m slim) *m (slim^T *m (y - tile T (unit_mean y))) - pick^T *m re_betas r.
Definition hV : 'M[R]_m := re_se2 r *: invmx (slim^T *m slim) - pick^T *m re_vm r *m pick.
Lemma hausE : re_hausman valid cdf y x r =
  if m == 0%N then Some (Hausman m None None false)
  else if hV \in unitmx then let s := (hd^T *m invmx hV *m hd) 0 0 in Some (Hausman m (Some s) (Some (1 - cdf s m)) false)
  else Some (Hausman m None None true).
Proof.
rewrite /re_hausman; case: ifP => // /negbT /fit_gram U; rewrite la_inv_unit // sub_mxE sub_colE -/hd -/hV.
by rewrite /la_inv; case: ifP.
Qed.

(** demeaning in full leaves no more variation than demeaning in part *)
Lemma demean_mul (p : R) j (b : 'M[R]_(k, j)) : demean_panel p (x *m b) = demean_panel p x *m b.
Proof. by rewrite !demeanE mulmxBl -scalemxAl mulmxA. Qed.
Lemma demean0E j (a : 'M[R]_(T * n, j)) : demean_panel 0 a = a - tile T (unit_mean a).
Proof. by rewrite demeanE subr0 scale1r avgE. Qed.
Lemma within_le (p : R) (v : 'cV[R]_(T * n)) : utu_of (demean_panel 0 v) <= utu_of (demean_panel p v).
Proof.
have -> : demean_panel p v = demean_panel 0 v + tile T (p *: unit_mean v).
  rewrite demean0E demeanE avgE scalerBl scale1r opprB addrA addrAC; congr (_ + _).
  by apply/matrixP => i j; rewrite !mxE.
by rewrite within_between ?C41_unit_means_zero // ler_addl utu_ge0.
Qed.
(** a column of x that does not vary enough does not vary at all *)
Hypothesis Fixed : forall c t s i, ~~ valid c -> x (pix t i) c = x (pix s i) c.
Lemma dem_pick : demean_panel 0 x = slim *m pick^T.
Proof.
rewrite slimE -mulmxA demean0E; apply/matrixP => a c; rewrite [RHS]mxE.
have P j : (pick *m pick^T) j c = (valid c && (j == c))%:R.
  rewrite mxE; case V: (valid c) => /=.
    have I : c \in [pred c | valid c] by [].
    rewrite (bigD1 (enum_rank_in I c)) //= !mxE enum_rankK_in // eqxx mulr1 big1 ?addr0 // => j' H.
    rewrite !mxE -[X in X * _ = _]/((j == enum_val j')%:R) [X in _ * X](_ : _ = 0) ?mulr0 //.
    case: eqP => // E; case/eqP: H; by apply: enum_val_inj; rewrite enum_rankK_in.
  rewrite big1 // => j' _; rewrite !mxE [X in _ * X](_ : _ = 0) ?mulr0 //; case: eqP => // E.
  by have := enum_valP j'; rewrite -E inE V.
under eq_bigr do rewrite P; case V: (valid c) => /=.
  by rewrite (bigD1 c) //= eqxx mulr1 big1 ?addr0 // => j /negPf ->; rewrite mulr0.
rewrite big1 => [|j _]; last by rewrite mulr0.
rewrite -(pix_pt_pu a) !mxE pu_pix.
have -> : \sum_t x (pix t (pu a)) c = \sum_(t < T) x (pix (pt a) (pu a)) c by apply: eq_bigr => t _; apply: Fixed; rewrite V.
by rewrite sumr_const card_ord -[_ *+ T]mulr_natr mulfK ?subrr // pnatr_eq0 -lt0n.
Qed.

Lemma utu_gram p q (X : 'M[R]_(p, q)) (w : 'cV[R]_q) : utu_of (X *m w) = (w^T *m (X^T *m X) *m w) 0 0.
Proof. by rewrite utuE trmx_mul -!mulmxA. Qed.
Lemma key (G : 'M[R]_k) (p : R) (z : 'cV[R]_m) : m != 0%N -> (demean_panel p x)^T *m demean_panel p x = G -> G \in unitmx ->
  (z^T *m (pick^T *m invmx G *m pick) *m z) 0 0 <= (z^T *m invmx (slim^T *m slim) *m z) 0 0.
Proof.
move=> m0 EG UG; have US := fit_gram m0; have SG : G^T = G by rewrite -EG gram_sym.
set w := invmx G *m (pick *m z); set g := invmx (slim^T *m slim) *m z.
set v := pick^T *m w.
have zE : z = slim^T *m slim *m g by rewrite mulKVmx.
have Q1 : (z^T *m (pick^T *m invmx G *m pick) *m z) 0 0 = (w^T *m G *m w) 0 0.
  by rewrite /w !trmx_mul invmx_sym // -!mulmxA mulKVmx // !mulmxA.
have Gw : G *m w = pick *m z by rewrite /w mulKVmx.
have Q2 : (w^T *m G *m w) 0 0 = ((slim *m v)^T *m (slim *m g)) 0 0.
  have -> : (slim *m v)^T *m (slim *m g) = v^T *m (slim^T *m slim *m g) by rewrite trmx_mul -!mulmxA.
  have vT : v^T = w^T *m pick by rewrite [LHS]trmx_mul trmxK.
  by rewrite -zE -[w^T *m G *m w]mulmxA Gw vT mulmxA.
have Q3 : (w^T *m G *m w) 0 0 = utu_of (demean_panel p x *m w) by rewrite utu_gram EG.
have Q4 : (z^T *m invmx (slim^T *m slim) *m z) 0 0 = utu_of (slim *m g).
  rewrite utu_gram; have -> : g^T *m (slim^T *m slim) *m g = g^T *m z by rewrite -mulmxA -zE.
  by rewrite /g trmx_mul invmx_sym ?gram_sym.
have Q5 : utu_of (slim *m v) <= utu_of (demean_panel p x *m w).
  by rewrite /v mulmxA -dem_pick -!demean_mul within_le.
have Q6 := utu_ge0 (slim *m v + - (slim *m g)).
rewrite utuD utuN mulmxN [X in X *+ 2]mxE mulNrn -Q2 Q3 in Q6.
rewrite Q1 Q3 Q4 -(ler_add2r (utu_of (slim *m v) - utu_of (demean_panel p x *m w) *+ 2)).
apply: le_trans (_ : 0 <= _); last by rewrite addrCA addrA.
by rewrite addrA addrAC mulr2n opprD addrA subrr sub0r addrC subr_le0.
Qed.

Lemma re_vmE : exists p : R, [/\ (demean_panel p x)^T *m demean_panel p x \in unitmx,
  re_vm r = re_sig2 r *: invmx ((demean_panel p x)^T *m demean_panel p x) & 0 <= re_sig2 r].
Proof.
have [o Eo [_ Es Ev _ _]] := re_ols Fit; eexists; split; [exact: ols_gram Eo|by rewrite Ev Es|].
rewrite Es; move: Eo; rewrite /base_ols; case: la_inv => [xi|//] [<-] /=.
by rewrite /sig2_of; apply: divr_ge0; [apply: utu_ge0|apply: ler0n].
Qed.
Lemma hV_form (z : 'cV[R]_m) : m != 0%N -> re_sig2 r <= re_se2 r ->
  (re_se2 r - re_sig2 r) * (z^T *m invmx (slim^T *m slim) *m z) 0 0 <= (z^T *m hV *m z) 0 0.
Proof.
move=> m0 L; have [p [UG Ev s0]] := re_vmE.
have -> : (z^T *m hV *m z) 0 0 = re_se2 r * (z^T *m invmx (slim^T *m slim) *m z) 0 0 -
    re_sig2 r * (z^T *m (pick^T *m invmx ((demean_panel p x)^T *m demean_panel p x) *m pick) *m z) 0 0.
  by rewrite /hV Ev mulmxBr mulmxBl -!scalemxAr -!scalemxAl -scalemxAr -scalemxAl [LHS]mxE; congr (_ + _); rewrite [LHS]mxE // [in LHS]mxE.
by rewrite mulrBl ler_sub //; apply: ler_wpmul2l => //; apply: (key z m0 erefl UG).
Qed.
Lemma hV_sym : hV^T = hV.
Proof.
have [p [UG Ev s0]] := re_vmE; rewrite /hV Ev linearB /= linearZ /= invmx_sym ?gram_sym //; congr (_ - _).
have S : (re_sig2 r *: invmx ((demean_panel p x)^T *m demean_panel p x))^T = re_sig2 r *: invmx ((demean_panel p x)^T *m demean_panel p x).
  by rewrite linearZ /= invmx_sym ?gram_sym.
by rewrite [LHS]trmx_mul [(pick^T *m _)^T]trmx_mul trmxK S mulmxA.
Qed.
Lemma within_pd : m != 0%N -> pd (invmx (slim^T *m slim)).
Proof. by move=> /fit_gram U; apply: pd_inv; apply: gram_pd. Qed.
Lemma hV_psd : m != 0%N -> re_sig2 r <= re_se2 r -> psd hV.
Proof.
move=> m0 L; split=> [|c]; first exact: hV_sym.
apply: le_trans (hV_form c m0 L); apply: mulr_ge0; first by rewrite subr_ge0.
by have [_ P] := within_pd m0; case: (c =P 0) => [->|/eqP /P /ltW //]; rewrite trmx0 !mul0mx mxE.
Qed.
Lemma hV_pd : m != 0%N -> re_sig2 r < re_se2 r -> pd hV.
Proof.
move=> m0 L; split=> [|c c0]; first exact: hV_sym.
apply: lt_le_trans (hV_form c m0 (ltW L)); apply: mulr_gt0; first by rewrite subr_gt0.
by have [_ P] := within_pd m0; apply: P.
Qed.
Lemma hstat_sign : m != 0%N -> re_sig2 r <= re_se2 r -> hV \in unitmx ->
  0 <= (hd^T *m invmx hV *m hd) 0 0 /\ ((hd^T *m invmx hV *m hd) 0 0 = 0 <-> hd = 0).
Proof.
move=> m0 L U; have [_ P] := pd_inv (psd_unit_pd (hV_psd m0 L) U).
case: (hd =P 0) => [-> | /eqP H]; first by rewrite trmx0 !mul0mx mxE lexx.
by have := P _ H; rewrite lt_def => /andP [/eqP N G]; split=> //; split=> E; [case: N | rewrite E eqxx in H].
Qed.
End Haus.

(** * C97 *)
Section Claims.
Variables (R : rcfType) (T n k : nat) (valid : 'I_k -> bool) (solve : 'M[R]_k -> 'cV[R]_k -> 'cV[R]_k) (cdf : R -> nat -> R).
Variables (y : 'cV[R]_(T * n)) (x : 'M[R]_(T * n, k)) (r : panel_re R T n k) (h : hausman R).
Local Notation m := #|[pred c | valid c]|.
Hypothesis Run : panel_re_full valid solve cdf y x = Some (r, h).
Lemma run_split : base_panel_re valid solve y x = Some r /\ re_hausman valid cdf y x r = Some h.
Proof. by move: Run; rewrite /panel_re_full; case: base_panel_re => [r'|//]; case E: re_hausman => [h'|//] [<- <-]. Qed.

(** the test compares the slopes of the columns that vary with those of the regression of the demeaned y on these columns, demeaned *)
Theorem C97_value : h_df h = m /\
  if m == 0%N then h_stat h = None /\ h_p h = None /\ h_warn h = false else
  exists2 o, base_ols (y - tile T (unit_mean y)) (fe_slim valid x) RobNone None false = Some o &
    let d := \col_i (o_betas o i 0 - re_betas r (enum_val i) 0) in
    let V := \matrix_(i, j) (re_se2 r * o_xtxi o i j - re_vm r (enum_val i) (enum_val j)) in
    if V \in unitmx then [/\ h_stat h = Some ((d^T *m invmx V *m d) 0 0), h_p h = Some (1 - cdf ((d^T *m invmx V *m d) 0 0) m) & h_warn h = false]
    else [/\ h_stat h = None, h_p h = None & h_warn h].
Proof.
have [Fit] := run_split; rewrite (hausE _ Fit); case: ifP => [E [<-] //|/negbT m0].
have U := fit_gram Fit m0; move=> Eh; split; first by move: Eh; case: ifP => _ [<-].
rewrite ols_Some //; eexists; first by [].
set d := \col_i _; set V := \matrix_(i, j) _.
have -> : d = hd valid y x r.
  by rewrite /d /hd -sub_colE; apply/matrixP => i j; rewrite !mxE ord1 /= ?mxE.
have -> : V = hV valid x r by rewrite /hV -sub_mxE; apply/matrixP => i j; rewrite !mxE.
by move: Eh => /=; case: ifP => _ [<-].
Qed.

(** the statistic is never negative when the quasi-demeaned variance estimate does not exceed the within one, and zero exactly when the
    two sets of slopes agree *)
(* partial; missing: sig2 larger than sigma2_epsilon, where C97_negative_refuted shows a negative statistic *)
Theorem C97_nonneg_partial : (0 < T)%N -> (forall c t s i, ~~ valid c -> x (pix t i) c = x (pix s i) c) -> re_sig2 r <= re_se2 r ->
  forall s, h_stat h = Some s -> 0 <= s /\
  forall o, base_ols (y - tile T (unit_mean y)) (fe_slim valid x) RobNone None false = Some o ->
    (s = 0 <-> forall i, o_betas o i 0 = re_betas r (enum_val i) 0).
Proof.
move=> T0 Fixed L s; have [Fit] := run_split; rewrite (hausE _ Fit); case: ifP => [E [<-] //|/negbT m0].
case: ifP => [U|_] [<-] //= /Some_inj <-; have [P Z] := hstat_sign T0 Fit Fixed m0 L U; split=> // o Eo.
rewrite Z; have UG := ols_gram Eo; rewrite ols_Some // in Eo; case: Eo => <- /=; rewrite /hd -sub_colE; split=> [H i|H].
  by move/eqP: H; rewrite subr_eq0 => /eqP ->; rewrite mxE.
by apply/eqP; rewrite subr_eq0; apply/eqP/matrixP => i j; rewrite ord1 [RHS]mxE -H.
Qed.
(** and it is defined when the latter is larger *)
(* partial; missing: sig2 at least sigma2_epsilon *)
Theorem C97_defined_partial : (0 < T)%N -> (forall c t s i, ~~ valid c -> x (pix t i) c = x (pix s i) c) -> re_sig2 r < re_se2 r -> m != 0%N ->
  exists s, h_stat h = Some s.
Proof.
move=> T0 Fixed L m0; have [Fit] := run_split; rewrite (hausE _ Fit) (negPf m0) (pd_unit (hV_pd T0 Fit Fixed m0 L)) => -[<-].
by eexists.
Qed.
End Claims.
(** the test never makes PanelRE fail *)
Theorem C97_runs : forall (R : rcfType) T n k valid solve cdf (y : 'cV[R]_(T * n)) (x : 'M[R]_(T * n, k)) r,
  base_panel_re valid solve y x = Some r -> exists h, panel_re_full valid solve cdf y x = Some (r, h).
Proof.
move=> R T n k valid solve cdf y x r Fit; rewrite /panel_re_full Fit (hausE _ Fit).
by case: ifP => _; [|case: ifP => _]; eexists.
Qed.
