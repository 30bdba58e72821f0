(** Property theorems C80 continued: the estimates of BaseGM_KKP and BaseGM_ErrorRE. *)
From mathcomp Require Import all_ssreflect all_algebra.
From Verif Require Import LinRegModel LinRegProofs LinRegProofs2 LinRegProofs3 FilterModel FilterProofs MomentsTheorems Kron PanelModel PanelTheorems KkpModel KkpTheorems.
Set Implicit Arguments.
Unset Strict Implicit.
Unset Printing Implicit Defensive.
Import Order.TTheory GRing.Theory Num.Theory.
Local Open Scope ring_scope.

(** * Specification: the covariance matrix of the disturbances v_it + mu_i, with variances sv for v and (s1 - sv) / T for mu *)
Definition disturbance_cov (R : realFieldType) T n (sv s1 : R) : 'M[R]_(T * n) :=
  \matrix_(r, s) (if pu r == pu s then (if pt r == pt s then sv else 0) + (s1 - sv) / T%:R else 0).
(** u - lam W u in every period *)
Definition panel_filter (R : realFieldType) T n k (lam : R) (W : 'M[R]_n) (a : 'M[R]_(T * n, k)) : 'M[R]_(T * n, k) :=
  \matrix_(r, c) (a r c - lam * \sum_j W (pu r) j * a (pix (pt r) j) c).

Lemma ols_vm (R : realFieldType) n k (y : 'cV[R]_n) (x : 'M[R]_(n, k)) g s o : base_ols y x RobNone g s = Some o ->
  o_vm o = sig2_of k s (o_u o) *: invmx (x^T *m x).
Proof. by rewrite /base_ols; case E: la_inv => [B|] // [<-] /=; case: (la_invP E) => U ->. Qed.

Section Est.
Variables (R : rcfType) (T n k : nat).
Variables (moments0 : 'M[R]_n -> 'cV[R]_(T * n) -> 'M[R]_3 * 'cV[R]_3) (moments1 : 'M[R]_n -> 'cV[R]_(T * n) -> 'M[R]_(3, 4) * 'cV[R]_3).
Variables (opt1 : 'M[R]_3 * 'cV[R]_3 -> R * R) (opt2 : 'M[R]_(3 + 3, 4) * 'cV[R]_(3 + 3) -> 'M[R]_(2 * 3) -> R * R * R -> R * R * R).
Variables (y : 'cV[R]_(T * n)) (x : 'M[R]_(T * n, k)) (W : 'M[R]_n) (fw : bool) (r : kkp R T n k).
Hypothesis T0 : (0 < T)%N.
Hypothesis Fit : base_gm_kkp moments0 moments1 opt1 opt2 y x W fw = Some r.
Let V := disturbance_cov T n (kk_sv r) (kk_s1 r).
Let F c (a : 'M[R]_(T * n, c)) := panel_filter (kk_lam r) W a.

Lemma T0' : T%:R != 0 :> R. Proof. by rewrite pnatr_eq0 -lt0n. Qed.
Lemma filterE c lam (a : 'M[R]_(T * n, c)) : a - lam *: (kkp_Tw T W *m a) = panel_filter lam W a.
Proof.
apply/matrixP => p q; rewrite [RHS]mxE [LHS]mxE; congr (_ + _); rewrite mxE [X in - X]mxE; congr (- (_ * _)).
rewrite mxE big_pix (bigD1 (pt p)) //= [X in _ + X]big1 ?addr0; last first.
  by move=> t H; apply: big1 => j _; rewrite !mxE pt_pix (eq_sym (pt p)) (negbTE H) !mul0r.
by apply: eq_bigr => j _; rewrite !mxE pt_pix pu_pix eqxx mul1r.
Qed.
Lemma covE : V = kk_sv r *: kkp_Q0 R T n + kk_s1 r *: kkp_Q1 R T n.
Proof.
have H p q : kkp_Q1 R T n p q = T%:R^-1 * (pu p == pu q)%:R.
  by rewrite /kkp_Q1 /kron mxE [(1%:M : 'M[R]_n) _ _]mxE !mxE mulr1.
have I p q : (1%:M : 'M[R]_(T * n)) p q = (pt p == pt q)%:R * (pu p == pu q)%:R by rewrite -(kron1 R T n) !mxE.
rewrite Q0E /V; move: (kkp_Q1 R T n) (1%:M : 'M[R]_(T * n)) H I => Q J H I; apply/matrixP => p q; rewrite !mxE H I.
case: (pu p == pu q); case: (pt p == pt q); rewrite ?mulr1 ?mulr0 ?add0r ?addr0 ?subr0 ?mulr0 //.
- by rewrite mulrBr mulr1 mulrBl -addrA [- _ + _]addrC.
- by rewrite mulrBl mulrN addrC.
- by rewrite oppr0 mulr0.
- by rewrite oppr0 mulr0.
Qed.
Lemma kkp_fit : exists o s, [/\ base_ols y x RobNone None true = Some o,
  kk_start r = (let: (l1, v1) := opt1 (moments0 W (o_u o)) in (l1, v1, between (sfilt l1 W (pv (o_u o))) (sfilt l1 W (pv (o_u o))) / n%:R)),
  (kk_lam r, kk_sv r, kk_s1 r) = opt2 (moments6 (moments0 W (o_u o)) (moments1 W (o_u o)))
     (kkp_Xi T W fw (kk_start r).1.2 (kk_start r).2) (kk_start r)
 & base_ols (demean_panel (Num.sqrt (kk_sv r) / Num.sqrt (kk_s1 r)) (F y)) (demean_panel (Num.sqrt (kk_sv r) / Num.sqrt (kk_s1 r)) (F x))
     RobNone None true = Some s /\
   [/\ kk_b r = o_betas s, kk_predy r = x *m kk_b r, kk_u r = y - x *m kk_b r, kk_efilt r = F (kk_u r) & kk_vm r = o_vm s]].
Proof.
move: Fit; rewrite /base_gm_kkp; case Eo: base_ols => [o|//].
case E1: (opt1 _) => [l1 v1]; case E2: (opt2 _ _ _) => [[lam sv] s1].
case Es: base_ols => [s|//] [Er]; exists o, s.
have G c (a : 'M[R]_(T * n, c)) : (1%:M - (1 - Num.sqrt sv / Num.sqrt s1) *: kkp_Q1 R T n) *m a = demean_panel (Num.sqrt sv / Num.sqrt s1) a.
  by rewrite demeanE mulmxBl mul1mx -scalemxAl.
rewrite !G !filterE in Es.
have B : dot (o_u o - l1 *: (kkp_Tw T W *m o_u o)) (kkp_Q1 R T n *m (o_u o - l1 *: (kkp_Tw T W *m o_u o))) =
    between (sfilt l1 W (pv (o_u o))) (sfilt l1 W (pv (o_u o))).
  by rewrite betweenE //; apply: eq_between => t i; rewrite pv_filt.
split=> //.
- by rewrite E1 -Er /= B.
- by rewrite -{}Er /= -{}E2.
- by rewrite /F -{}Er /=; split=> //; split=> //; rewrite filterE.
Qed.
Hypotheses (sv0 : 0 < kk_sv r) (s10 : 0 < kk_s1 r).
Let phi := Num.sqrt (kk_sv r) / Num.sqrt (kk_s1 r).
Lemma phi2 : phi ^+ 2 = kk_sv r / kk_s1 r.
Proof. by rewrite /phi expr_div_n !sqr_sqrtr // ltW. Qed.
Lemma demean1' (p : R) m (a : 'M[R]_(T * n, m)) : demean_panel p a = demean_panel p 1%:M *m a.
Proof. by rewrite !demeanE mulmx1 mulmxBl mul1mx -scalemxAl. Qed.
Lemma cov_unit : V \in unitmx /\ invmx V = (kk_sv r)^-1 *: demean_panel (phi ^+ 2) 1%:M.
Proof.
have E : V *m ((kk_sv r)^-1 *: demean_panel (phi ^+ 2) 1%:M) = 1%:M.
  have -> : demean_panel (phi ^+ 2) (1%:M : 'M[R]_(T * n)) = kkp_Q0 R T n + (kk_sv r / kk_s1 r) *: kkp_Q1 R T n.
    by rewrite demeanE mulmx1 phi2 Q0E scalerBl scale1r opprB addrA addrAC.
  rewrite covE -scalemxAr mulmxDl !mulmxDr -!scalemxAl -!scalemxAr Q0_idem // Q1_idem // Q01 // Q10 // !scaler0 addr0 add0r.
  rewrite [kk_s1 r *: _]scalerA mulrCA divff ?lt0r_neq0 // mulr1 -scalerDr scalerA mulVf ?lt0r_neq0 // scale1r.
  by rewrite Q0E subrK.
have [U _] := mulmx1_unit E; split=> //; by rewrite -[LHS]mulmx1 -[X in _ *m X]E mulKmx.
Qed.
Lemma demean_sq' m p (a : 'M[R]_(T * n, m)) (b : 'M[R]_(T * n, p)) :
  (demean_panel phi a)^T *m demean_panel phi b = kk_sv r *: (a^T *m invmx V *m b).
Proof.
have D q : (demean_panel q (1%:M : 'M[R]_(T * n)))^T = demean_panel q 1%:M by rewrite demeanE mulmx1 linearB /= trmx1 linearZ /= avg_tr.
have [_ ->] := cov_unit; rewrite -scalemxAr -scalemxAl scalerA divff ?lt0r_neq0 // scale1r.
rewrite (demean1' phi a) (demean1' phi b) trmx_mul D mulmxA; congr (_ *m _); rewrite -mulmxA; congr (_ *m _).
by rewrite -demean1' demean_comp.
Qed.
Lemma filter_lin (c : 'cV[R]_k) : F (y - x *m c) = F y - F x *m c.
Proof. by rewrite /F -!filterE mulmxBr mulmxBl scalerBr -scalemxAl mulmxA !opprB -!addrA; congr (_ + _); rewrite [RHS]addrC -addrA addrCA. Qed.

(** C80: residuals and fit; the starting value sig_1 is the between variance of the filtered residuals of the first regression, at the
    lambda of the first step, and so solves the fourth moment equation there. *)
Theorem C80_residuals : [/\ kk_predy r = x *m kk_b r, kk_predy r + kk_u r = y & kk_efilt r = panel_filter (kk_lam r) W (kk_u r)].
Proof. by have [o [s [_ _ _ [_ [-> -> -> -> _]]]]] := kkp_fit; split=> //; rewrite addrC subrK. Qed.
Theorem C80_start : exists2 o, base_ols y x RobNone None true = Some o &
  ((kk_start r).1.1, (kk_start r).1.2) = opt1 (moments0 W (o_u o)) /\
  let e := sfilt (kk_start r).1.1 W (pv (o_u o)) in (kk_start r).2 = between e e / n%:R.
Proof.
have [o [s [Eo S _ _]]] := kkp_fit; exists o => //; rewrite S.
by case: opt1 => a b.
Qed.
(** C80: the coefficients are generalised least squares: among all coefficient vectors they alone minimise the quadratic form, in the
    inverse of the disturbances' covariance matrix, of the spatially filtered residuals. *)
Theorem C80_gls : V \in unitmx /\ forall b : 'cV[R]_k,
  let q c := ((F (y - x *m c))^T *m invmx V *m F (y - x *m c)) 0 0 in q (kk_b r) <= q b /\ (q b <= q (kk_b r) -> b = kk_b r).
Proof.
split=> [|b q]; first by have [] := cov_unit.
have [o [s [_ _ _ [Es [-> _ _ _ _]]]]] := kkp_fit.
have Q c : q c = (kk_sv r)^-1 * utu_of (demean_panel phi (F y) - demean_panel phi (F x) *m c).
  have -> : demean_panel phi (F y) - demean_panel phi (F x) *m c = demean_panel phi (F (y - x *m c)).
    by rewrite filter_lin [RHS]demean1' mulmxBr mulmxA -!demean1'.
  by rewrite utuE demean_sq' mxE mulKf ?lt0r_neq0.
have ip : 0 < (kk_sv r)^-1 by rewrite invr_gt0.
rewrite !Q !ler_pmul2l // !(ols_min _ Es) subrr mulmx0.
have -> : utu_of (0 : 'cV[R]_(T * n)) = 0 by rewrite /utu_of big1 // => i _; rewrite mxE expr0n.
rewrite addr0 ler_addl utu_ge0; split=> //; rewrite -[X in _ <= X]addr0 ler_add2l => H.
have Z : utu_of (demean_panel phi (F x) *m (b - o_betas s)) == 0 by rewrite eq_le H utu_ge0.
apply/eqP; rewrite -subr_eq0; apply/eqP; apply: (proj1 (gram_unit _) (ols_gram Es)).
by apply/eqP; rewrite -utu_eq0.
Qed.
(** C80: vm is the GLS covariance matrix, with the scale re-estimated from the filtered residuals with n T - k degrees of freedom. *)
Theorem C80_vm : kk_vm r *m ((F x)^T *m invmx V *m F x) = (((kk_efilt r)^T *m invmx V *m kk_efilt r) 0 0 / ((T * n)%:R - k%:R))%:M.
Proof.
have [o [s [_ _ _ [Es [Eb _ Eu -> ->]]]]] := kkp_fit.
have [_ _ P U _] := ols_fields Es; rewrite (ols_vm Es).
have Us : o_u s = demean_panel phi (F (y - x *m kk_b r)) by rewrite Eb filter_lin [RHS]demean1' mulmxBr mulmxA -!demean1' U P.
have -> : (F x)^T *m invmx V *m F x = (kk_sv r)^-1 *: ((demean_panel phi (F x))^T *m demean_panel phi (F x)).
  by rewrite demean_sq' scalerA mulVf ?lt0r_neq0 // scale1r.
rewrite -scalemxAr -scalemxAl mulVmx ?(ols_gram Es) // scalerA scalemx1; congr (_%:M).
by rewrite Eu /sig2_of Us utuE demean_sq' [X in X / _]mxE !mulrA mulVf ?lt0r_neq0 // mul1r.
Qed.
End Est.

(** C80: the deprecated and the current class compute the same estimates *)
Theorem C80_same_estimates : forall (R : rcfType) T n k opt1 opt2 (y : 'cV[R]_(T * n)) (x : 'M[R]_(T * n, k)) (W : 'M[R]_n) fw,
  base_gm_kkp (@moments_kkp0 R T n) (@moments_kkp1 R T n) opt1 opt2 y x W fw =
  base_gm_kkp (@moments_re0 R T n) (@moments_re1 R T n) opt1 opt2 y x W fw.
Proof.
move=> R T n k opt1 opt2 y x W fw; rewrite /base_gm_kkp; case: base_ols => [o|//].
by have [-> ->] := C80_same_moments W (o_u o).
Qed.
(** C80: the estimates exist whenever the columns of x are independent, the filter is invertible and the variances positive *)
Theorem C80_defined : forall (R : rcfType) T n k moments0 moments1 opt1 opt2 (y : 'cV[R]_(T * n)) (x : 'M[R]_(T * n, k)) (W : 'M[R]_n) fw,
  (0 < T)%N -> x^T *m x \in unitmx ->
  (forall m X s, let: (lam, sv, s1) := opt2 m X s in [/\ 1%:M - lam *: W \in unitmx, 0 < sv & 0 < s1]) ->
  exists2 r, base_gm_kkp moments0 moments1 opt1 opt2 y x W fw = Some r & 0 < kk_sv r /\ 0 < kk_s1 r.
Proof.
move=> R T n k m0 m1 opt1 opt2 y x W fw T0 Ux H; rewrite /base_gm_kkp ols_Some //; case: (opt1 _) => l1 v1.
match goal with |- context [opt2 ?a ?b ?c] => move: (H a b c); case: (opt2 a b c) => [[lam sv] s1] [UW sv0 s10] end.
set g := (1%:M - _ *: kkp_Q1 R T n); set xs := g *m (x - _).
have Us : xs^T *m xs \in unitmx.
  apply/gram_unit => c; rewrite /xs -mulmxA => E; apply: (proj1 (gram_unit x) Ux).
  have G : g *m ((x - lam *: (kkp_Tw T W *m x)) *m c) = demean_panel (Num.sqrt sv / Num.sqrt s1) ((x - lam *: (kkp_Tw T W *m x)) *m c).
    by rewrite demeanE /g mulmxBl mul1mx -scalemxAl.
  have {E} E : (x - lam *: (kkp_Tw T W *m x)) *m c = 0.
    have P : Num.sqrt s1 / Num.sqrt sv * (Num.sqrt sv / Num.sqrt s1) = 1.
      by rewrite mulrA divfK ?divff // lt0r_neq0 // sqrtr_gt0.
    rewrite -[LHS]C41_full_weight -P -demean_comp // -G E.
    by rewrite demeanE mulmx0 scaler0 subr0.
  have U : 1%:M - lam *: kkp_Tw T W \in unitmx.
    have -> : 1%:M - lam *: kkp_Tw T W = kron 1%:M (1%:M - lam *: W).
      by rewrite -!scaleNr kronDr kron1 kronZr.
    by have [] := kron_unit (unitmx1 R T) UW.
  apply: (can_inj (mulKmx U)); rewrite mulmx0 -E mulmxBl mul1mx [RHS]mulmxBl -!scalemxAl.
  by rewrite mulmxA.
by rewrite ols_Some //; eexists; first by [].
Qed.
