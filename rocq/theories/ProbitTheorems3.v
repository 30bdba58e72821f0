(** C64 continued: concavity, stationary points, Newton's step, likelihood ratio, partial effects. *)
From Coq Require Import Reals Ring Field Lra.
From mathcomp Require Import all_ssreflect all_algebra.
From Verif Require NormalDist MLTheorems3.
From Verif Require Import Rinst Mring LinRegModel LinRegProofs LinRegProofs2 ProbitModel ProbitSpec ProbitTheorems2.
Set Implicit Arguments.
Unset Strict Implicit.
Unset Printing Implicit Defensive.
Import Order.TTheory GRing.Theory Num.Theory.
Local Open Scope ring_scope.
Add Field Rf : (@p_ft R_realFieldType).

Lemma sn_normal0 Phi phi : std_normal Phi phi -> NormalDist.normal0 Phi phi.
Proof.
case=> H1 H2 H3 H4 H5 H6 H7; split=> //.
- by move=> t; apply/ltRP; apply: H3.
- by move=> t; apply/ltRP; apply: H4.
- move=> e /ltRP /H7 [s Hs]; exists s => t /ltRP /Hs /ltRP; exact.
Qed.
Lemma normal0_sn Phi phi : NormalDist.normal0 Phi phi -> std_normal Phi phi.
Proof.
case=> H1 H2 H3 H4 H5 H6 H7; split=> //.
- by move=> t; apply/ltRP; apply: H3.
- by move=> t; apply/ltRP; apply: H4.
- move=> e /ltRP /H7 [s Hs]; exists s => t /ltRP /Hs /ltRP; exact.
Qed.
(** the assumptions are met by a distribution *)
Theorem C64_normal_exists : exists Phi phi, std_normal Phi phi.
Proof. by have [Phi [phi H]] := NormalDist.normal_exists; exists Phi, phi; apply: normal0_sn. Qed.

Lemma mills_ratio Phi phi : std_normal Phi phi -> forall t, 0 < phi t + t * Phi t.
Proof. by move=> /sn_normal0 N t; apply/ltRP; apply: NormalDist.mills. Qed.

Section Concave.
Variables (Phi phi : R -> R) (SN : std_normal Phi phi) (n k : nat) (y : 'cV[R]_n) (x : 'M[R]_(n, k)) (B : bin01 y).

Lemma lamb_pos b i : 0 < plamb Phi phi y x b i 0 * (plamb Phi phi y x b i 0 + pxb x b i).
Proof.
rewrite mxE; set s := pq y i * pxb x b i.
have q2 := pq_sq B i; have P := sn_cdf_pos SN s; have f := sn_pos SN s; have M := mills_ratio SN s.
have -> : pq y i * phi s / Phi s * (pq y i * phi s / Phi s + pxb x b i) = phi s * (phi s + s * Phi s) / (Phi s) ^+ 2.
  have nz : Phi s != 0 by rewrite lt0r_neq0.
  transitivity ((pq y i * pq y i) * phi s * (phi s + s * Phi s) / (Phi s) ^+ 2); last by rewrite q2 mul1r.
  clear P f M; move: nz; move: (Phi s) => p; move: (phi s) => g p0; rewrite /s.
  have -> : pq y i * g / p + pxb x b i = pq y i * g / p + (pq y i * pq y i) * pxb x b i by rewrite q2 mul1r.
  move: (pq y i) (pxb x b i) => q u; clear -p0.
  by mfield R_realFieldType; apply/eqP.
by rewrite divr_gt0 ?mulr_gt0 // exprn_gt0.
Qed.

Lemma hess_quad b (z : 'cV[R]_k) : (z^T *m probit_hessian Phi phi y x b *m z) 0 0 =
  - \sum_i (plamb Phi phi y x b i 0 * (plamb Phi phi y x b i 0 + pxb x b i)) * (pxb x z i) ^+ 2.
Proof.
rewrite /probit_hessian mulmxA -mulmxA -trmx_mul mxE -sumrN; apply: eq_bigr => i _.
rewrite [_^T _ _]mxE -/(pxb x z i).
have -> : (spbroadcast x (\col_i0 (- plamb Phi phi y x b i0 0 * (plamb Phi phi y x b i0 0 + pxb x b i0))) *m z) i 0
  = - plamb Phi phi y x b i 0 * (plamb Phi phi y x b i 0 + pxb x b i) * pxb x z i.
  have -> : pxb x z i = \sum_l x i l * z l 0 by rewrite /pxb mxE.
  rewrite mxE mulr_sumr; apply: eq_bigr => l _; rewrite [spbroadcast _ _ _ _]mxE [(\col_i0 _) _ _]mxE.
  by rewrite mulrA [x i l * _]mulrC.
by rewrite !mulNr mulrN mulrCA -expr2 mulrC.
Qed.

(** the Hessian is negative semidefinite, and definite when the regressors are independent: the likelihood is concave *)
Theorem C64_hessian_negative : forall b (z : 'cV[R]_k),
  (z^T *m probit_hessian Phi phi y x b *m z) 0 0 <= 0 /\
  ((z^T *m probit_hessian Phi phi y x b *m z) 0 0 = 0 -> x *m z = 0).
Proof.
move=> b z; rewrite hess_quad oppr_le0; split.
  by apply: sumr_ge0 => i _; apply: (mulr_ge0 (ltW (lamb_pos b i)) (sqr_ge0 _)).
move/eqP; rewrite oppr_eq0 => /eqP E; apply/matrixP => i j; rewrite ord1 [RHS]mxE.
have H : forall i, true -> 0 <= plamb Phi phi y x b i 0 * (plamb Phi phi y x b i 0 + pxb x b i) * pxb x z i ^+ 2.
  by move=> l _; apply: (mulr_ge0 (ltW (lamb_pos b l)) (sqr_ge0 _)).
have /eqP := psumr_eq0P H E (i := i) isT; rewrite mulf_eq0 (gt_eqF (lamb_pos b i)) /= sqrf_eq0 => /eqP; exact.
Qed.

(** a coefficient vector with zero gradient maximises the log-likelihood over all coefficient vectors *)
Lemma grad_line b d a : derivable_pt_lim (fun t => (probit_gradient Phi phi y x (b + t *: d) *m d) 0 0) a
   ((d^T *m probit_hessian Phi phi y x (b + a *: d) *m d) 0 0).
Proof.
rewrite hess_quad -sumrN.
have D := @dl_sum _ (index_enum (ordinal_finType n)) (fun i t => plamb Phi phi y x (b + t *: d) i 0 * pxb x d i)
  (fun i => - (plamb Phi phi y x (b + a *: d) i 0 * (plamb Phi phi y x (b + a *: d) i 0 + pxb x (b + a *: d) i) * pxb x d i ^+ 2)) a.
apply: (dl_ext (D _)) => [i|t|//].
- have := dl_mul (plamb_deriv SN x b d a i B) (dl_const (pxb x d i) a).
  by rewrite mulr0 addr0 !mulNr -!mulrA. 
- by rewrite /probit_gradient -mulmxA mxE; apply: eq_bigr => i _; rewrite [_^T _ _]mxE.
Qed.
Theorem C64_stationary_is_maximum : forall b, probit_gradient Phi phi y x b = 0 ->
  forall b', probit_ll Phi y x b' <= probit_ll Phi y x b.
Proof.
move=> b g0 b'; pose d := b' - b.
pose f t := probit_ll Phi y x (b + t *: d).
pose f' t := (probit_gradient Phi phi y x (b + t *: d) *m d) 0 0.
have D c : derivable_pt_lim f c (f' c) by apply: ll_deriv.
have N c : 0 <= c -> f' c <= 0.
  move=> c0; have -> : (0 : R) = f' 0 by rewrite /f' scale0r addr0 g0 mul0mx mxE.
  have H := @NormalDist.incr_of_deriv (fun t => - f' t) (fun t => - (d^T *m probit_hessian Phi phi y x (b + t *: d) *m d) 0 0) 0 c.
  rewrite -ler_opp2; apply/leRP; apply: H.
  - exact/leRP.
  - by move=> t _; apply: dl_opp; apply: grad_line.
  - by move=> t _; apply/leRP; rewrite oppr_ge0; case: (C64_hessian_negative (b + t *: d) d).
have := @NormalDist.incr_of_deriv (fun t => - f t) (fun t => - f' t) 0 1.
move=> H; have {H} H : - f 0 <= - f 1.
  apply/leRP; apply: H.
  - by apply/leRP; apply: ler01.
  - by move=> t _; apply: dl_opp.
  - by move=> t [/leRP t0 _]; apply/leRP; rewrite oppr_ge0; apply: N.
move: H; rewrite ler_opp2 /f scale0r addr0 scale1r /d addrC subrK; exact.
Qed.

Lemma hess_psd b : psd (- probit_hessian Phi phi y x b).
Proof.
split; last by move=> c; rewrite mulmxN mulNmx mxE oppr_ge0; case: (C64_hessian_negative b c).
rewrite linearN /=; congr (- _); rewrite /probit_hessian; apply/matrixP => i j; rewrite !mxE; apply: eq_bigr => l _; rewrite !mxE.
exact: mulrCA.
Qed.
(** the reported covariance matrix is positive definite *)
Theorem C64_vm_pd : forall b vm, probit_vm Phi phi y x b = Some vm -> pd vm.
Proof.
move=> b vm; rewrite /probit_vm; case E: la_inv => [hi|//] [<-]; case: (la_invP E) => U ->.
have U' : - probit_hessian Phi phi y x b \in unitmx by rewrite -scaleN1r unitmxZ // unitrN unitr1.
have := pd_inv (MLTheorems3.psd_unit_pd (hess_psd b) U').
rewrite -[X in pd (invmx X)]scaleN1r invmxZ; last by rewrite scaleN1r.
by rewrite invrN invr1 scaleN1r.
Qed.
(** Newton's step: the stopping value g'Hg is the slope of the likelihood along the step; it is never negative, and it is zero
    exactly at a maximum *)
Theorem C64_newton : forall b b' m, newton_par Phi phi y x b = Some (b', m) ->
  [/\ derivable_pt_lim (fun t => probit_ll Phi y x (b + t *: (b' - b))) 0 m, 0 <= m,
     m = 0 -> forall c, probit_ll Phi y x c <= probit_ll Phi y x b &
     probit_gradient Phi phi y x b = 0 -> b' = b /\ m = 0].
Proof.
move=> b b' m; rewrite /newton_par; case E: la_inv => [hi|//]; have V : probit_vm Phi phi y x b = Some (- hi) by rewrite /probit_vm E.
have [_ P] := C64_vm_pd V; case=> <- <-; set g := probit_gradient _ _ _ _ _.
have Q : (g^T^T *m (- hi *m g^T)) 0 0 = (g^T^T *m - hi *m g^T) 0 0 by rewrite mulmxA.
split.
- have := ll_deriv SN y x b (- hi *m g^T) 0; rewrite scale0r addr0 -/g; rewrite addrC addKr trmxK; exact.
- rewrite Q; case: (g^T =P 0) => [->|/eqP nz]; first by rewrite mulmx0 mxE.
  by apply: ltW; apply: P.
- move=> Z; apply: C64_stationary_is_maximum; rewrite -/g; apply/eqP; case: (g^T =P 0) => [Z'|/eqP nz].
    by rewrite -[g]trmxK Z' trmx0.
  by have := P _ nz; rewrite -Q Z ltxx.
- by move=> ->; rewrite trmx0 !mulmx0 addr0 mxE.
Qed.
End Concave.

(** Likelihood ratio *)
Section LR.
Variables (Phi phi : R -> R) (SN : std_normal Phi phi) (n k : nat) (y : 'cV[R]_n) (x : 'M[R]_(n, k)) (B : bin01 y).
Lemma cdf_lt1 t : Phi t < 1.
Proof. by have := sn_cdf_pos SN (- t); rewrite (sn_sym SN) subr_gt0. Qed.
Lemma cdf_onto p : 0 < p < 1 -> exists c, Phi c = p.
Proof.
case/andP=> p0 p1.
have [s Hs] := sn_tail SN p0; have q0 : 0 < 1 - p by rewrite subr_gt0.
have [s' Hs'] := sn_tail SN q0.
pose a := - (`|s| + `|s'| + 1).
have a1 : a < s.
  rewrite /a ltr_oppl; apply: (le_lt_trans (ler_norm _)); rewrite normrN -addrA ltr_addl.
  by apply: (lt_le_trans ltr01); rewrite ler_addr.
have a2 : a < s'.
  rewrite /a ltr_oppl; apply: (le_lt_trans (ler_norm _)); rewrite normrN addrAC ltr_addr.
  by apply: (lt_le_trans ltr01); rewrite ler_addr.
have L := Hs a a1; have U : p < Phi (- a) by rewrite (sn_sym SN) ltr_subr_addr addrC -ltr_subr_addr; apply: Hs'.
have C : continuity (fun t => Phi t - p)%coqR.
  apply: continuity_minus; last by apply: continuity_const.
  by move=> t; apply: derivable_continuous_pt; exists (phi t); apply: (sn_cdf SN).
have le : (a <= - a)%coqR.
  apply/leRP; rewrite -[Ropp a]/(- a) /a opprK; apply: (le_trans (_ : _ <= 0)); last by rewrite !addr_ge0.
  by rewrite oppr_le0 !addr_ge0.
have M : ((Phi a - p) * (Phi (- a) - p) <= 0)%coqR.
  have M0 : (Phi a - p) * (Phi (- a) - p) <= 0 by apply: mulr_le0_ge0; rewrite ?subr_le0 ?subr_ge0 ltW.
  exact/leRP.
have [z [_ Ez]] := IVT_cor _ _ _ C le M; exists z.
by move/eqP: Ez; rewrite -[Rminus _ _]/(Phi z - p) subr_eq0 => /eqP.
Qed.
Lemma pq_cases i : pq y i = 1 \/ pq y i = -1.
Proof. by rewrite /pq; case: (B i) => ->; [right; rewrite mulr0 sub0r|left; rewrite mulr1 -[2%:R]/(1 + 1) addrK]. Qed.

(** L0 is the largest log-likelihood of a model with the constant as only regressor *)
Theorem C65_null_likelihood : (0 < n)%N -> 0 < py_mean y < 1 ->
  exists2 c : R, Phi c = py_mean y & forall e : 'cV[R]_k, x *m e = const_mx 1 -> probit_ll Phi y x (c *: e) = lr_L0 y.
Proof.
move=> n0 P; have [c Hc] := cdf_onto P; exists c => // e He.
have np : (n%:R : R) != 0 by rewrite pnatr_eq0 -lt0n.
have S1 : \sum_i y i 0 = n%:R * py_mean y by rewrite /py_mean mulrC divfK.
have -> : probit_ll Phi y x (c *: e) = \sum_i (y i 0 * ln (py_mean y) + (1 - y i 0) * ln (1 - py_mean y)).
  apply: eq_bigr => i _; rewrite /pxb -scalemxAr He !mxE mulr1 -Hc /pq; case: (B i) => ->.
    by rewrite mulr0 sub0r mulN1r (sn_sym SN) mul0r add0r subr0 mul1r.
  by rewrite mulr1 -[2%:R]/(1 + 1) addrK mul1r subrr mul0r addr0 mul1r.
rewrite big_split /= -!mulr_suml sumrB S1 sumr_const card_ord /lr_L0; move: (ln _) (ln _) => u v; by mring R_realFieldType.
Qed.
Lemma ll_le0 b : probit_ll Phi y x b <= 0.
Proof.
rewrite /probit_ll -oppr_ge0 -sumrN; apply: sumr_ge0 => i _; rewrite oppr_ge0 -ln1; apply: ln_le_mono; last exact: (ltW (cdf_lt1 _)).
exact: (sn_cdf_pos SN).
Qed.
(** so at a maximum of the likelihood the likelihood ratio is not negative and McFadden's measure lies between 0 and 1 *)
(* partial; missing: the degrees of freedom are not k - 1 (C65_df_refuted) *)
Theorem C65_lr_partial : forall b (e : 'cV[R]_k), (0 < n)%N -> 0 < py_mean y < 1 -> x *m e = const_mx 1 -> probit_gradient Phi phi y x b = 0 ->
  let logl := probit_ll Phi y x b in 0 <= lr_stat y logl /\ 0 <= mcfad y logl <= 1.
Proof.
move=> b e n0 P He g0 logl; have [c _ /(_ e He) EL] := C65_null_likelihood n0 P.
have M : lr_L0 y <= logl by rewrite -EL; apply: (C64_stationary_is_maximum SN B g0).
have L0 : lr_L0 y <= 0 by rewrite -EL ll_le0.
have L1 : logl <= 0 by apply: ll_le0.
split; first by rewrite /lr_stat mulNr -mulrN opprB; apply: mulr_ge0; [apply: ler0n|rewrite subr_ge0].
rewrite /mcfad subr_ge0 ler_subl_addr ler_addl; case: (lr_L0 y =P 0) => [->|/eqP nz]; first by rewrite invr0 mulr0 ler01 lexx.
have lt : lr_L0 y < 0 by rewrite lt_neqAle nz L0.
by rewrite ler_ndivr_mulr // mul1r M /= mulr_le0 // invr_le0 ltW.
Qed.
(** L0 belongs to a model that keeps the constant, so k - 1 coefficients are restricted; the reported degrees of freedom are k *)
Theorem C65_df_refuted : (0 < k)%N -> lr_df k <> k.-1.
Proof. by rewrite /lr_df => k0 E; move: (ltn_predL k); rewrite -E ltnn k0. Qed.
End LR.

(** Average partial effects *)
Section APE.
Variables (Phi phi : R -> R) (SN : std_normal Phi phi) (n k : nat) (x : 'M[R]_(n, k)).
(** at the means of the regressors the variance is the delta method with the exact derivative of the effects *)
(* partial; missing: the default scalem='phimean' (C66_average_effects_refuted) *)
Theorem C66_effects_at_mean_partial : forall b,
  is_jacobian (ape_slopes phi x true) b (ape_scale phi x true b *: ape_dfdb x b) /\
  forall vm, ape_vm phi x true b vm = (ape_scale phi x true b *: ape_dfdb x b) *m vm *m (ape_scale phi x true b *: ape_dfdb x b)^T.
Proof.
move=> b; split=> [d j|vm]; last first.
  by rewrite /ape_vm linearZ /= -scalemxAr -!scalemxAl scalerA -expr2.
pose u := ((p_xmean x)^T *m b) 0 0; pose v := ((p_xmean x)^T *m d) 0 0.
have XL t : ((p_xmean x)^T *m (b + t *: d)) 0 0 = u + t * v.
  by rewrite mulmxDr -scalemxAr mxE [X in _ + X]mxE.
have D := dl_mul (dl_line (b j 0) (d j 0) 0) (dl_comp (dl_line u v 0) (sn_pdf SN _)).
apply: (dl_ext D) => [t|].
  by rewrite [RHS]mxE /ape_scale XL !mxE.
rewrite -scalemxAl [RHS]mxE /ape_scale -/u !mul0r !addr0 /ape_dfdb mulmxBl mul1mx -scalemxAl -mulmxA.
have -> : (d - u *: (b *m ((p_xmean x)^T *m d))) j 0 = d j 0 - u * (b *m ((p_xmean x)^T *m d)) j 0 by rewrite mxE [X in _ + X]mxE [X in _ - X]mxE.
have -> : (b *m ((p_xmean x)^T *m d)) j 0 = b j 0 * v by rewrite mxE big_ord_recl big_ord0 addr0.
clear XL D; move: (phi u) => f; clearbody u v; move: (b j 0) (d j 0) => p q; by mring R_realFieldType.
Qed.
End APE.

(** Refuted for the default, averaging the individual effects: with regressors (1, -1) in a constant and one variable and
    coefficients (0, 1), the effect of the variable does not react to its own coefficient, but the code's derivative is phi(1) > 0. *)
Theorem C66_average_effects_refuted : forall Phi phi, std_normal Phi phi ->
  exists (x : 'M[R]_(2%N, 2%N)) (b d : 'cV[R]_2) (j : 'I_2),
    derivable_pt_lim (fun t => ape_slopes phi x false (b + t *: d) j 0) 0 0 /\
    0 < ((ape_scale phi x false b *: ape_dfdb x b) *m d) j 0.
Proof.
move=> Phi phi SN.
pose x : 'M[R]_(2%N, 2%N) := \matrix_(i, j) (if (j == 0%N :> nat) then 1 else if (i == 0%N :> nat) then 1 else -1).
pose b : 'cV[R]_2 := \col_i (if (i == 0%N :> nat) then 0 else 1).
exists x, b, b, (lift ord0 ord0).
have XB i t : pxb x (b + t *: b) i = (if (i == 0%N :> nat) then 1 else -1) * (1 + t * 1).
  rewrite /pxb mxE !big_ord_recl big_ord0 addr0 !mxE /= mulr0 addr0 mulr0 add0r; by case: (i == 0%N :> nat); rewrite ?mul1r ?mulr1.
have SC t : ape_scale phi x false (b + t *: b) = phi (1 + t * 1).
  rewrite /ape_scale !big_ord_recl big_ord0 addr0 !mxE !XB /= mul1r mulN1r (sn_even SN) -mulr2n -[_ *+ 2]mulr_natr mulfK //.
  by rewrite pnatr_eq0.
split.
- have D := dl_mul (dl_line 1 1 0) (dl_comp (dl_line 1 1 0) (sn_pdf SN _)).
  apply: (dl_ext D) => [t|].
    by rewrite [RHS]mxE SC !mxE.
  by rewrite mul0r addr0 mul1r mul1r mulr1 mulN1r addrN.
- have -> : ape_scale phi x false b = phi 1 by have := SC 0; rewrite scale0r addr0 mul0r addr0.
  have Z : ((p_xmean x)^T *m b) 0 0 = 0.
    rewrite mxE !big_ord_recl big_ord0 !mxE /= mulr0 add0r addr0 !big_ord_recl big_ord0 !mxE /= addr0 subrr mul0r mul0r //.
  by rewrite /ape_dfdb Z scale0r subr0 -scalemxAl mul1mx !mxE /= mulr1 (sn_pos SN).
Qed.
