(** C84 continued: the likelihood of seemingly unrelated regressions without spatial effects, and its likelihood-ratio test. *)
From Coq Require Import Reals.
From mathcomp Require Import all_ssreflect all_algebra.
From mathcomp.fingroup Require Import fingroup perm.
From Verif Require Import Rinst Mring LinRegModel LinRegProofs LinRegProofs2 FilterModel MLModel MLSpec MLProofs MLTheorems Kron PanelModel PfeModel PfeSpec PfeTheorems PreSpec PrrTheorems SurModel
  SurTheorems SueModel SueSpec SueProofs SueTheorems.
Set Implicit Arguments.
Unset Strict Implicit.
Unset Printing Implicit Defensive.
Import Order.TTheory GRing.Theory Num.Theory.
Local Open Scope ring_scope.

Add Field Rf : (@p_ft R_realFieldType).
Section Sur.
Variables (G n : nat) (K : 'I_G -> nat) (y : 'I_G -> 'cV[R]_n) (X : forall r, 'M[R]_(n, K r)).
Implicit Types (b : forall r, 'cV[R]_(K r)) (E : 'M[R]_(n, G)).
Let lu1 := fun _ : R => 1%:M : 'M[R]_n.
Lemma lu1P a : is_lu (1%:M - a *: (0 : 'M[R]_n)) (lu1 a).
Proof.
exists 1%:M, 1%g, 1%g; rewrite scaler0 subr0 /lu1; split; last 2 first.
- by rewrite scalar_mx_is_trig.
- by rewrite trmx1 scalar_mx_is_trig.
- by rewrite perm_mx1 !mul1mx.
- by move=> i; rewrite mxE eqxx.
Qed.
Definition cov E : 'M[R]_G := n%:R^-1 *: (E^T *m E).
Lemma filter0 lam E : sue_filter 0 lam E = E.
Proof. by apply/matrixP => i r; rewrite mxE mul0mx mxE mul0r subr0. Qed.
Lemma sS0 lam E : sS 0 lam E = cov E. Proof. by rewrite /sS filter0. Qed.
Lemma sB0 (lam : 'cV[R]_G) r : 1%:M - lam r 0 *: (0 : 'M[R]_n) \in unitmx.
Proof. by rewrite scaler0 subr0 unitmx1. Qed.
Lemma sur_loglik0 b Sig : sur_loglik y X b Sig = sue_loglik y X 0 b 0 Sig.
Proof.
rewrite /sur_loglik /sue_loglik; congr normal_loglik; apply/matrixP => p q; rewrite [LHS]mxE [RHS]mxE !scaler0 !subr0 invmx1 trmx1 mulmx1 [1%:M _ _]mxE.
by case: eqP; rewrite ?mulr1 ?mulr0.
Qed.
Lemma est0 lam E : sue_est y X 0 lam E = sur_est (crossXX X) (crossXy X y) E.
Proof.
rewrite /sue_est filter0; congr sur_est.
- apply: FunctionalExtensionality.functional_extensionality_dep => r; apply: FunctionalExtensionality.functional_extensionality_dep => t.
  by rewrite /crossXX !mul0mx !scaler0 !subr0.
- apply: FunctionalExtensionality.functional_extensionality_dep => r; apply: FunctionalExtensionality.functional_extensionality_dep => t.
  by rewrite /crossXy !mul0mx !scaler0 !subr0.
Qed.
Lemma clik0 E : cov E \in unitmx -> sue_clik lu1 0 E 0 = Some ((n%:R / 2%:R) * ln (\det (cov E))).
Proof.
move=> U; rewrite (sue_clik_def lu1P) ?sS0 //; last by move=> r; exact: sB0.
rewrite big1 ?subr0 // => r _; by rewrite /sB scaler0 subr0 det1 normr1 ln1.
Qed.
Lemma n_nat (a c : R) : (n = 0%N -> a <= c) -> (n%:R / 2%:R) * a <= (n%:R / 2%:R) * c -> a <= c.
Proof.
case: (posnP n) => [z H _|n0 _]; first exact: H.
by rewrite ler_pmul2l // divr_gt0 ?ltr0n.
Qed.
Lemma cov0 E : n = 0%N -> cov E = 0.
Proof. by move=> z; rewrite /cov (_ : n%:R^-1 = 0) ?scale0r // z invr0. Qed.
Lemma pass_det b e : sur_est (crossXX X) (crossXy X y) (sur_resids y X b) = Some e -> cov (sur_resids y X (e_b e)) \in unitmx ->
  ln (\det (cov (sur_resids y X (e_b e)))) <= ln (\det (cov (sur_resids y X b))).
Proof.
move=> H U; have H' := H; rewrite -(est0 0) in H'; have [h1 h2 _ _ _] := est_fields H.
have U0 : cov (sur_resids y X b) \in unitmx by rewrite /cov -h1.
have [_ /(_ _ _ (clik0 U0) (clik0 U))] := C84_pass lu1P (sB0 0) H'; apply: n_nat => z.
by rewrite !cov0.
Qed.
Lemma llik0 b Sig : cov (sur_resids y X b) \in unitmx -> pd Sig ->
  sur_loglik y X b (cov (sur_resids y X b)) = sur_llik G n (ln (\det (cov (sur_resids y X b)))) /\
  sur_loglik y X b Sig <= sur_llik G n (ln (\det (cov (sur_resids y X b)))).
Proof.
move=> U P; have [p e1 e2] := C84_clik lu1P (clik0 U); rewrite filter0 -/(cov _) in e1.
have L : sue_llik G n (- (n%:R / 2%:R * ln (\det (cov (sur_resids y X b))))) = sur_llik G n (ln (\det (cov (sur_resids y X b)))).
  by rewrite /sue_llik /sur_llik [RHS]mulrDr !mulNr.
by rewrite !sur_loglik0 -L; split=> //; exact: e2.
Qed.
Lemma passes_inv p e e' : sur_passes y X p e = Some e' -> (exists b, sur_est (crossXX X) (crossXy X y) (sur_resids y X b) = Some e) ->
  (exists b, sur_est (crossXX X) (crossXy X y) (sur_resids y X b) = Some e') /\ ln (\det (e_sig e')) <= ln (\det (e_sig e)).
Proof.
elim: p e => [|p IH] e /=; first by case=> <-.
case H1: sur_est => [e1|//] /IH {}IH [b Hb]; have [|B L] := IH; first by exists (e_b e).
split=> //; apply: le_trans L _; have [h1 h2 _ _ _] := est_fields H1; have [g1 g2 _ _ _] := est_fields Hb.
by rewrite h1 g1; apply: pass_det => //; rewrite /cov -h1.
Qed.
Lemma sur_est_pd E e : sur_est (crossXX X) (crossXy X y) E = Some e -> pd (e_sig e).
Proof. by move/est_fields => [h1 h2 _ _ _]; rewrite h1; apply: sig_pd; rewrite -h1. Qed.

(** ** C84_sur_llik: the reported log-likelihood of SUR *)
Theorem C84_sur_llik : forall passes s, base_sur_iter y X passes = Some s ->
  (exists b, [/\ e_sig (si_est s) = n%:R^-1 *: ((sur_resids y X b)^T *m sur_resids y X b),
      si_llik s = sur_loglik y X b (e_sig (si_est s)) & forall Sig, pd Sig -> sur_loglik y X b Sig <= si_llik s]) /\
  (let S := n%:R^-1 *: ((si_E s)^T *m si_E s) in S \in unitmx ->
     si_llik s <= sur_loglik y X (e_b (si_est s)) S /\ forall Sig, pd Sig -> sur_loglik y X (e_b (si_est s)) Sig <= sur_loglik y X (e_b (si_est s)) S).
Proof.
move=> p s; rewrite /base_sur_iter; case Eo: sur_ols => [bo|//]; case E0: sur_est => [e0|//]; case Ep: sur_passes => [e|//].
case L0: sur_ldetS0 => [l0|//]; rewrite /np_log; case: ifP => // D0 [<-] /=.
have [[b Hb] _] := passes_inv Ep (ex_intro _ bo E0); have P := sur_est_pd Hb; have [h1 _ _ _ _] := est_fields Hb.
rewrite (ger0_norm (ltW (pd_det P))); have U := pd_unit P; rewrite h1 -/(cov _) in U P *; split.
  exists b; split=> // [|Sig PS]; first by case: (llik0 U P).
  by case: (llik0 U PS).
move=> U'; have P' : pd (cov (sur_resids y X (e_b e))) by exact: sig_pd.
have [q1 q2] := llik0 U' P'; rewrite -/(cov _) q1; split=> [|Sig PS]; last by case: (llik0 U' PS).
have L := pass_det Hb U'; rewrite /sur_llik ler_wnmul2l //; last by rewrite ler_add2l.
by rewrite oppr_le0 divr_ge0 ?ler0n.
Qed.
(** ** C84_sur_monotone: more passes never lower the reported log-likelihood *)
Theorem C84_sur_monotone : forall p q s s', (p <= q)%N -> base_sur_iter y X p = Some s -> base_sur_iter y X q = Some s' ->
  si_llik s <= si_llik s' /\ (si_lr s).1 <= (si_lr s').1.
Proof.
move=> p q s s' pq; rewrite /base_sur_iter; case Eo: sur_ols => [bo|//]; case E0: sur_est => [e0|//].
case Ep: (sur_passes y X p) => [e|//]; case Eq: (sur_passes y X q) => [e'|//].
case L0: sur_ldetS0 => [l0|//]; rewrite /np_log; case: ifP => // D0 [<-]; case: ifP => // D1 [<-] /=.
have [B _] := passes_inv Ep (ex_intro _ bo E0).
have C a d (e1 e2 : est R_realFieldType K) : sur_passes y X a e1 = Some e2 -> sur_passes y X (a + d) e1 = sur_passes y X d e2.
  elim: a e1 => [|a IH] e1 /=; first by case=> <-.
  by case: sur_est => // e3; exact: IH.
move: Eq; rewrite -(subnKC pq) (C _ _ _ _ Ep) => Eq; have [B' L] := passes_inv Eq B.
case: B => b /sur_est_pd P; case: B' => b' /sur_est_pd P'.
rewrite (ger0_norm (ltW (pd_det P))) (ger0_norm (ltW (pd_det P'))); split.
  rewrite /sur_llik ler_wnmul2l //; last by rewrite ler_add2l.
  by rewrite oppr_le0 divr_ge0 ?ler0n.
by rewrite ler_wpmul2l ?ler0n // ler_add2l ler_opp2.
Qed.
Lemma pd_diag (d : 'rV[R]_G) : (forall r, 0 < d 0 r) -> pd (diag_mx d).
Proof.
move=> H; split=> [|c c0]; first by rewrite tr_diag_mx.
have Q : (c^T *m diag_mx d *m c) 0 0 = \sum_r d 0 r * c r 0 ^+ 2.
  rewrite -mulmxA mul_diag_mx mxE; apply: eq_bigr => r _; by rewrite [c^T _ _]mxE mxE mulrCA expr2.
rewrite Q lt_neqAle eq_sym; apply/andP; split; last by apply: sumr_ge0 => r _; rewrite mulr_ge0 ?sqr_ge0 // ltW.
apply/negP; rewrite psumr_eq0 => [/allP Z|r _]; last by rewrite mulr_ge0 ?sqr_ge0 // ltW.
case/negP: c0; apply/eqP/matrixP => r j; rewrite ord1 [RHS]mxE.
have := Z r (mem_index_enum r); rewrite /= mulf_eq0 sqrf_eq0 gt_eqF //= => /eqP; exact.
Qed.
Lemma inv_diag (d : 'rV[R]_G) : (forall r, 0 < d 0 r) -> invmx (diag_mx d) = diag_mx (\row_r (d 0 r)^-1).
Proof.
move=> H; have M : diag_mx (\row_r (d 0 r)^-1) *m diag_mx d = 1%:M.
  rewrite mul_diag_mx; apply/matrixP => i j; rewrite !mxE; case: eqP => [->|_]; rewrite ?mulr0n ?mulr0 // !mulr1n mulVf // gt_eqF //.
by have [U V] := mulmx1_unit M; rewrite -[LHS]mul1mx -M mulmxK.
Qed.
Lemma diag_loglik b (d : 'rV[R]_G) : (forall r, 0 < d 0 r) -> sur_loglik y X b (diag_mx d) =
  - ((G * n)%:R / 2%:R) * ln (2%:R * PI) - (n%:R / 2%:R) * \sum_r (ln (d 0 r) + cov (sur_resids y X b) r r / d 0 r).
Proof.
move=> H; have P := pd_diag H; rewrite sur_loglik0 sue_loglikE //; last by move=> r; exact: sB0.
rewrite big1 ?addr0 => [|r _]; last by rewrite /sB scaler0 subr0 det1 normr1 ln1.
rewrite det_diag ln_prod // sS0 inv_diag // -addrA -opprD -mulrDr; congr (_ - _ * _).
rewrite big_split /=; congr (_ + _); rewrite mul_diag_mx /mxtrace; apply: eq_bigr => r _; by rewrite !mxE mulrC.
Qed.
Lemma cov_ssq b r : cov (sur_resids y X b) r r = n%:R^-1 * ssq (y r - X r *m b r).
Proof.
rewrite -resid_col ssqE utuE mxE; congr (_ * _); rewrite mxE [RHS]mxE; apply: eq_bigr => i _; by rewrite !mxE.
Qed.
(** ** C84_sur_lr: the likelihood-ratio statistic *)
Theorem C84_sur_lr : forall passes s, base_sur_iter y X passes = Some s ->
  exists null : R, [/\ (exists bo (d : 'rV[R]_G), [/\ sur_ols X y = Some bo, forall r, 0 < d 0 r & null = sur_loglik y X bo (diag_mx d)]),
      (forall b (d : 'rV[R]_G), (forall r, 0 < d 0 r) -> sur_loglik y X b (diag_mx d) <= null),
      (si_lr s).1 = 2%:R * (si_llik s - null), 0 <= (si_lr s).1 & ((si_lr s).2 * 2 = G * (G - 1))%N].
Proof.
move=> p s; rewrite /base_sur_iter; case Eo: sur_ols => [bo|//]; case E0: sur_est => [e0|//]; case Ep: sur_passes => [e|//].
case L0: sur_ldetS0 => [l0|//]; rewrite /np_log; case: ifP => // D0 [<-] /=.
have P0 := sur_est_pd E0; have [h1 _ _ _ _] := est_fields E0; rewrite -/(cov _) in h1.
have dg r : 0 < e_sig e0 r r by exact: pd_diag_gt0.
have El0 : l0 = \sum_r ln (e_sig e0 r r).
  move: L0; rewrite /sur_ldetS0 (osum_log _ dg) => -[<-]; by rewrite ln_prod // big_enum.
pose d : 'rV[R]_G := \row_r e_sig e0 r r; have d0 r : 0 < d 0 r by rewrite mxE.
have N0 : sur_llik G n l0 = sur_loglik y X bo (diag_mx d).
  rewrite diag_loglik // (eq_bigr (fun r => ln (e_sig e0 r r) + 1)) => [|r _]; last by rewrite [d _ _]mxE h1 divff // -h1 gt_eqF.
  rewrite big_split /= -El0 sumr_const card_ord /sur_llik natrM.
  have t0 : 2%:R != 0 :> R by rewrite pnatr_eq0.
  move: (ln _) => a; mfield R_realFieldType; by apply/eqP.
exists (sur_llik G n l0); split.
- by exists bo, d.
- move=> b c c0; rewrite N0 !diag_loglik // ler_add2l ler_opp2; apply: ler_wpmul2l; first by rewrite divr_ge0 ?ler0n.
  apply: ler_sum => r _; have dr : d 0 r = e_sig e0 r r by rewrite mxE.
  rewrite dr -h1 divff ?gt_eqF //.
  have ss : e_sig e0 r r <= cov (sur_resids y X b) r r.
    rewrite h1 !cov_ssq; apply: ler_wpmul2l; first by rewrite invr_ge0 ler0n.
    move: Eo; rewrite /sur_ols; case: ifP => // /forallP U [<-].
    have LI : la_inv ((X r)^T *m X r) = Some (invmx ((X r)^T *m X r)) by apply: la_inv_unit; exact: U.
    have := ls_split (y r) (b r) LI; cbv zeta => ->; rewrite ler_addl ssqE; exact: utu_ge0.
  have := ln_le_sub1 (divr_gt0 (dg r) (c0 r)); rewrite lnM ?invr_gt0 // lnV // => H.
  have q : e_sig e0 r r / c 0 r <= cov (sur_resids y X b) r r / c 0 r by rewrite ler_pmul2r ?invr_gt0.
  move: H q; move: (ln _) (ln _) (_ / _) (_ / _) => a1 a2 a3 a4 H q.
  have := le_trans H (ler_sub q (lexx 1)); by rewrite ler_subl_addr addrAC ler_subr_addr [X in _ <= X]addrC.
- rewrite /sur_lrtest /sur_llik /=; have t0 : 2%:R != 0 :> R by rewrite pnatr_eq0.
  move: (ln (2%:R * PI)) (ln _) => a c; mfield R_realFieldType; by apply/eqP.
- rewrite /sur_lrtest /= mulr_ge0 ?ler0n // subr_ge0; have [[b Hb] L] := passes_inv Ep (ex_intro _ bo E0).
  rewrite (ger0_norm (ltW (pd_det (sur_est_pd Hb)))); apply: le_trans L _; rewrite El0 -ln_prod //; apply: ln_le_mono; first exact: pd_det.
  exact: hadamard.
- rewrite /sur_lrtest /= divnK // dvdn2 oddM; case: (G) => //= g; by rewrite subn1 /= andNb.
Qed.
End Sur.
