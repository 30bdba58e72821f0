(** C41, C42, C69: within transformation, fixed and random effects. *)
From Coq Require Import Ring Field.
From mathcomp Require Import all_ssreflect all_algebra.
From Verif Require Import Mring LinRegModel LinRegProofs LinRegProofs2 FilterModel Kron PanelModel.
Set Implicit Arguments.
Unset Strict Implicit.
Unset Printing Implicit Defensive.
Import Order.TTheory GRing.Theory Num.Theory.
Local Open Scope ring_scope.

Section Within.
Variables (R : rcfType) (T n : nat).
Add Field Rf : (@p_ft R).
Local Notation unit_mean := (@unit_mean R T n _).
Local Notation tile := (@tile R T n _).

(** the averaging over time, as a matrix *)
Definition avg : 'M[R]_(T * n) := kron (T%:R^-1 *: (const_mx 1 : 'M[R]_T)) 1%:M.
Lemma avgE k (a : 'M[R]_(T * n, k)) : avg *m a = tile (unit_mean a).
Proof.
apply/matrixP => r c; rewrite !mxE big_pix mulr_suml; apply: eq_bigr => t _.
rewrite (bigD1 (pu r)) //= big1 ?addr0 => [|i ni].
- by rewrite !mxE pu_pix eqxx !mulr1 mulrC.
- by rewrite !mxE pu_pix eq_sym (negbTE ni) mulr0 mul0r.
Qed.
Lemma one_one : (const_mx 1 : 'M[R]_(T, 1)) *m (const_mx 1 : 'M[R]_(T, 1))^T = const_mx 1.
Proof. by apply/matrixP => i j; rewrite !mxE big_ord_recl big_ord0 addr0 !mxE mulr1. Qed.
Lemma avg_tr : avg^T = avg.
Proof. by rewrite /avg kron_tr linearZ /= trmx1 trmx_const. Qed.
Lemma avg_idem : (0 < T)%N -> avg *m avg = avg.
Proof.
move=> T0; rewrite /avg kron_mul mulmx1 -scalemxAl -scalemxAr scalerA; congr kron.
have -> : (const_mx 1 : 'M[R]_T) *m (const_mx 1 : 'M[R]_T) = T%:R *: (const_mx 1 : 'M[R]_T).
  by apply/matrixP => i j; rewrite !mxE (eq_bigr (fun=> 1)) => [|s _]; rewrite ?sumr_const ?card_ord ?mulr1 // !mxE mulr1.
by rewrite scalerA mulfVK // pnatr_eq0 -lt0n.
Qed.
(** demean_panel subtracts (1 - phi) times the unit means *)
Lemma demeanE k phi (a : 'M[R]_(T * n, k)) : demean_panel phi a = a - (1 - phi) *: (avg *m a).
Proof.
rewrite /demean_panel one_one kronDl kron1 mulmxDl mul1mx; congr (_ + _).
by rewrite -scaleNr kronZl /avg kronZl -!scalemxAl scalerA mul1r scaleNr.
Qed.
Theorem C41_demean : forall k phi (a : 'M[R]_(T * n, k)) t i c,
  demean_panel phi a (pix t i) c = a (pix t i) c - (1 - phi) * ((\sum_s a (pix s i) c) / T%:R).
Proof. by move=> k phi a t i c; rewrite demeanE avgE !mxE pu_pix. Qed.
Theorem C41_full_weight : forall k (a : 'M[R]_(T * n, k)), demean_panel 1 a = a.
Proof. by move=> k a; rewrite demeanE subrr scale0r subr0. Qed.
Theorem C41_unit_means_zero : forall k (a : 'M[R]_(T * n, k)), (0 < T)%N -> unit_mean (demean_panel 0 a) = 0.
Proof.
move=> k a T0; apply/matrixP => i c; rewrite !mxE.
have -> : \sum_t demean_panel 0 a (pix t i) c = \sum_t a (pix t i) c - \sum_(t < T) ((\sum_s a (pix s i) c) / T%:R).
  by rewrite -sumrB; apply: eq_bigr => t _; rewrite C41_demean subr0 mul1r.
by rewrite sumr_const card_ord -[_ *+ T]mulr_natr divfK ?subrr ?mul0r // pnatr_eq0 -lt0n.
Qed.
(** partial demeaning composes by multiplying the weights *)
Lemma demean_comp k phi psi (a : 'M[R]_(T * n, k)) : (0 < T)%N -> demean_panel phi (demean_panel psi a) = demean_panel (phi * psi) a.
Proof.
move=> T0; rewrite !demeanE mulmxBr -scalemxAr mulmxA avg_idem //; set v := avg *m a.
rewrite -[X in a - _ - _ *: (X - _)]scale1r -scalerBl scalerA -addrA -opprD -scalerDl; congr (_ - _ *: _).
by mring R.
Qed.
Theorem C41_idempotent : forall k (a : 'M[R]_(T * n, k)), (0 < T)%N -> demean_panel 0 (demean_panel 0 a) = demean_panel 0 a.
Proof. by move=> k a T0; rewrite demean_comp // mul0r. Qed.
(** a regressor that does not change over time is removed *)
Theorem C41_time_invariant : forall k (a : 'M[R]_(T * n, k)), (forall s t i c, a (pix s i) c = a (pix t i) c) -> demean_panel 0 a = 0.
Proof.
move=> k a H; apply/matrixP => r c; rewrite -(pix_pt_pu r) C41_demean subr0 mul1r mxE.
rewrite (eq_bigr (fun=> a (pix (pt r) (pu r)) c)) => [|s _]; last exact: H.
rewrite sumr_const card_ord -[_ *+ T]mulr_natr mulfK ?subrr // pnatr_eq0; by case: (T) r => [[]|].
Qed.
End Within.
(** period-wise spatial lags commute with it *)
Theorem C41_commutes_with_lag : forall (R : rcfType) T n k phi (W : 'M[R]_n.+1) (a : 'M[R]_(T * n.+1, k)),
  kron_id T W *m demean_panel phi a = demean_panel phi (kron_id T W *m a).
Proof.
move=> R T n k phi W a; have -> : kron_id T W = kron 1%:M W.
  apply/matrixP => r s; rewrite !mxE -val_eqE /=; case: eqP => _; last by rewrite mul0r.
  by rewrite mul1r; congr (W _ _); apply/val_inj; rewrite /= inordK // ltn_pmod.
by rewrite /demean_panel !mulmxA !kron_mul !mul1mx !mulmx1.
Qed.

Section FE.
Variables (R : rcfType) (T n k : nat) (y : 'cV[R]_(T * n)) (x : 'M[R]_(T * n, k)).
Add Field Rf2 : (@p_ft R).
Hypothesis T0 : (0 < T)%N.
Lemma tile_mean_tile m (u : 'M[R]_(n, m)) : unit_mean (tile T u) = u.
Proof.
apply/matrixP => i c; rewrite mxE (eq_bigr (fun=> u i c)) => [|t _]; last by rewrite mxE pu_pix.
by rewrite sumr_const card_ord -[_ *+ T]mulr_natr mulfK // pnatr_eq0 -lt0n.
Qed.
Lemma unit_mean_lin m p (a : 'M[R]_(T * n, m)) (b : 'M[R]_(m, p)) : unit_mean (a *m b) = unit_mean a *m b.
Proof.
apply/matrixP => i c; rewrite !mxE.
under eq_bigr do rewrite mxE. rewrite exchange_big /= mulr_suml; apply: eq_bigr => j _.
by rewrite mxE -mulr_suml mulrAC.
Qed.
Lemma unit_meanB m (a b : 'M[R]_(T * n, m)) : unit_mean (a - b) = unit_mean a - unit_mean b.
Proof. by apply/matrixP => i c; rewrite !mxE -mulrBl -sumrB; congr (_ / _); apply: eq_bigr => t _; rewrite !mxE. Qed.
Lemma tile_lin m p (a : 'M[R]_(n, m)) (b : 'M[R]_(m, p)) : tile T (a *m b) = tile T a *m b.
Proof. by apply/matrixP => r c; rewrite !mxE; apply: eq_bigr => j _; rewrite mxE. Qed.
Lemma tileB m (a b : 'M[R]_(n, m)) : tile T (a - b) = tile T a - tile T b.
Proof. by apply/matrixP => r c; rewrite !mxE. Qed.
Lemma tile0 m : tile T (0 : 'M[R]_(n, m)) = 0.
Proof. by apply/matrixP => r c; rewrite !mxE. Qed.
(** within and between are orthogonal *)
Lemma within_between (w : 'cV[R]_(T * n)) (u : 'cV[R]_n) : unit_mean w = 0 -> utu_of (w + tile T u) = utu_of w + utu_of (tile T u).
Proof.
move=> H; have Z : (w^T *m tile T u) 0 0 = 0.
  rewrite mxE big_pix exchange_big /= big1 // => i _.
  have -> : \sum_t w^T 0 (pix t i) * tile T u (pix t i) 0 = (\sum_t w (pix t i) 0) * u i 0.
    by rewrite mulr_suml; apply: eq_bigr => t _; rewrite !mxE pu_pix.
  have := congr1 (fun m : 'cV[R]_n => m i 0) H; rewrite !mxE => /eqP; rewrite mulf_eq0 invr_eq0 pnatr_eq0 -[T == 0%N]negbK -lt0n T0 orbF => /eqP ->.
  by rewrite mul0r.
by rewrite utuD Z mul0rn addr0.
Qed.
Lemma utu_tile (u : 'cV[R]_n) : utu_of (tile T u) = T%:R * utu_of u.
Proof.
rewrite /utu_of big_pix (eq_bigr (fun=> \sum_i u i 0 ^+ 2)) => [|t _]; last by apply: eq_bigr => i _; rewrite mxE pu_pix.
by rewrite sumr_const card_ord mulr_natl.
Qed.

Variables (r : panel_fe R T n k) (Fit : base_panel_fe id y x = Some r).
Let dy := y - tile T (unit_mean y).
Let dx := x - tile T (unit_mean x).
Lemma fe_ols : exists2 o, base_ols dy dx RobNone None false = Some o &
  [/\ fe_betas r = o_betas o, fe_u r = y - x *m o_betas o, fe_effects r = unit_mean y - unit_mean x *m o_betas o,
      fe_sig2 r = utu_of (o_u o) / (T * n - n)%:R & fe_vm r = fe_sig2 r *: invmx (dx^T *m dx)].
Proof.
move: Fit; rewrite /base_panel_fe map_mx_id // -/dy -/dx; case E: base_ols => [o|//]; case: la_inv => // xi [<-] /=; exists o => //.
by have [_ _ _ _ X] := ols_fields E; split=> //; rewrite ?X ?utuE // dotE.
Qed.
(** the residual of (b, m), m one intercept per unit: within and between parts *)
Lemma fe_split (b : 'cV[R]_k) (m : 'cV[R]_n) :
  utu_of (y - x *m b - tile T m) = utu_of (dy - dx *m b) + T%:R * utu_of (unit_mean y - unit_mean x *m b - m).
Proof.
rewrite -utu_tile -within_between.
- congr utu_of; rewrite /dy /dx mulmxBl !tileB tile_lin; set a := tile T (unit_mean y); set c := _ *m b; set d := _ *m b; set e := tile T m.
  clearbody a c d e; apply/matrixP => i j; rewrite !mxE; move: (y i j) (a i j) (c i j) (d i j) (e i j) => y' a' c' d' e'; by mring R.
- by rewrite /dy /dx unit_meanB unit_mean_lin !unit_meanB !tile_mean_tile !subrr mul0mx subr0.
Qed.
(** C42: slopes and effects are least squares with one intercept per unit, and the only such coefficients *)
(* partial; missing: integer arrays, whose demeaned values are truncated (C42_integer_refuted) *)
Theorem C42_lsdv_partial : forall (b : 'cV[R]_k) (m : 'cV[R]_n),
  utu_of (y - x *m fe_betas r - tile T (fe_effects r)) <= utu_of (y - x *m b - tile T m) /\
  (utu_of (y - x *m b - tile T m) <= utu_of (y - x *m fe_betas r - tile T (fe_effects r)) -> b = fe_betas r /\ m = fe_effects r).
Proof.
move=> b m; have [o Eo [-> _ -> _ _]] := fe_ols; rewrite !fe_split subrr.
have -> : utu_of (0 : 'cV[R]_n) = 0 by rewrite /utu_of big1 // => i _; rewrite mxE expr0n.
have M c := ols_min c Eo; rewrite mulr0 addr0 !M subrr mulmx0.
have -> : utu_of (0 : 'cV[R]_(T * n)) = 0 by rewrite /utu_of big1 // => i _; rewrite mxE expr0n.
have Tp : 0 < T%:R :> R by rewrite ltr0n.
have A : 0 <= utu_of (dx *m (b - o_betas o)) by apply: utu_ge0.
have B : 0 <= T%:R * utu_of (unit_mean y - unit_mean x *m b - m) by apply: mulr_ge0; [apply: ltW|apply: utu_ge0].
rewrite addr0 -addrA ler_addl addr_ge0 //; split=> // H.
have S : utu_of (dx *m (b - o_betas o)) + T%:R * utu_of (unit_mean y - unit_mean x *m b - m) == 0.
  by rewrite eq_le addr_ge0 // andbT -(ler_add2l (utu_of (o_u o))) addr0.
move: S; rewrite paddr_eq0 // => /andP [/eqP S1 S2].
have Eb : b = o_betas o.
  apply/eqP; rewrite -subr_eq0; apply/eqP; apply: (proj1 (gram_unit dx) (ols_gram Eo)).
  by apply/eqP; rewrite -utu_eq0 S1.
split=> //; move: S2; rewrite mulf_eq0 (gt_eqF Tp) /= utu_eq0 subr_eq0 Eb => /eqP <-; reflexivity.
Qed.
(** the other reports: y = predy + u, u contains the effects (mu = mean of u = effects), sig2, vm *)
Theorem C42_reports : [/\ y = fe_predy r + fe_u r, fe_mu r = fe_effects r,
  fe_sig2 r = utu_of (y - x *m fe_betas r - tile T (fe_effects r)) / (T * n - n)%:R &
  fe_vm r *m (dx^T *m dx) = (fe_sig2 r)%:M].
Proof.
have [o Eo [Eb Eu Ee Es Ev]] := fe_ols.
have [Ep Em] : fe_predy r = x *m fe_betas r /\ fe_mu r = unit_mean (fe_u r).
  by move: Fit; rewrite /base_panel_fe; case: base_ols => // o'; case: la_inv => // xi [<-].
split.
- by rewrite Ep Eb Eu addrC subrK.
- by rewrite Em Ee Eu unit_meanB unit_mean_lin.
- rewrite Es; congr (_ / _); rewrite Eb Ee fe_split subrr.
  have -> : utu_of (0 : 'cV[R]_n) = 0 by rewrite /utu_of big1 // => i _; rewrite mxE expr0n.
  by have [_ _ P U _] := ols_fields Eo; rewrite U P mulr0 addr0.
- by rewrite Ev -scalemxAl mulVmx ?scalemx1 // (ols_gram Eo).
Qed.
(** the regression with n + k coefficients leaves Tn - n - k degrees of freedom; PanelFE divides by Tn - n *)
Theorem C42_df_refuted : (0 < k)%N -> (n + k < T * n)%N -> utu_of (y - x *m fe_betas r - tile T (fe_effects r)) != 0 ->
  fe_sig2 r < utu_of (y - x *m fe_betas r - tile T (fe_effects r)) / (T * n - (n + k))%:R.
Proof.
move=> k0 Hn nz; have [_ _ -> _] := C42_reports; set s := utu_of _ in nz *.
have sp : 0 < s by rewrite lt_neqAle eq_sym nz utu_ge0.
have Hn' : (n < T * n)%N by apply: leq_ltn_trans Hn; rewrite leq_addr.
rewrite ltr_pmul2l // ltf_pinv ?posrE ?ltr0n ?subn_gt0 // ltr_nat subnDA.
by rewrite ltn_subrL k0 subn_gt0.
Qed.
End FE.
