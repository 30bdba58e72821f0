(** C42 (integer regressors), C69: random effects. *)
From Coq Require Import Ring Field.
From mathcomp Require Import all_ssreflect all_algebra.
From Verif Require Import Mring LinRegModel LinRegProofs LinRegProofs2 FilterModel Kron PanelModel PanelTheorems.
Set Implicit Arguments.
Unset Strict Implicit.
Unset Printing Implicit Defensive.
Import Order.TTheory GRing.Theory Num.Theory.
Local Open Scope ring_scope.

(** conversion of a float to an integer: towards zero *)
Definition truncation (R : rcfType) (cast : R -> R) : Prop :=
  (forall z m, m%:R <= z < m.+1%:R -> cast z = m%:R) /\ forall z, cast (- z) = - cast z.
(** with integer regressors the demeaned values are truncated: y = x gives the slope 3/2 *)
Theorem C42_integer_refuted : forall (R : rcfType) (cast : R -> R), truncation cast ->
  exists (y : 'cV[R]_(2 * 1)) (x : 'M[R]_(2 * 1, 1)) r, [/\ forall i, x i 0 = y i 0, base_panel_fe cast y x = Some r & fe_betas r 0 0 = 3%:R / 2%:R].
Proof.
move=> R cast [H1 H2].
pose y : 'cV[R]_(2 * 1) := \col_i (if (i == 0%N :> nat) then 0 else 3%:R).
have two : (2%:R : R) != 0 by rewrite pnatr_eq0.
have C : cast (3%:R / 2%:R) = 1.
  by apply: (H1 _ 1%N); rewrite ler_pdivl_mulr ?ltr_pdivr_mulr ?ltr0n // -!natrM ler_nat ltr_nat.
have UM : unit_mean y = (3%:R / 2%:R)%:M :> 'M[R]_1.
  apply/matrixP => i j; rewrite !ord1 !mxE eqxx mulr1n !big_ord_recl big_ord0 !mxE /= addr0 add0r //.
pose s : 'cV[R]_(2 * 1) := \col_i (if (i == 0%N :> nat) then - 1 else 1).
have D : y - tile 2 (unit_mean y) = (3%:R / 2%:R) *: s.
  apply/matrixP => i j; rewrite UM !mxE !ord1 eqxx mulr1n; case: (_ == _); first by rewrite add0r mulrN1.
  by rewrite mulr1; apply/eqP; rewrite subr_eq -mulrDl -natrD -[(3 + 3)%N]/(3 * 2)%N natrM mulfK.
have DX : map_mx cast (y - tile 2 (unit_mean y)) = s.
  by rewrite D; apply/matrixP => i j; rewrite !mxE; case: (_ == _); rewrite ?mulrN ?mulr1 ?H2 C.
have SS : s^T *m s = 2%:R%:M.
  apply/matrixP => i j; rewrite !ord1 mxE big_pix !big_ord_recl !big_ord0 !mxE /= !addr0 mulrNN mulr1 ?eqxx ?mulr1n.
  by rewrite -[2%:R]/(1 + 1).
have YY : y^T *m y = 9%:R%:M.
  apply/matrixP => i j; rewrite !ord1 mxE big_pix !big_ord_recl !big_ord0 !mxE /= !addr0 mul0r add0r ?eqxx ?mulr1n.
  by rewrite -natrM.
have U2 : s^T *m s \in unitmx by rewrite SS unitmxE det_scalar1 unitfE.
have U9 : y^T *m y \in unitmx by rewrite YY unitmxE det_scalar1 unitfE pnatr_eq0.
exists y, y; rewrite /base_panel_fe DX D ols_Some // la_inv_unit //.
eexists; split; [by []|by []|].
rewrite /= SS -scalemxAr SS scale_scalar_mx invmx_scalar -scalar_mxM mxE eqxx mulr1n [LHS]mulrC mulfK //.
Qed.

Section Id.
Variable F : realFieldType.
Add Field Ff : (@p_ft F).
Lemma cov_id (a b t : F) : a != 0 -> t != 0 -> b = - (a * (1 - (a + t * b) / a) / t).
Proof. by move=> a0 t0; mfield F; split; apply/eqP. Qed.
End Id.

Section RE.
Variables (R : rcfType) (T n k : nat) (valid : 'I_k -> bool) (solve : 'M[R]_k -> 'cV[R]_k -> 'cV[R]_k).
Variables (y : 'cV[R]_(T * n)) (x : 'M[R]_(T * n, k)) (r : panel_re R T n k).
Hypothesis T0 : (0 < T)%N.
Hypothesis Fit : base_panel_re valid solve y x = Some r.
Let phi := Num.sqrt (re_se2 r / (re_se2 r + T%:R * re_smu2 r)).

Lemma se2_ge0 se2 : re_sigma2_eps valid y x = Some se2 -> 0 <= se2.
Proof.
rewrite /re_sigma2_eps; case: ifP => _; last case: la_inv => // xi.
all: by case=> <-; rewrite -utuE; apply: divr_ge0; [apply: utu_ge0|apply: ler0n].
Qed.
Lemma re_ols : exists2 o, base_ols (demean_panel phi y) (demean_panel phi x) RobNone None false = Some o &
  [/\ re_betas r = o_betas o, re_sig2 r = o_sig2 o, re_vm r = o_sig2 o *: invmx ((demean_panel phi x)^T *m demean_panel phi x),
      re_theta r = 1 - phi & 0 <= re_se2 r /\ 0 <= re_smu2 r].
Proof.
move: Fit; rewrite /base_panel_re; case Es: re_sigma2_eps => [se2|//]; set smu2 := (if _ < _ then _ else _).
have P : 0 <= smu2 by rewrite /smu2; case: ltP.
case Eo: base_ols => [o|//] [Er]; exists o; last first.
  rewrite /phi -Er /=; have [_ _ _ _ ->] := ols_fields Eo; split=> //.
  - by rewrite !demeanE !avgE.
  - by split=> //; apply: se2_ge0.
by rewrite -Eo /phi -Er /= !demeanE !avgE.
Qed.
Hypothesis Pos : 0 < re_se2 r.
(** the covariance matrix of the errors of the random effects model: variance se2 + smu2, covariance smu2 within a unit *)
Definition re_cov : 'M[R]_(T * n) := re_se2 r *: 1%:M + re_smu2 r *: kron (const_mx 1) 1%:M.
Lemma denom_pos : 0 < re_se2 r + T%:R * re_smu2 r.
Proof. have [o _ [_ _ _ _ [_ P]]] := re_ols; by apply: ltr_paddr => //; apply: mulr_ge0; rewrite ?ler0n. Qed.
Lemma phi2 : phi ^+ 2 = re_se2 r / (re_se2 r + T%:R * re_smu2 r).
Proof. by rewrite /phi sqr_sqrtr // ltW // divr_gt0 // denom_pos. Qed.
Lemma phi_pos : 0 < phi.
Proof. by rewrite sqrtr_gt0 divr_gt0 // denom_pos. Qed.
Lemma demean1 (p : R) m (a : 'M[R]_(T * n, m)) : demean_panel p a = demean_panel p 1%:M *m a.
Proof. by rewrite !demeanE mulmx1 mulmxBl mul1mx -scalemxAl. Qed.
Lemma covE : re_cov = re_se2 r *: demean_panel (phi ^- 2) 1%:M.
Proof.
rewrite /re_cov demeanE mulmx1 scalerBr; congr (_ + _); rewrite /avg kronZl !scalerA -scaleNr; congr (_ *: _).
have d0 := lt0r_neq0 denom_pos; have s0 := lt0r_neq0 Pos; have t0 : (T%:R : R) != 0 by rewrite pnatr_eq0 -lt0n.
by rewrite phi2 invf_div; apply: cov_id.
Qed.
Lemma cov_inv : re_cov \in unitmx /\ invmx re_cov = (re_se2 r)^-1 *: demean_panel (phi ^+ 2) 1%:M.
Proof.
have s0 := lt0r_neq0 Pos.
have E : re_cov *m ((re_se2 r)^-1 *: demean_panel (phi ^+ 2) 1%:M) = 1%:M.
  rewrite covE -scalemxAr -scalemxAl scalerA mulVf // scale1r -demean1 demean_comp // mulVf ?C41_full_weight //.
  by rewrite expf_neq0 // lt0r_neq0 // phi_pos.
have [U _] := mulmx1_unit E; split=> //; by rewrite -[LHS]mulmx1 -[X in _ *m X]E mulKmx.
Qed.
Lemma demean_tr (p : R) : (demean_panel p (1%:M : 'M[R]_(T * n)))^T = demean_panel p 1%:M.
Proof. by rewrite demeanE mulmx1 linearB /= trmx1 linearZ /= avg_tr. Qed.
Lemma demean_sq m p (a : 'M[R]_(T * n, m)) (b : 'M[R]_(T * n, p)) :
  (demean_panel phi a)^T *m demean_panel phi b = a^T *m demean_panel (phi ^+ 2) 1%:M *m b.
Proof.
rewrite (demean1 phi a) (demean1 phi b) trmx_mul demean_tr mulmxA; congr (_ *m _); rewrite -mulmxA; congr (_ *m _).
by rewrite -demean1 demean_comp.
Qed.
Lemma gls_form (e f : 'cV[R]_(T * n)) : (e^T *m invmx re_cov *m f) 0 0 = (re_se2 r)^-1 * ((demean_panel phi e)^T *m demean_panel phi f) 0 0.
Proof.
by have [_ ->] := cov_inv; rewrite demean_sq -scalemxAr -scalemxAl mxE.
Qed.
(** C69: generalised least squares with that covariance matrix *)
Theorem C69_gls : re_cov \in unitmx /\ forall b : 'cV[R]_k,
  ((y - x *m re_betas r)^T *m invmx re_cov *m (y - x *m re_betas r)) 0 0 <= ((y - x *m b)^T *m invmx re_cov *m (y - x *m b)) 0 0 /\
  (((y - x *m b)^T *m invmx re_cov *m (y - x *m b)) 0 0 <= ((y - x *m re_betas r)^T *m invmx re_cov *m (y - x *m re_betas r)) 0 0 ->
   b = re_betas r).
Proof.
split=> [|b]; first by have [] := cov_inv.
have [o Eo [-> _ _ _ _]] := re_ols; rewrite !gls_form -!utuE.
have L c : demean_panel phi (y - x *m c) = demean_panel phi y - demean_panel phi x *m c.
  by rewrite [LHS]demean1 mulmxBr mulmxA -!demean1.
have ip : 0 < (re_se2 r)^-1 by rewrite invr_gt0.
rewrite !ler_pmul2l // !L !(ols_min _ Eo) subrr mulmx0.
have -> : utu_of (0 : 'cV[R]_(T * n)) = 0 by rewrite /utu_of big1 // => i _; rewrite mxE expr0n.
rewrite addr0 ler_addl utu_ge0; split=> //; rewrite -[X in _ <= X]addr0 ler_add2l => H.
have Z : utu_of (demean_panel phi x *m (b - o_betas o)) == 0 by rewrite eq_le H utu_ge0.
apply/eqP; rewrite -subr_eq0; apply/eqP; apply: (proj1 (gram_unit _) (ols_gram Eo)).
by apply/eqP; rewrite -utu_eq0.
Qed.
(** vm is the GLS covariance matrix (x'V^-1 x)^-1 scaled by sig2 / se2 *)
Theorem C69_vm : re_vm r *m (x^T *m invmx re_cov *m x) = (re_sig2 r / re_se2 r)%:M.
Proof.
have [o Eo [_ -> -> _ _]] := re_ols; have [_ ->] := cov_inv.
have -> : x^T *m ((re_se2 r)^-1 *: demean_panel (phi ^+ 2) 1%:M) *m x = (re_se2 r)^-1 *: ((demean_panel phi x)^T *m demean_panel phi x).
  by rewrite demean_sq -scalemxAr -scalemxAl.
by rewrite -scalemxAr -scalemxAl mulVmx ?(ols_gram Eo) // !scalemx1 scale_scalar_mx mulrC.
Qed.
Theorem C69_weight : 0 <= re_theta r < 1 /\ (re_smu2 r = 0 -> re_theta r = 0 /\ exists2 o, base_ols y x RobNone None false = Some o & re_betas r = o_betas o).
Proof.
have [o Eo [Eb _ _ -> [_ S]]] := re_ols; split.
  rewrite subr_ge0 ltr_subl_addr ltr_addl phi_pos andbT.
  rewrite -(@expr_le1 _ 2) ?(ltW phi_pos) // phi2 ler_pdivr_mulr ?denom_pos // mul1r ler_addl mulr_ge0 ?ler0n //.
move=> Z; have P1 : phi = 1 by rewrite /phi Z mulr0 addr0 divff ?lt0r_neq0 // sqrtr1.
by move: Eo; rewrite P1 !C41_full_weight => Eo; rewrite subrr; split=> //; exists o.
Qed.
End RE.

(** when the within variance is positive and x has full column rank the fit exists *)
Theorem C69_defined : forall (R : rcfType) T n k valid solve (y : 'cV[R]_(T * n)) (x : 'M[R]_(T * n, k)) se2, (0 < T)%N ->
  re_sigma2_eps valid y x = Some se2 -> 0 < se2 -> x^T *m x \in unitmx ->
  exists r, base_panel_re valid solve y x = Some r /\ re_se2 r = se2.
Proof.
move=> R T n k valid solve y x se2 T0 Es Pos U; rewrite /base_panel_re Es; set smu2 := (if _ < _ then _ else _).
have P : 0 <= smu2 by rewrite /smu2; case: ltP.
set phi := Num.sqrt _; have phi0 : 0 < phi.
  by rewrite sqrtr_gt0 divr_gt0 // ltr_paddr // mulr_ge0 ?ler0n.
rewrite -!avgE -!demeanE; have G : (demean_panel phi x)^T *m demean_panel phi x \in unitmx.
  apply/gram_unit => c Hc; apply: (proj1 (gram_unit x) U).
  have := demean_comp phi^-1 phi (x *m c) T0; rewrite mulVf ?lt0r_neq0 // C41_full_weight => <-.
  have -> : demean_panel phi (x *m c) = demean_panel phi x *m c by rewrite [LHS]demean1 mulmxA -demean1.
  by rewrite Hc demean1 mulmx0.
by rewrite ols_Some //; eexists; split.
Qed.
(** two units, two periods, a constant *)
Theorem C69_example : forall (R : rcfType) solve, exists (y : 'cV[R]_(2 * 2)) r,
  base_panel_re (fun=> false) solve y (const_mx 1 : 'M[R]_(2 * 2, 1)) = Some r /\ 0 < re_se2 r.
Proof.
move=> R solve; pose y : 'cV[R]_(2 * 2) := \col_i (i%:R : R).
have C0 : #|[pred c : 'I_1 | false]| = 0%N by apply: eq_card0.
have E : re_sigma2_eps (fun=> false) y (const_mx 1 : 'M[R]_(2 * 2, 1)) = Some (2%:R).
  rewrite /re_sigma2_eps; case: ifP => [_|/eqP N]; last by case: (N C0).
  rewrite C0; congr Some.
  have -> : y - tile 2 (unit_mean y) = \col_i (if (i < 2)%N then - 1 else 1).
    apply/matrixP => i j; rewrite ord1 !mxE !big_ord_recl big_ord0 !mxE /= addr0 /bump /= mul0n add0n mul1n natrD.
    have two : (2%:R : R) != 0 by rewrite pnatr_eq0.
    have -> : ((i %% 2)%:R + (2%:R + (i %% 2)%:R)) / 2%:R = (i %% 2)%:R + 1 :> R.
      apply: (mulIf two); rewrite divfK // mulrDl mul1r mulr_natr mulr2n; by rewrite addrCA addrC.
    have -> : (i %% 2)%:R + 1 = (i %% 2).+1%:R :> R by move: (i %% 2)%N => m; rewrite -addn1 natrD.
    have Z (a b : nat) : (a < b)%N -> a%:R - b%:R = - (b - a)%N%:R :> R by move=> ab; rewrite natrB ?(ltnW ab) // opprB.
    by case: i => -[|[|[|[|]]]] //= ?; [rewrite Z|rewrite Z|rewrite -natrB|rewrite -natrB].
  rewrite mxE big_pix !big_ord_recl !big_ord0 !mxE /= /bump /= !addr0 ?mulrNN ?mulr1.
  by rewrite -[(2 * 2 - 2 - 0)%N]/2%N -[1 + 1]/(2%:R) -mulr2n -[_ *+ 2]mulr_natr mulfK // pnatr_eq0.
have U : (const_mx 1 : 'M[R]_(2 * 2, 1))^T *m const_mx 1 \in unitmx.
  apply/gram_unit => c /(congr1 (fun m : 'cV[R]_(2 * 2) => m ord0 0)); rewrite !mxE big_ord_recl big_ord0 addr0 !mxE mul1r => H.
  by apply/matrixP => i j; rewrite !ord1 mxE -H; congr (c _ _); apply/ord_inj.
have [r [Er Es]] := @C69_defined R 2 2 1 (fun=> false) solve y _ _ isT E (ltr0n _ 2) U.
by exists y, r; rewrite Es ltr0n.
Qed.
