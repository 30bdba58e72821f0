(** C88: t statistics, the pseudo R2 of the reduced form; a concrete case. *)
From mathcomp Require Import all_ssreflect all_algebra.
From Verif Require Import LinRegModel LinRegProofs LinRegProofs2 LinRegProofs3 LinRegTheorems FilterModel Mring Pr2Model Pr2Theorems.
Set Implicit Arguments.
Unset Strict Implicit.
Unset Printing Implicit Defensive.
Import Order.TTheory GRing.Theory Num.Theory.
Local Open Scope ring_scope.

Section Tstat.
Variables (R : rcfType) (norm_sf : R -> R) (t_sf : R -> R -> R).
Implicit Types (n k : nat).
Notation tstat n z b vm := (t_stat n norm_sf t_sf z b vm).
Lemma tE n k z (b : 'cV[R]_k) vm (i : 'I_k) : nth (0, 0) (tstat n z b vm) i =
  let t := b i 0 / Num.sqrt (vm i i) in (t, (if z then norm_sf `|t| else t_sf `|t| (n%:R - k%:R)) * 2%:R).
Proof. by rewrite /t_stat (nth_map i) ?size_enum_ord // nth_ord_enum; case: z. Qed.
(** One pair per coefficient: the statistic has the sign of the coefficient, its square is the Wald statistic of "the coefficient is zero",
    and the second number is twice the upper tail of its absolute value, normal or Student with n - k degrees of freedom *)
Theorem C88_t_wald n k z (b : 'cV[R]_k) (vm : 'M[R]_k) (i : 'I_k) : 0 < vm i i ->
  size (tstat n z b vm) = k /\
  exists t, [/\ nth (0, 0) (tstat n z b vm) i = (t, 2%:R * (if z then norm_sf `|t| else t_sf `|t| (n%:R - k%:R))),
    wald_w b (delta_mx 0 i : 'rV[R]_k) 0 vm = Some (t ^+ 2) & Num.sg t = Num.sg (b i 0)].
Proof.
move=> v0; split; first by rewrite size_map size_enum_ord.
exists (b i 0 / Num.sqrt (vm i i)); split; first by rewrite tE [2%:R * _]mulrC.
  have E : (delta_mx 0 i : 'rV[R]_k) *m (vm *m (delta_mx 0 i : 'rV[R]_k)^T) = (vm i i)%:M.
    by rewrite trmx_delta mulmxA -rowE -colE; apply/matrixP => p q; rewrite [p]ord1 [q]ord1 !mxE mulr1n.
  have U : ((vm i i)%:M : 'M[R]_1) \in unitmx by rewrite unitmxE det_scalar expr1 unitfE gt_eqF.
  rewrite /wald_w E (la_inv_unit U) subr0 invmx_scalar -rowE mul_scalar_mx -scalemxAr [X in Some X = _]mxE; congr Some.
  rewrite [X in _ * X]mxE big_ord1 !mxE expr_div_n sqr_sqrtr ?ltW // expr2 mulrC //.
by rewrite sgrM [Num.sg _^-1]gtr0_sg ?mulr1 // invr_gt0 sqrtr_gt0.
Qed.
(** Units of the regressors: dividing or multiplying a column by a non-zero number changes no t statistic except for its sign *)
Theorem C88_t_units n k z (y : 'cV[R]_n) (x : 'M[R]_(n, k)) (d : 'rV[R]_k) s o o' (i : 'I_k) : (forall j, d 0 j != 0) ->
  base_ols y x RobNone None s = Some o -> base_ols y (x *m diag_mx d) RobNone None s = Some o' ->
  nth (0, 0) (tstat n z (o_betas o') (o_vm o')) i =
    let: (t, p) := nth (0, 0) (tstat n z (o_betas o) (o_vm o)) i in (Num.sg (d 0 i) * t, p).
Proof.
move=> d0 E E'.
have U : diag_mx d \in unitmx by rewrite unitmxE det_diag unitfE; apply/prodf_neq0 => j _; exact: d0.
have I : invmx (diag_mx d) = diag_mx (\row_j (d 0 j)^-1).
  apply: (can_inj (mulKmx U)); rewrite mulmxV // mulmx_diag; apply/matrixP => a b; rewrite !mxE; case: eqP => [->|//].
  by rewrite mulfV.
have [o1 E1 [B _ _ _ V]] := ols_recomb U E; move: E1; rewrite E' => -[o1E]; rewrite -o1E in B V.
have Bi : o_betas o' i 0 = (d 0 i)^-1 * o_betas o i 0 by rewrite B I mul_diag_mx !mxE.
have Vi : o_vm o' i i = (d 0 i)^-1 ^+ 2 * o_vm o i i.
  by rewrite V I tr_diag_mx mul_mx_diag [LHS]mxE mul_diag_mx [X in X * _]mxE !mxE mulrAC expr2.
rewrite !tE /=; set t := o_betas o i 0 / _.
have -> : o_betas o' i 0 / Num.sqrt (o_vm o' i i) = Num.sg (d 0 i) * t.
  rewrite Bi Vi sqrtrM ?sqr_ge0 // sqrtr_sqr invfM mulrACA; congr (_ * _).
  by rewrite normrV ?unitfE // invrK normrEsg mulrCA mulVf // mulr1.
by rewrite normrM normr_sg d0 mul1r.
Qed.
End Tstat.

Section Spatial.
Variable R : rcfType.
Implicit Types (n : nat).
(** Row-standardised weights: the pseudo R2 of the reduced-form prediction (I - rho W)^-1 (X b) does not depend on the intercept *)
Theorem C88_spatial_intercept n (W : 'M[R]_n) (rho a : R) (y xb : 'cV[R]_n) : (forall i, \sum_j W i j = 1) ->
  1%:M - rho *: W \in unitmx ->
  pr2_spatial y (invmx (1%:M - rho *: W) *m (const_mx a + xb)) = pr2_spatial y (invmx (1%:M - rho *: W) *m xb).
Proof.
move=> W1 U; set B := 1%:M - _ in U *.
have B1 c : B *m (const_mx c : 'cV[R]_n) = const_mx ((1 - rho) * c).
  apply/matrixP => i j; rewrite mulmxBl mul1mx -scalemxAl [LHS]mxE [X in _ + X]mxE [X in _ - X]mxE [X in _ * X]mxE [RHS]mxE mxE.
  rewrite (eq_bigr (fun l => W i l * c)) => [|l _]; last by rewrite mxE.
  by rewrite -mulr_suml W1 mul1r mulrBl mul1r.
case: (eqVneq rho 1) => [r1|r1].
  have Z : (const_mx 1 : 'cV[R]_n) = 0 by rewrite -[LHS](mulKmx U) B1 r1 subrr mul0r (_ : const_mx 0 = 0) ?mulmx0 //; apply/matrixP => i j; rewrite !mxE.
  congr pr2_spatial; congr (_ *m _); apply/matrixP => i j; move/matrixP: Z => /(_ i j)/eqP; by rewrite !mxE oner_eq0.
have r0 : 1 - rho != 0 by rewrite subr_eq0 eq_sym.
have -> : invmx B *m (const_mx a + xb) = const_mx ((1 - rho)^-1 * a) + 1 *: (invmx B *m xb).
  by rewrite scale1r mulmxDr; congr (_ + _); rewrite -{1}[a](mulVKf r0) -B1 mulKmx.
rewrite -{1}[y](add0r y) -{1}[y]scale1r (_ : 0 = const_mx 0) ; last by apply/matrixP => i j; rewrite !mxE.
exact: (C88_pr2_affine _ _ _ _ (oner_neq0 _) (oner_neq0 _)).
Qed.
(** Outside the unit interval sp_att returns zeros as the prediction: no spatial pseudo R2 is reported *)
Theorem C88_spatial_out_of_bounds n (W : 'M[R]_n) (y predy w_y : 'cV[R]_n) (rho thr : R) mx p e warn : (1 < n)%N -> 1 <= `|rho| ->
  sp_att W y predy w_y rho false thr mx = Done (p, e, warn) -> pr2_spatial y p = PNan /\ warn = true.
Proof.
move=> n1 r1; rewrite /sp_att ltNge r1 /= => -[<- _ <-]; split=> //.
have := C88_pr2_range y 0 n1; rewrite (_ : is_const 0) ?orbT //.
by apply/forallP => i; apply/forallP => j; rewrite !mxE.
Qed.
End Spatial.

Section Witness.
Variable R : rcfType.
Definition wy : 'cV[R]_3 := \col_i (nth 0 [:: 0; 1; 0] i).
Definition wx : 'M[R]_(3, 2) := \matrix_(i, j) nth 0 (nth [::] [:: [:: 1; 0]; [:: 1; 1]; [:: 1; 1 + 1]] i) j.
(** Three observations, a constant and a trend; y is not constant, the regression exists, the prediction x2 + 1 is not constant: its pseudo R2
    (here 0) is at most the R2 *)
Theorem C88_witness : [/\ ~~ is_const wy, exists o, base_ols wy wx RobNone None true = Some o /\ wx *m (delta_mx 0 0 : 'cV[R]_2) = const_mx 1 &
  ~~ is_const (wx *m const_mx 1) ].
Proof.
have I0 : (0 : 'I_3) = Ordinal (isT : (0 < 3)%N) by apply: val_inj.
split.
- apply/nconst; exists 0, (Ordinal (isT : (1 < 3)%N)); by rewrite !mxE /= eq_sym oner_eq0.
- have U : wx^T *m wx \in unitmx.
    apply/gram_unit => c /matrixP H; apply/matrixP => i j; rewrite [j]ord1 [RHS]mxE.
    have := H 0 0; rewrite [LHS]mxE !big_ord_recl big_ord0 !mxE /= mul1r mul0r !addr0 => c0.
    have := H (Ordinal (isT : (1 < 3)%N)) 0; rewrite [LHS]mxE !big_ord_recl big_ord0 !mxE /= !mul1r addr0 => c1.
    move: c1; rewrite c0 add0r => c1.
    case: i => [[|[|//]] li].
      by rewrite -c0; congr (c _ _); apply: val_inj.
    by rewrite -c1; congr (c _ _); apply: val_inj.
  eexists; split; first exact: ols_Some.
  apply/matrixP => i j; rewrite [j]ord1 mxE (bigD1 0) //= big1 ?addr0 => [|l /negbTE l0]; last by rewrite !mxE l0 mulr0.
  by rewrite !mxE /= mulr1; case: i => [[|[|[|//]]] li].
- apply/nconst; exists 0, (Ordinal (isT : (1 < 3)%N)); rewrite !mxE !big_ord_recl !big_ord0 !mxE /= !mulr1 !addr0 -subr_eq0 opprD addrA subrr add0r.
  by rewrite oppr_eq0 oner_eq0.
Qed.
End Witness.
Print Assumptions C88_t_units.
Print Assumptions C88_pr2_best.
