(** C97: invariance of the Hausman test of PanelRE. *)
From Coq Require Import Ring Field.
From mathcomp Require Import all_ssreflect all_algebra.
From Verif Require Import Mring LinRegModel LinRegProofs LinRegProofs2 Kron PanelModel PanelTheorems PanelTheorems2 MLTheorems3 HausModel HausTheorems.
Set Implicit Arguments.
Unset Strict Implicit.
Unset Printing Implicit Defensive.
Import Order.TTheory GRing.Theory Num.Theory.
Local Open Scope ring_scope.

Section Inv.
Variables (R : rcfType) (T n k : nat) (valid : 'I_k -> bool) (solve : 'M[R]_k -> 'cV[R]_k -> 'cV[R]_k) (cdf : R -> nat -> R).
Variables (y : 'cV[R]_(T * n)) (x : 'M[R]_(T * n, k)) (r : panel_re R T n k) (h : hausman R).
Hypothesis Run : panel_re_full valid solve cdf y x = Some (r, h).
Lemma quadZ p (a : R) (e : 'cV[R]_p) : ((a *: e)^T *m (a *: e)) 0 0 = a ^+ 2 * (e^T *m e) 0 0.
Proof. have -> : (a *: e)^T = a *: e^T by apply/matrixP => i j; rewrite !mxE.
by rewrite -scalemxAl -scalemxAr scalerA mxE expr2. Qed.
Lemma ols_scale p q (b : 'cV[R]_p) (X : 'M[R]_(p, q)) (a : R) o : base_ols b X RobNone None false = Some o ->
  exists2 o', base_ols (a *: b) X RobNone None false = Some o' &
  [/\ o_betas o' = a *: o_betas o, o_sig2 o' = a ^+ 2 * o_sig2 o & o_xtxi o' = o_xtxi o].
Proof.
rewrite /base_ols; case: la_inv => // xi [<-]; eexists; first by []; rewrite /= /sig2_of.
rewrite -!scalemxAr -scalerBr; split=> //; rewrite mulrA; congr (_ / _).
by rewrite !utuE quadZ.
Qed.
Lemma unit_meanZ (a : R) : unit_mean (a *: y) = a *: unit_mean y.
Proof. by apply/matrixP => i j; rewrite !mxE mulrA mulr_sumr; congr (_ / _); apply: eq_bigr => t _; rewrite mxE. Qed.
Lemma tileZ (a : R) (u : 'cV[R]_n) : tile T (a *: u) = a *: tile T u.
Proof. by apply/matrixP => i j; rewrite !mxE. Qed.

(** the units in which y is measured do not matter *)
Theorem C97_units : forall a : R, a != 0 -> (forall A b, solve A (a *: b) = a *: solve A b) ->
  exists2 r', panel_re_full valid solve cdf (a *: y) x = Some (r', h) & re_betas r' = a *: re_betas r /\ re_theta r' = re_theta r.
Proof.
move=> a a0 Hs; have [Fit Eh] := run_split Run.
have a2 : 0 < a ^+ 2 by rewrite lt_def expf_neq0 // sqr_ge0.
have [r' Fit' [Eb Es Ev Ee Et]] : exists2 r', base_panel_re valid solve (a *: y) x = Some r' &
  [/\ re_betas r' = a *: re_betas r, re_sig2 r' = a ^+ 2 * re_sig2 r, re_vm r' = a ^+ 2 *: re_vm r, re_se2 r' = a ^+ 2 * re_se2 r & re_theta r' = re_theta r].
  move: Fit; rewrite /base_panel_re; case E: (re_sigma2_eps _ y _) => [se2|//].
  have -> : re_sigma2_eps valid (a *: y) x = Some (a ^+ 2 * se2).
    move: E; rewrite /re_sigma2_eps; case: ifP => _.
      by case=> <-; rewrite unit_meanZ tileZ -scalerBr quadZ mulrA.
    case: la_inv => // xi [<-]; rewrite unit_meanZ tileZ -scalerBr -!scalemxAr -scalerBr quadZ mulrA //.
  have -> : re_sigma2_b solve (a *: y) x = a ^+ 2 * re_sigma2_b solve y x.
    by rewrite /re_sigma2_b unit_meanZ -scalemxAr Hs -scalemxAr -scalerBr quadZ mulrA.
  have -> : a ^+ 2 * re_sigma2_b solve y x - a ^+ 2 * se2 / T%:R = a ^+ 2 * (re_sigma2_b solve y x - se2 / T%:R) by rewrite mulrBr mulrA.
  rewrite pmulr_rlt0 //; set s := re_sigma2_b solve y x - _.
  have -> : (if s < 0 then 0 else a ^+ 2 * s) = a ^+ 2 * (if s < 0 then 0 else s) by case: ifP; rewrite ?mulr0.
  have ratio q : a ^+ 2 * se2 / (a ^+ 2 * se2 + T%:R * (a ^+ 2 * q)) = se2 / (se2 + T%:R * q).
    by rewrite [T%:R * (_ * _)]mulrCA -mulrDr -mulf_div divff ?mul1r ?lt0r_neq0.
  rewrite ratio; set th := 1 - _.
  have -> : a *: y - th *: tile T (unit_mean (a *: y)) = a *: (y - th *: tile T (unit_mean y)).
    by rewrite unit_meanZ tileZ scalerA [th * a]mulrC -scalerA -scalerBr.
  case Eo: base_ols => [o|//] [<-]; have [o' -> [E1 E2 E3]] := ols_scale a Eo.
  by eexists; [by []|rewrite /= E1 E2 E3 scalerA; split].
exists r'; last by [].
rewrite /panel_re_full Fit' (hausE _ Fit').
have m0u : #|[pred c | valid c]| != 0%N -> (fe_slim valid x)^T *m fe_slim valid x \in unitmx by apply: fit_gram Fit.
move: Eh; rewrite (hausE _ Fit); case: ifP => [_ [<-] //|/negbT m0].
have -> : hV valid x r' = a ^+ 2 *: hV valid x r by rewrite /hV Ee Ev -scalerA -scalemxAr -scalemxAl -scalerBr.
have -> : hd valid (a *: y) x r' = a *: hd valid y x r.
  by rewrite /hd Eb unit_meanZ tileZ -scalerBr -!scalemxAr -scalerBr.
rewrite unitmxZ ?unitfE ?lt0r_neq0 //; case: ifP => U [<-] //.
have -> // : ((a *: hd valid y x r)^T *m invmx (a ^+ 2 *: hV valid x r) *m (a *: hd valid y x r)) 0 0 =
  ((hd valid y x r)^T *m invmx (hV valid x r) *m hd valid y x r) 0 0.
set d := hd _ _ _ _; have -> : (a *: d)^T = a *: d^T by apply/matrixP => i j; rewrite !mxE.
rewrite invmxZ ?unitmxZ ?unitfE ?lt0r_neq0 // -!scalemxAl -!scalemxAr -scalemxAl !scalerA [LHS]mxE.
by rewrite mulrA -expr2 mulfV ?mul1r // lt0r_neq0.
Qed.

(** adding a linear combination of the regressors to y changes the coefficients by it and nothing else *)
Theorem C97_shift : forall c : 'cV[R]_k, (0 < T)%N -> (forall v t s i, ~~ valid v -> x (pix t i) v = x (pix s i) v) ->
  (forall A b, A \in unitmx -> A *m solve A b = b) -> (unit_mean x)^T *m unit_mean x \in unitmx ->
  exists2 r', panel_re_full valid solve cdf (y + x *m c) x = Some (r', h) &
    [/\ re_betas r' = re_betas r + c, re_vm r' = re_vm r & re_theta r' = re_theta r].
Proof.
move=> c T0 Fixed Hs Ub; have [Fit Eh] := run_split Run.
have um : unit_mean (y + x *m c) = unit_mean y + unit_mean x *m c.
  by rewrite -[x *m c]opprK unit_meanB // -unit_mean_lin -(opprK (unit_mean (x *m c))); congr (_ - _); apply/matrixP => i j; rewrite !mxE -mulNr -sumrN; congr (_ / _); apply: eq_bigr => t _; rewrite mxE.
have tl : tile T (unit_mean y + unit_mean x *m c) = tile T (unit_mean y) + tile T (unit_mean x) *m c.
  by rewrite -tile_lin; apply/matrixP => i j; rewrite !mxE.
have part (a : R) : y + x *m c - a *: tile T (unit_mean (y + x *m c)) = y - a *: tile T (unit_mean y) + (x - a *: tile T (unit_mean x)) *m c.
  by rewrite um tl scalerDr opprD addrACA mulmxBl scalemxAl.
have dem : y + x *m c - tile T (unit_mean (y + x *m c)) = y - tile T (unit_mean y) + (x - tile T (unit_mean x)) *m c.
  by have := part 1; rewrite !scale1r.
have dx : (x - tile T (unit_mean x)) *m c = fe_slim valid x *m ((pick R valid)^T *m c).
  by rewrite -demean0E (dem_pick T0 Fixed) mulmxA.
have [r' Fit' [Eb Es Ev Ee Et]] : exists2 r', base_panel_re valid solve (y + x *m c) x = Some r' &
  [/\ re_betas r' = re_betas r + c, re_sig2 r' = re_sig2 r, re_vm r' = re_vm r, re_se2 r' = re_se2 r & re_theta r' = re_theta r].
  move: Fit; rewrite /base_panel_re; case E: (re_sigma2_eps _ y _) => [se2|//].
  have -> : re_sigma2_eps valid (y + x *m c) x = Some se2.
    move: E; rewrite /re_sigma2_eps dem dx; case: ifP => [/eqP m0|/negbT m0].
      move=> <-; have -> : fe_slim valid x *m ((pick R valid)^T *m c) = 0; last by rewrite addr0.
      apply/matrixP => i j; rewrite !mxE big1 // => l _; by have := ltn_ord l; rewrite {2}m0.
    rewrite -[\matrix_(r0, c0) _]/(fe_slim valid x); case Ei: la_inv => [xi|//] [<-]; have [U ->] := la_invP Ei.
    set S := fe_slim valid x in U *; set v := _ *m c.
    have -> // : y - tile T (unit_mean y) + S *m v - S *m (invmx (S^T *m S) *m (S^T *m (y - tile T (unit_mean y) + S *m v))) =
      y - tile T (unit_mean y) - S *m (invmx (S^T *m S) *m (S^T *m (y - tile T (unit_mean y)))).
    by rewrite [S^T *m (_ + _)]mulmxDr [invmx _ *m (_ + _)]mulmxDr [S^T *m (S *m v)]mulmxA mulKmx // mulmxDr opprD addrACA subrr addr0.
  have sol b : solve ((unit_mean x)^T *m unit_mean x) (b + (unit_mean x)^T *m unit_mean x *m c) = solve ((unit_mean x)^T *m unit_mean x) b + c.
    by apply: (can_inj (mulKmx Ub)); rewrite mulmxDr !Hs.
  have -> : re_sigma2_b solve (y + x *m c) x = re_sigma2_b solve y x.
    have E1 : (unit_mean x)^T *m (unit_mean y + unit_mean x *m c) = (unit_mean x)^T *m unit_mean y + (unit_mean x)^T *m unit_mean x *m c.
      by rewrite mulmxDr mulmxA.
    by rewrite /re_sigma2_b um E1 sol [_ *m (_ + c)]mulmxDr opprD addrACA subrr addr0.
  set th := 1 - _; rewrite part; case Eo: base_ols => [o|//] [<-].
  have [o' Eo' [E1 E2 _ E4]] := ols_shift c Eo; rewrite Eo'; eexists; first by [].
  have E3 : o_sig2 o' = o_sig2 o.
    move: Eo Eo' E2; rewrite /base_ols; case: la_inv => // xi [<-] [<-] /= E2; by rewrite E2.
  have E5 : o_xtxi o' = o_xtxi o by have [_ _ _ _ ->] := ols_fields Eo; have [_ _ _ _ ->] := ols_fields Eo'.
  by rewrite /= E1 E3 E5; split.
exists r'; last by [].
rewrite /panel_re_full Fit' (hausE _ Fit'); move: Eh; rewrite (hausE _ Fit); case: ifP => [_ [<-] //|/negbT m0].
have U := fit_gram Fit m0.
have -> : hV valid x r' = hV valid x r by rewrite /hV Ee Ev.
have -> : hd valid (y + x *m c) x r' = hd valid y x r.
  rewrite /hd Eb dem dx; set S := fe_slim valid x in U *; set v := _ *m c.
  rewrite [S^T *m (_ + _)]mulmxDr [invmx _ *m (_ + _)]mulmxDr [S^T *m (S *m v)]mulmxA mulKmx //.
  by rewrite [_ *m (re_betas r + c)]mulmxDr opprD addrACA subrr addr0.
by case: ifP => _ [<-].
Qed.
End Inv.
