(** C97: two panels of three units and two periods. *)
From mathcomp Require Import all_ssreflect all_algebra.
From Verif Require Import LinRegModel LinRegProofs Kron PanelModel PanelTheorems PanelTheorems2 HausModel HausTheorems.
Set Implicit Arguments.
Unset Strict Implicit.
Unset Printing Implicit Defensive.
Import Order.TTheory GRing.Theory Num.Theory.
Local Open Scope ring_scope.

Section Int.
Definition xl : seq int := [:: 0; -1; 1; -2%:Z; 1; 1].
Definition Xi : 'M[int]_(2 * 3, 2) := \matrix_(i, j) if j == 0 then 1 else nth 0 xl i.
Definition XMi : 'M[int]_(3, 2) := \matrix_(i, j) if j == 0 then 1 else nth 0 [:: -1; 0; 1] i.
Definition XDi : 'cV[int]_(2 * 3) := \col_i nth 0 [:: 1; -1; 0; -1; 1; 0] i.
Definition Vi n (l : seq int) : 'cV[int]_n := \col_i nth 0 l i.
Definition dgi (a b : int) : 'M[int]_2 := \matrix_(i, j) if i == j then (if i == 0 then a else b) else 0.
Definition c2i (a b : int) : 'cV[int]_2 := \col_i if i == 0 then a else b.
Lemma ord2P (P : 'I_2 -> Prop) : P 0 -> P 1 -> forall i, P i.
Proof. by move=> p0 p1 [[|[|//]] H]; [have -> : Ordinal H = 0 by apply/val_inj | have -> : Ordinal H = 1 by apply/val_inj]. Qed.
Lemma XX : Xi^T *m Xi = dgi 6 8.
Proof. by apply/matrixP; apply: ord2P; apply: ord2P; rewrite !mxE big_pix !big_ord_recl !big_ord0 !mxE. Qed.
Lemma XMXM : XMi^T *m XMi = dgi 3 2.
Proof. by apply/matrixP; apply: ord2P; apply: ord2P; rewrite !mxE !big_ord_recl !big_ord0 !mxE. Qed.
End Int.

Section Ex.
Variables (R : rcfType) (cdf : R -> nat -> R).
Definition v1 (c : 'I_2) : bool := c != 0.
Local Notation m := #|[pred c | v1 c]|.
Local Notation rm := (map_mx intr).
Lemma m1 : m = 1%N.
Proof. by rewrite (@eq_card1 _ (1 : 'I_2)) //; apply: ord2P. Qed.
Lemma ev (i : 'I_m) : enum_val i = 1.
Proof. by have := enum_valP i; move: (enum_val i); apply: ord2P. Qed.
Lemma i1 (i j : 'I_m) : i = j.
Proof.
have z (a : nat) : (a < m)%N -> a = 0%N by rewrite m1; case: a.
by apply: val_inj; rewrite /= (z _ (ltn_ord i)) (z _ (ltn_ord j)).
Qed.
Lemma i0 : 'I_m. Proof. by rewrite m1; exact: 0. Qed.
Lemma sum1 (F : 'I_m -> R) : \sum_i F i = F i0.
Proof. by rewrite (bigD1 i0) //= big1 ?addr0 // => i; rewrite (i1 i i0) eqxx. Qed.
Lemma outer p (d : 'cV[int]_p) (w : int) : (\matrix_(i < p, j < m) (d i 0)%:~R) *m const_mx w%:~R = rm (w *: d) :> 'cV[R]_p.
Proof.
apply/matrixP => i j; have E : (w *: d) i j = w * d i 0 by rewrite mxE ord1.
by rewrite [RHS]mxE E rmorphM [LHS]mxE sum1 !mxE mulrC.
Qed.
Definition dg (a b : R) : 'M[R]_2 := \matrix_(i, j) if i == j then (if i == 0 then a else b) else 0.
Lemma dgE a b : rm (dgi a b) = dg a%:~R b%:~R :> 'M[R]_2.
Proof. by apply/matrixP => i j; rewrite !mxE; case: (i == j); case: (i == 0). Qed.
Lemma dg_mul a b c d : dg a b *m dg c d = dg (a * c) (b * d).
Proof. by apply/matrixP; apply: ord2P; apply: ord2P; rewrite !mxE !big_ord_recl !big_ord0 !mxE /= ?mulr0 ?mul0r ?addr0 ?add0r. Qed.
Lemma dg1 : dg 1 1 = 1%:M.
Proof. by apply/matrixP; apply: ord2P; apply: ord2P; rewrite !mxE. Qed.
Lemma dg_inv a b : a != 0 -> b != 0 -> dg a b \in unitmx /\ invmx (dg a b) = dg a^-1 b^-1.
Proof.
move=> a0 b0; have E : dg a b *m dg a^-1 b^-1 = 1%:M by rewrite dg_mul !mulfV // dg1.
have [U _] := mulmx1_unit E; split=> //; by rewrite -[LHS]mulmx1 -E mulKmx.
Qed.
Lemma dg_col (a b : R) (c d : int) : dg a b *m rm (c2i c d) = \col_i if i == 0 then a * c%:~R else b * d%:~R.
Proof. by apply/matrixP; apply: ord2P => j; rewrite !mxE !big_ord_recl !big_ord0 !mxE /= ?mulr0 ?mul0r ?addr0 ?add0r. Qed.

Variables (yl ml : seq int) (W B C ssw ssp ssb : int).
Let Y := Vi (2 * 3) yl.
Let YM := Vi 3 ml.
Let YD : 'cV[int]_(2 * 3) := \col_i (nth 0 yl i - nth 0 ml (i %% 3)).
Hypothesis Hm : forall i : 'I_3, nth 0 yl i + nth 0 yl (3 + i) = 2 * nth 0 ml i.
Hypothesis HW : XDi^T *m YD = const_mx (4 * W).
Hypothesis Hsw : (YD - W *: XDi)^T *m (YD - W *: XDi) = const_mx ssw.
Hypothesis HB : Xi^T *m Y = c2i 0 (8 * B).
Hypothesis Hsp : (Y - Xi *m c2i 0 B)^T *m (Y - Xi *m c2i 0 B) = const_mx ssp.
Hypothesis HC : XMi^T *m YM = c2i 0 (2 * C).
Hypothesis Hsb : (YM - XMi *m c2i 0 C)^T *m (YM - XMi *m c2i 0 C) = const_mx ssb.
Hypothesis Hb : 4 * ssb <= ssw.
Hypothesis Hw0 : 0 < ssw.
Let y : 'cV[R]_(2 * 3) := rm Y.
Let x : 'M[R]_(2 * 3, 2) := rm Xi.
Lemma ymean : unit_mean y = rm YM.
Proof.
apply/matrixP => i j; rewrite mxE !big_ord_recl big_ord0 !mxE /= addr0 /bump /= mul0n add0n mul1n -rmorphD Hm.
by rewrite rmorphM /= mulrAC -[2%:~R]/(2%:R) divff ?mul1r // pnatr_eq0.
Qed.
Lemma xmean : unit_mean x = rm XMi.
Proof.
have two : (2%:R : R) != 0 by rewrite pnatr_eq0.
apply/matrixP => i j; rewrite mxE !big_ord_recl big_ord0 addr0 /= !mxE -rmorphD.
apply: (mulIf two); rewrite divfK // -[2%:R]/(2%:~R) -rmorphM; congr intr; move: j; apply: ord2P => //=; case: i => -[|[|[|]]] //.
Qed.
Lemma ydem : y - tile 2 (unit_mean y) = rm YD.
Proof. by rewrite ymean; apply/matrixP => i j; rewrite !mxE rmorphB. Qed.
Lemma slim_col : fe_slim v1 x = \matrix_(i, j) (XDi i 0)%:~R.
Proof.
rewrite /fe_slim xmean; apply/matrixP => i j; rewrite !mxE ev /= -rmorphB; congr intr.
by case: i => -[|[|[|[|[|[|]]]]]].
Qed.
Lemma slim_tr p (a : 'M[int]_(2 * 3, p)) : (fe_slim v1 x)^T *m rm a = \matrix_(i, j) ((XDi^T *m a) 0 j)%:~R.
Proof. by rewrite slim_col; apply/matrixP => i j; rewrite !mxE rmorph_sum /=; apply: eq_bigr => l _; rewrite !mxE rmorphM. Qed.
Lemma slim_slim : (fe_slim v1 x)^T *m fe_slim v1 x = (4%:R)%:M.
Proof.
rewrite slim_col; apply/matrixP => i j; rewrite !mxE (i1 i j) eqxx mulr1n.
have -> : 4%:R = \sum_(l < 2 * 3) (XDi l 0 * XDi l 0)%:~R :> R.
  by rewrite -(rmorph_sum (intmul1_rmorphism R)) /= big_pix !big_ord_recl !big_ord0 !mxE.
by apply: eq_bigr => l _; rewrite !mxE rmorphM.
Qed.
Lemma four0 : (4%:R : R) != 0. Proof. by rewrite pnatr_eq0. Qed.
Lemma within_beta : ((4%:R)^-1)%:M *m ((fe_slim v1 x)^T *m rm YD) = const_mx W%:~R :> 'cV[R]_m.
Proof.
by rewrite slim_tr mul_scalar_mx HW; apply/matrixP => i j; rewrite !mxE rmorphM /= mulKf // four0.
Qed.
Lemma quad p (a : 'cV[int]_p) : ((rm a)^T *m rm a) 0 0 = ((a^T *m a) 0 0)%:~R :> R.
Proof. by rewrite !mxE rmorph_sum /=; apply: eq_bigr => l _; rewrite !mxE rmorphM. Qed.
Lemma slim_inv : la_inv ((fe_slim v1 x)^T *m fe_slim v1 x) = Some ((4%:R)^-1)%:M.
Proof. by rewrite slim_slim la_inv_unit ?invmx_scalar // unitmxE det_scalar unitfE expf_neq0 // four0. Qed.
Lemma ex_eps : re_sigma2_eps v1 y x = Some (ssw%:~R / 2%:R).
Proof.
have m0 : (m == 0%N) = false by rewrite m1.
have df : (2 * 3 - 3 - m)%N = 2%N by rewrite m1.
rewrite /re_sigma2_eps m0 df -[\matrix_(r, c) _]/(fe_slim v1 x) slim_inv ydem within_beta.
have -> : rm YD - fe_slim v1 x *m const_mx W%:~R = rm (YD - W *: XDi) :> 'cV[R]_(2 * 3).
  have -> : fe_slim v1 x *m const_mx W%:~R = rm (W *: XDi) :> 'cV[R]_(2 * 3); last by rewrite -map_mxB.
  by rewrite slim_col outer.
by rewrite quad Hsw mxE.
Qed.
Lemma ex_b : re_sigma2_b (fun A b => invmx A *m b) y x = ssb%:~R.
Proof.
rewrite /re_sigma2_b ymean xmean !map_trmx -!map_mxM XMXM HC dgE.
have n3 : (3%:~R : R) != 0 by rewrite intr_eq0.
have n2 : (2%:~R : R) != 0 by rewrite intr_eq0.
have [_ ->] := dg_inv n3 n2.
have -> : dg (3%:~R)^-1 (2%:~R)^-1 *m rm (c2i 0 (2 * C)) = rm (c2i 0 C) :> 'cV[R]_2.
  by rewrite dg_col; apply/matrixP; apply: ord2P => j; rewrite !mxE /= ?mulr0 // rmorphM /= mulKf // pnatr_eq0.
by rewrite -map_mxM -map_mxB quad Hsb mxE divr1.
Qed.
Lemma ex_ols : exists2 o, base_ols y x RobNone None false = Some o &
  [/\ o_betas o = rm (c2i 0 B), o_sig2 o = ssp%:~R / 6%:R & o_xtxi o = dg (6%:R)^-1 (8%:R)^-1].
Proof.
have XtX : x^T *m x = dg 6%:R 8%:R by rewrite /x map_trmx -map_mxM XX dgE.
have n6 : (6%:R : R) != 0 by rewrite pnatr_eq0.
have n8 : (8%:R : R) != 0 by rewrite pnatr_eq0.
have [U I] := dg_inv n6 n8.
rewrite /base_ols XtX la_inv_unit // I; eexists; first by [].
have Eb : dg (6%:R)^-1 (8%:R)^-1 *m (x^T *m y) = rm (c2i 0 B) :> 'cV[R]_2.
  rewrite /x /y map_trmx -map_mxM HB dg_col; apply/matrixP; apply: ord2P => j; rewrite !mxE /= ?mulr0 // rmorphM /= mulKf // pnatr_eq0.
rewrite /= Eb; split=> //; rewrite /sig2_of utuE /x /y -map_mxM -map_mxB quad Hsp mxE //.
Qed.
Let V : R := ssw%:~R / 8%:R - ssp%:~R / 48%:R.
Lemma ex_run : exists r h, [/\ panel_re_full v1 (fun A b => invmx A *m b) cdf y x = Some (r, h), re_se2 r = ssw%:~R / 2%:R,
   re_sig2 r = ssp%:~R / 6%:R, re_theta r = 0 & V != 0 -> h_stat h = Some ((W - B)%:~R ^+ 2 / V) /\ h_p h = Some (1 - cdf ((W - B)%:~R ^+ 2 / V) 1%N)].
Proof.
have [o Eo [E1 E2 E3]] := ex_ols.
have se0 : (ssw%:~R / 2%:R : R) != 0 by rewrite mulf_neq0 ?invr_eq0 ?pnatr_eq0 // intr_eq0 lt0r_neq0.
have Fit : base_panel_re v1 (fun A b => invmx A *m b) y x =
  Some (PanelRE (o_betas o) (x *m o_betas o) (y - x *m o_betas o) (o_sig2 o) (o_sig2 o *: o_xtxi o) (ssw%:~R / 2%:R) 0 0).
  rewrite /base_panel_re ex_eps ex_b.
  have -> : (if (ssb%:~R - ssw%:~R / 2%:R / 2%:R : R) < 0 then 0 else ssb%:~R - ssw%:~R / 2%:R / 2%:R) = 0 :> R.
    case E: (_ < 0) => //; have G := negbT E; rewrite -leNgt in G; apply/eqP; rewrite eq_le G andbT subr_le0 -mulrA -invfM -natrM ler_pdivl_mulr ?ltr0n //.
    by rewrite -[(2 * 2)%N%:R]/((Posz 4)%:~R) -rmorphM ler_int mulrC.
  by rewrite mulr0 addr0 divff // sqrtr1 subrr !scale0r !subr0 Eo.
have [h Eh] := C97_runs cdf Fit; eexists; exists h; split; [exact: Eh|by []|by rewrite /= E2|by []|].
move: Eh => /run_split [_]; have m0 : (m == 0%N) = false by rewrite m1.
have cm s : cdf s m = cdf s 1%N by rewrite m1.
rewrite (hausE _ Fit) m0 => + V0.
have HV : hV v1 x (PanelRE (o_betas o) (x *m o_betas o) (y - x *m o_betas o) (o_sig2 o) (o_sig2 o *: o_xtxi o) (ssw%:~R / 2%:R) 0 0) = V%:M.
  rewrite /hV /= -sub_mxE; have [_ <-] := la_invP slim_inv.
  apply/matrixP => i j; rewrite !mxE (i1 i j) eqxx !mulr1n ev E2 E3 mxE /= /V -!mulrA -!invfM -!natrM //.
have HD : hd v1 y x (PanelRE (o_betas o) (x *m o_betas o) (y - x *m o_betas o) (o_sig2 o) (o_sig2 o *: o_xtxi o) (ssw%:~R / 2%:R) 0 0) =
  const_mx (W - B)%:~R.
  rewrite /hd /= -sub_colE E1 ydem; have [_ <-] := la_invP slim_inv.
  by rewrite within_beta; apply/matrixP => i j; rewrite !mxE ev /= rmorphB.
rewrite HV HD unitmxE det_scalar unitfE expf_neq0 // => -[<-] /=.
rewrite cm invmx_scalar mul_mx_scalar -scalemxAl.
have -> : (V^-1 *: ((const_mx (W - B)%:~R : 'cV[R]_m)^T *m (const_mx (W - B)%:~R : 'cV[R]_m))) 0 0 = (W - B)%:~R ^+ 2 / V.
  by rewrite mxE [X in _ * X]mxE sum1 !mxE mulrC expr2.
by [].
Qed.
End Ex.


Lemma xi_fixed (R : rcfType) c t s i : ~~ v1 c -> (map_mx intr Xi : 'M[R]_(2 * 3, 2)) (pix t i) c = (map_mx intr Xi : 'M[R]_(2 * 3, 2)) (pix s i) c.
Proof. by rewrite negbK => /eqP ->; rewrite !mxE. Qed.
Ltac entry b := rewrite (ord1 b) [RHS]mxE mxE ?big_pix !big_ord_recl !big_ord0 !mxE ?big_ord_recl ?big_ord0 ?mxE.
Ltac entry1 := apply/matrixP; let a := fresh "a" in let b := fresh "b" in intros a b; rewrite (ord1 a); entry b.
Ltac entry2 := apply/matrixP; apply: ord2P; let b := fresh "b" in intro b; entry b.

(** the hypotheses of C97_nonneg_partial and C97_defined_partial are met and the statistic is positive: y = (2, -2, 2), then (-2, 2, -2); sigma2_epsilon is 4
    and sig2 is 8/3 *)
Theorem C97_witness : forall (R : rcfType) (cdf : R -> nat -> R), exists (y : 'cV[R]_(2 * 3)) (x : 'M[R]_(2 * 3, 2)) valid solve r h,
  [/\ panel_re_full valid solve cdf y x = Some (r, h), forall c t s i, ~~ valid c -> x (pix t i) c = x (pix s i) c,
      re_sig2 r < re_se2 r & h_stat h = Some (3%:R / 2%:R)].
Proof.
move=> R cdf.
have [|||||||||r [h [E1 E2 E3 _ E5]]] := @ex_run R cdf [:: 2; -2%:Z; 2; -2%:Z; 2; -2%:Z] [:: 0; 0; 0] 2 1 0 8 16 0.
- by case=> -[|[|[|]]].
- by entry1.
- by entry1.
- by entry2.
- by entry1.
- by entry2.
- by entry1.
- by [].
- by [].
exists (map_mx intr (Vi (2 * 3) [:: 2; -2%:Z; 2; -2%:Z; 2; -2%:Z])), (map_mx intr Xi), v1, (fun A b => invmx A *m b), r, h.
have nz n : (n.+1%:R : R) != 0 by rewrite pnatr_eq0.
have V : 8%:R / 8%:R - 16%:R / 48%:R = 2%:R / 3%:R :> R.
  have -> : (48%:R : R) = 16%:R * 3%:R by rewrite -natrM.
  rewrite invfM mulrA !divff //; apply: (mulIf (nz 2%N)); rewrite mulrBl !divfK // mul1r.
  by have -> : (3%:R : R) = 2%:R + 1; [rewrite -[3%N]/(2 + 1)%N natrD | rewrite addrK].
split=> //; first by move=> *; apply: xi_fixed.
- rewrite E2 E3 ltr_pdivr_mulr ?ltr0n // mulrAC ltr_pdivl_mulr ?ltr0n //.
  by rewrite -[(16%:~R : R)]/(16%:R) -[(8%:~R : R)]/(8%:R) -!natrM ltr_nat.
have [|-> _] := E5; rewrite ?V ?mulf_neq0 ?invr_eq0 //.
by rewrite invf_div expr1n mul1r.
Qed.

(** it is negative, and the p-value 1, for y = (-9, 0, 15), then (-13, -4, 11): the slope is 0 within the units and 6 in the pooled regression,
    which is the random effects one as theta = 0; sigma2_epsilon is 12 and sig2 is 54 *)
Theorem C97_negative_refuted : forall (R : rcfType) (cdf : R -> nat -> R), (forall s m, s <= 0 -> cdf s m = 0) ->
  exists (y : 'cV[R]_(2 * 3)) (x : 'M[R]_(2 * 3, 2)) valid solve r h s,
  [/\ panel_re_full valid solve cdf y x = Some (r, h), forall c t s i, ~~ valid c -> x (pix t i) c = x (pix s i) c,
      re_theta r = 0, h_stat h = Some s & s < 0 /\ h_p h = Some 1].
Proof.
move=> R cdf cdf0.
have [|||||||||r [h [E1 E2 E3 Et E5]]] := @ex_run R cdf [:: -9%:Z; 0; 15; -13%:Z; -4%:Z; 11] [:: -11%:Z; -2%:Z; 13] 0 6 12 24 324 6.
- by case=> -[|[|[|]]].
- by entry1.
- by entry1.
- by entry2.
- by entry1.
- by entry2.
- by entry1.
- by [].
- by [].
have nz n : (n.+1%:R : R) != 0 by rewrite pnatr_eq0.
have V : 24%:R / 8%:R - 324%:R / 48%:R < 0 :> R.
  have -> : (48%:R : R) = 8%:R * 6%:R by rewrite -natrM.
  rewrite invfM mulrA [_ / 8%:R / _]mulrAC -mulrBl pmulr_llt0 ?invr_gt0 ?ltr0n // subr_lt0 ltr_pdivl_mulr ?ltr0n //.
  by rewrite -natrM ltr_nat.
exists (map_mx intr (Vi (2 * 3) [:: -9%:Z; 0; 15; -13%:Z; -4%:Z; 11])), (map_mx intr Xi), v1, (fun A b => invmx A *m b), r, h.
have [Es Ep] := E5 (ltr0_neq0 V).
eexists; split; [exact: E1|by move=> *; apply: xi_fixed|exact: Et|exact: Es|].
have L : (0 - 6%:Z)%:~R ^+ 2 / (24%:R / 8%:R - 324%:R / 48%:R) < 0 :> R.
  by rewrite pmulr_rlt0 ?invr_lt0 // exprn_even_gt0 //= intr_eq0.
by split; [exact: L|rewrite Ep (cdf0 _ _ (ltW L)) subr0].
Qed.
