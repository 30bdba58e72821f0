(** C61: moments of Moran's I; C43: panel LM tests; C62: Hausman test; C63: common factor test. *)
From mathcomp Require Import all_ssreflect all_algebra.
From Coq Require Import Ring Field.
From Verif Require Import Mring LinRegModel LinRegProofs LinRegProofs2 FilterModel MLTheorems3 LMModel LMSpec LMProofs LMTheorems.
Set Implicit Arguments.
Unset Strict Implicit.
Unset Printing Implicit Defensive.
Import Order.TTheory GRing.Theory Num.Theory.
Local Open Scope ring_scope.

Section T.
Variable R : realFieldType.
Add Field Rf : (@p_ft R).

(** C31: the Durbin tests are available whenever the fit is not exact, there is a link, and the lagged regressors add l new directions. *)
Theorem C31_durbin_defined : forall n k l (y : 'cV[R]_n) (x : 'M[R]_(n, k)) (W : 'M[R]_n) (xx : 'M[R]_(n, l)) rb g s o,
  base_ols y x rb g s = Some o -> o_u o != 0 -> W + W^T != 0 ->
  (forall (a : 'cV[R]_k) (c : 'cV[R]_l), x *m a = W *m xx *m c -> c = 0) ->
  exists sj, lm_spdurbin o W xx = Some sj.
Proof.
move=> n k l y x W xx rb g s o Ho u0 W0 Hc.
have T0 := t_gt0 W0; have S0 := s2_gt0 u0; set s2 := sig2n o in S0.
have [Ex Ey Ep Eu Ei] := ols_fields Ho; have U := ols_gram Ho.
have Ext : o_xtx o = x^T *m x by move: Ho; rewrite /base_ols; case: la_inv => // z [<-].
have sn : s2 != 0 by rewrite gt_eqF.
have nn : n%:R != 0 :> R := nR u0.
have Us : n%:R / (2%:R * s2) != 0 by apply: (mulf_neq0 nn); rewrite invr_eq0 mulf_neq0 // pnatr_eq0.
have Uc : ((n%:R / (2%:R * s2))%:M : 'M[R]_1) \in unitmx by rewrite unitmxE det_scalar expr1 unitfE.
have [U11 I11] := inv_block_diag U Uc.
rewrite /lm_spdurbin -/s2 Ex Ep Ext Ey trcE -/(block_mx _ _ _ _) (la_inv_unit U11) I11.
set X1 := _ - _; suff UX : X1 \in unitmx by rewrite (la_inv_unit UX); eexists.
set M := ann x; set Z := row_mx (W *m (x *m o_betas o)) (W *m xx).
have -> : X1 = (M *m Z)^T *m (M *m Z) + block_mx (d_t W * s2)%:M 0 0 0.
  rewrite /X1 -(ann_quad U) -/(block_mx _ _ _ _).
  have -> : col_mx (row_mx (x^T *m (W *m (x *m o_betas o))) (x^T *m (W *m xx))) 0 = col_mx (x^T *m Z) 0 :> 'M_(k + 1, 1 + l).
    by rewrite /Z mul_mx_row.
  rewrite tr_col_mx trmx0 mul_row_block mul_row_col !mul0mx !mulmx0 !addr0 -mulmxA addrAC; congr (_ - _).
  rewrite /Z tr_row_mx mul_col_row add_block_mx !addr0; congr block_mx; by rewrite trmx_mul trmxK.
apply: pd_unit; split; first by rewrite trD gram_sym tr_block_mx tr_scalar_mx !trmx0.
move=> c c0; rewrite mulmxDr mulmxDl add00.
have Q1 : 0 <= (c^T *m ((M *m Z)^T *m (M *m Z)) *m c) 0 0 by exact: (proj2 (gram_psd (M *m Z))).
have E2 : (c^T *m block_mx (d_t W * s2)%:M 0 0 0 *m c) 0 0 = (d_t W * s2) * utu_of (usubmx c).
  by rewrite -{1 2}[c]vsubmxK quad_block !mulmx0 !mul0mx !z00 !addr0 mul_mx_scalar -scalemxAl sc00 utuE.
have P0 : 0 < d_t W * s2 by exact: mulr_gt0.
have Q2 : 0 <= (d_t W * s2) * utu_of (usubmx c) by exact: mulr_ge0 (ltW P0) (utu_ge0 _).
rewrite E2 lt_def (addr_ge0 Q1 Q2) andbT (paddr_eq0 Q1 Q2); apply/negP => /andP [Z1].
rewrite mulf_eq0 (gt_eqF P0) orFb utu_eq0 => /eqP Z2.
have : utu_of (M *m Z *m c) == 0 by rewrite utuE (trmx_mul (M *m Z) c); move: Z1; rewrite !mulmxA.
rewrite utu_eq0 => /eqP; rewrite -mulmxA => /(ann_ker U _) [a].
rewrite /Z -[c]vsubmxK mul_row_col Z2 mulmx0 add0r => /esym /Hc D0.
by case/eqP: c0; rewrite -[c]vsubmxK Z2 D0 col_mx0.
Qed.

(** Moran's I.  W with zero diagonal; M the annihilator of x: E[I] and Var[I] of Cliff and Ord in terms of M. *)
Theorem C61_moran_moments : forall n k (y : 'cV[R]_n) (x : 'M[R]_(n, k)) (W : 'M[R]_n) rb g s o,
  base_ols y x rb g s = Some o -> (forall i, W i i = 0) -> (k < n)%N -> \sum_i \sum_j W i j != 0 ->
  let M := ann x in let m : R := n%:R - k%:R in let s0 := \sum_i \sum_j W i j in
  [/\ get_eI o W = n%:R / s0 * (\tr (M *m W) / m),
      get_vI o W = (n%:R / s0) ^+ 2 *
         ((\tr (M *m W *m (M *m W^T)) + \tr (M *m W *m (M *m W)) + \tr (M *m W) ^+ 2) / (m * (m + 2%:R))) - get_eI o W ^+ 2
    & 0 <= get_vI o W].
Proof.
move=> n k y x W rb g s o Ho Wd kn S0 M m s0.
have [Ex _ _ _ Ei] := ols_fields Ho; have UG := ols_gram Ho.
have m0 : 0 < m by rewrite subr_gt0 ltr_nat.
have ETr : \tr (M *m W) = - d_trA o W.
  rewrite /M /ann mulmxBl mul1mx linearB /=.
  have -> : \tr W = 0 by rewrite /mxtrace big1.
  rewrite sub0r /d_trA Ex Ei; congr (- _).
  by rewrite -!mulmxA mxtrace_mulC -!mulmxA.
set U : 'M[R]_n := 2%:R^-1 *: (W + W^T).
have T2 : 2%:R != 0 :> R by rewrite pnatr_eq0.
have SU : U^T = U by rewrite /U trZ trD trmxK addrC.
have SM : M^T = M := ann_sym x; have IM : M *m M = M := ann_idem UG.
have EMU : \tr (M *m U) = \tr (M *m W).
  rewrite /U -scalemxAr linearZ /= mulmxDr linearD /=.
  have -> : \tr (M *m W^T) = \tr (M *m W) by rewrite -mxtrace_tr trmx_mul trmxK SM mxtrace_mulC.
  by rewrite -mulr2n -[X in _ * X]mulr_natl mulKf.
have EU2 : \tr (M *m U *m (M *m U)) * 2%:R = \tr (M *m W *m (M *m W^T)) + \tr (M *m W *m (M *m W)).
  have -> : M *m U = 2%:R^-1 *: (M *m W + M *m W^T) by rewrite /U -scalemxAr mulmxDr.
  rewrite -scalemxAl -scalemxAr !linearZ /= mulmxDl !mulmxDr !linearD /=.
  have -> : \tr (M *m W^T *m (M *m W^T)) = \tr (M *m W *m (M *m W)).
    by rewrite -mxtrace_tr !trmx_mul !trmxK SM mulmxA mxtrace_mulC !mulmxA.
  have -> : \tr (M *m W^T *m (M *m W)) = \tr (M *m W *m (M *m W^T)) by rewrite mxtrace_mulC.
  move: (\tr _) (\tr _) => a b; move/eqP: T2 => T2; mfield R; exact: T2.
have Es1 : w_s1 W = 2%:R * \tr (U *m U).
  have -> : \tr (U *m U) = \sum_i \sum_j U i j ^+ 2.
    rewrite /mxtrace; apply: eq_bigr => i _; rewrite mxE; apply: eq_bigr => j _; rewrite expr2; congr (_ * _); by rewrite -{1}SU mxE.
  rewrite /w_s1 mulr_sumr mulr_suml; apply: eq_bigr => i _; rewrite mulr_sumr mulr_suml; apply: eq_bigr => j _.
  rewrite /U !mxE exprMn; move: (W i j + W j i) => a; rewrite !expr2; move/eqP: T2 => T2; mfield R; exact: T2.
have EA : \sum_i ((d_AB o W).1 *m (d_AB o W).1) i i = \tr ((x *m invmx (x^T *m x) *m x^T *m U) *m (x *m invmx (x^T *m x) *m x^T *m U)).
  rewrite /d_AB /= Ex Ei -/U; set G := invmx _.
  transitivity (\tr ((G *m (x^T *m (U *m x))) *m (G *m (x^T *m (U *m x))))); first by [].
  by rewrite -!mulmxA [RHS]mxtrace_mulC -!mulmxA.
have EB : \sum_i (d_AB o W).2 i i = \tr (x *m invmx (x^T *m x) *m x^T *m U *m U).
  rewrite /d_AB /= Ex Ei -/U trmx_mul SU; set G := invmx _.
  transitivity (\tr (G *m (x^T *m U *m (U *m x)))); first by [].
  by rewrite -!mulmxA [RHS]mxtrace_mulC -!mulmxA.
have EMM : \tr (M *m U *m (M *m U)) = \tr (U *m U) - 2%:R * (\sum_i (d_AB o W).2 i i) + \sum_i ((d_AB o W).1 *m (d_AB o W).1) i i.
  rewrite EA EB /M /ann; set P := x *m _ *m _.
  have -> : (1%:M - P) *m U = U - P *m U by rewrite mulmxBl mul1mx.
  rewrite mulmxBl !mulmxBr !linearB /=.
  have -> : \tr (U *m (P *m U)) = \tr (P *m U *m U) by rewrite mxtrace_mulC.
  move: (\tr _) (\tr _) (\tr _) => a b c; mring R.
have EV : get_vI o W = (n%:R ^+ 2 / (s0 ^+ 2 * m * (m + 2%:R))) * (\tr (M *m U *m (M *m U)) * 2%:R - 2%:R * \tr (M *m W) ^+ 2 / m).
  rewrite /get_vI -/(w_s0 W) -/m /w_s0 -/s0 Es1 EMM ETr sqrrN; congr (_ * (_ - _)).
  have -> : 4%:R = 2%:R * 2%:R :> R by rewrite -natrM.
  move: (\tr _) (\sum_i _) (\sum_i _) => a b c; mring R.
have EE : get_eI o W = n%:R / s0 * (\tr (M *m W) / m).
  rewrite /get_eI -/m /w_s0 -/s0 ETr; move: (d_trA o W) (n%:R : R) m0 S0; rewrite -/s0; clear; move: m s0 => m s0 a b m0 S0.
  have M0 : m <> 0 by apply/eqP; rewrite gt_eqF. move/eqP: S0 => S0; mfield R; by split.
split => //.
- rewrite EV EE EU2; move: (\tr (M *m W *m (M *m W^T)) + \tr (M *m W *m (M *m W))) (\tr (M *m W)) (n%:R : R) m0 S0; rewrite -/s0; clear; move: m s0 => m s0 a b c m0 S0.
  have M0 : m <> 0 by apply/eqP; rewrite gt_eqF.
  have M2 : m + 2%:R <> 0 by apply/eqP; rewrite gt_eqF // addr_gt0 // ltr0n.
  move/eqP: S0 => S0; rewrite !expr2; mfield R; by repeat split.
- rewrite EV; apply: mulr_ge0.
    apply: divr_ge0; first exact: sqr_ge0.
    by apply: mulr_ge0; [apply: mulr_ge0; [exact: sqr_ge0|exact: ltW]|exact: addr_ge0 (ltW m0) (ler0n _ _)].
  rewrite -EMU.
  set t := \tr (M *m U).
  have CS : 0 <= \sum_i \sum_j ((M *m U *m M) i j - (t / m) * M i j) ^+ 2 by do 2 (apply: sumr_ge0 => ? _); exact: sqr_ge0.
  have -> : \tr (M *m U *m (M *m U)) * 2%:R - 2%:R * t ^+ 2 / m = 2%:R * (\tr (M *m U *m (M *m U)) - t ^+ 2 / m).
    move/eqP: (lt0r_neq0 m0) => M0; rewrite expr2; clear CS; move: (\tr (M *m U *m (M *m U))) t => a b; clear -M0; mfield R; exact: M0.
  apply: mulr_ge0; first exact: ler0n.
  suff -> : \tr (M *m U *m (M *m U)) - t ^+ 2 / m = \sum_i \sum_j ((M *m U *m M) i j - (t / m) * M i j) ^+ 2 by [].
  set S := M *m U *m M.
  have trsq (A B : 'M[R]_n) : B^T = B -> \tr (A *m B) = \sum_i \sum_j A i j * B i j.
    by move=> SB; rewrite /mxtrace; apply: eq_bigr => i _; rewrite mxE; apply: eq_bigr => j _; rewrite -{1}SB mxE.
  have SS : S^T = S by rewrite /S !trmx_mul SM SU mulmxA.
  have E1 : \sum_i \sum_j S i j * S i j = \tr (M *m U *m (M *m U)).
    rewrite -(trsq _ _ SS) /S -!mulmxA (mulmxA M M) IM !mulmxA mxtrace_mulC !mulmxA IM //.
  have E2 : \sum_i \sum_j S i j * M i j = t by rewrite -(trsq _ _ SM) /S -mulmxA IM mxtrace_mulC mulmxA IM.
  have E3 : \sum_i \sum_j M i j * M i j = m by rewrite -(trsq _ _ SM) IM ann_tr.
  transitivity (\tr (M *m U *m (M *m U)) - 2%:R * (t / m) * t + (t / m) ^+ 2 * m).
    move/eqP: (lt0r_neq0 m0) => M0; rewrite !expr2; clear CS E1 E2 E3; move: (\tr (M *m U *m (M *m U))) t => a b; clear -M0; mfield R; exact: M0.
  set c := t / m; clearbody c; rewrite -E1 -{1}E2 -{1}E3 !mulr_sumr -sumrB -big_split /=; apply: eq_bigr => i _.
  rewrite !mulr_sumr -sumrB -big_split /=; apply: eq_bigr => j _; rewrite !expr2; move: (S i j) (M i j) => a b; mring R.
Qed.

(** C61: the Anselin-Kelejian statistic in its reduced form; it does not depend on the total weight s0, is non-negative, and is the LM
    error statistic when the lagged regressors are uncorrelated with the residuals. *)
Theorem C61_ak : forall n k (u : 'cV[R]_n) (z : 'M[R]_(n, k)) (varb : 'M[R]_k) (W : 'M[R]_n),
  (0 < n)%N -> u != 0 -> W + W^T != 0 -> \sum_i \sum_j W i j != 0 -> psd varb ->
  let s2 := utu_of u / n%:R in
  let a := (u^T *m (W *m z) *m varb *m (u^T *m (W *m z))^T) 0 0 in
  [/\ (akTest u z varb W).2 = ((u^T *m (W *m u)) 0 0 / s2) ^+ 2 / (d_t W + 4%:R * a / s2),
      0 <= (akTest u z varb W).2
    & u^T *m (W *m z) = 0 -> (akTest u z varb W).2 = ((u^T *m (W *m u)) 0 0 / s2) ^+ 2 / d_t W].
Proof.
move=> n k u z varb W n0 u0 W0 S0 [SV PV] s2 a.
have T0 : 0 < d_t W by rewrite d_t_gt0.
have q0 : 0 < utu_of u by rewrite lt_def utu_ge0 utu_eq0 u0.
have N0 : 0 < n%:R :> R by rewrite ltr0n.
have s0 : 0 < s2 by exact: divr_gt0.
have a0 : 0 <= a by rewrite /a; set w := u^T *m (W *m z); have := PV w^T; rewrite trmxK.
have P0 : 0 < d_t W + 4%:R * a / s2.
  by apply: ltr_paddr => //; apply: divr_ge0 (ltW s0); apply: mulr_ge0 => //; exact: ler0n.
have E : (akTest u z varb W).2 = ((u^T *m (W *m u)) 0 0 / s2) ^+ 2 / (d_t W + 4%:R * a / s2).
  have Eu : utu_of u = s2 * n%:R by rewrite /s2 mulfVK // gt_eqF.
  rewrite /akTest /= (mulmxA (u^T *m (W *m z)) varb) -/a -/s2 -/(w_s0 W) Eu.
  have -> : 4%:R / s2 * a = 4%:R * a / s2 by rewrite mulrAC.
  clear Eu q0; clearbody s2 a; rewrite -/(w_s0 W) in S0; move: P0.
  move: ((u^T *m (W *m u)) 0 0) (d_t W + 4%:R * a / s2) => b p P0; move: (w_s0 W) (n%:R : R) S0 N0 => w m /eqP S0 N0.
  have n1 : m <> 0 by apply/eqP; rewrite gt_eqF.
  have n2 : s2 <> 0 by apply/eqP; rewrite gt_eqF.
  have n3 : p <> 0 by apply/eqP; rewrite gt_eqF.
  rewrite !expr2; mfield R; by repeat split.
split => //.
- by rewrite E; apply: divr_ge0 (sqr_ge0 _) (ltW P0).
- move=> H; rewrite E; congr (_ / _); by rewrite /a H !mul0mx mxE mulr0 mul0r addr0.
Qed.

Section Panel.
Variables (t n k : nat) (y : 'cV[R]_(t * n)) (x : 'M[R]_(t * n, k)) (W : 'M[R]_n) (Wnt : 'M[R]_(t * n)).
Variables (rb : robust_opt) (g : option 'M[R]_(t * n)) (sk : bool) (o : ols R (t * n) k).
Lemma p_num2E : base_ols y x rb g sk = Some o -> p_num2 o Wnt = utu_of (ann x *m (Wnt *m (x *m o_betas o))).
Proof.
move=> Ho; have [Ex _ Ep _ Ei] := ols_fields Ho; have U := ols_gram Ho.
rewrite /p_num2 Ex Ei Ep utuE; set v := Wnt *m _.
have -> : 1%:M - x *m (invmx (x^T *m x) *m x^T) = ann x by rewrite /ann mulmxA.
by rewrite (trmx_mul (ann x) v) ann_sym -(mulmxA v^T) (mulmxA (ann x)) ann_idem.
Qed.
Lemma p_trwE : p_trw W = d_t W. Proof. by rewrite d_tE linearD. Qed.
End Panel.

(** C43.  The robust panel statistics decompose the joint statistic: the identity holds for LM-lag computed with the same information
    T tr(WW + W'W) as the robust versions ... *)
Theorem C43_decomposition_partial : forall t n k (y : 'cV[R]_(t * n)) (x : 'M[R]_(t * n, k)) (W : 'M[R]_n) (Wnt : 'M[R]_(t * n)) rb g sk o,
  base_ols y x rb g sk = Some o -> 0 < o_sig2 o -> (0 < t)%N -> W + W^T != 0 -> (forall c, Wnt *m (x *m o_betas o) <> x *m c) ->
  let J := utu_of (ann x *m (Wnt *m (x *m o_betas o))) / o_sig2 o + t%:R * \tr (W *m W + W^T *m W) in
  (((o_u o)^T *m (Wnt *m y)) 0 0 / o_sig2 o) ^+ 2 / J + panel_rLMerror o W Wnt = panel_LMerror o W Wnt + panel_rLMlag o W Wnt /\
  (panel_LMlag o W Wnt + panel_rLMerror o W Wnt = panel_LMerror o W Wnt + panel_rLMlag o W Wnt <->
   ((o_u o)^T *m (Wnt *m y)) 0 0 = 0 \/ \tr (W *m W + W^T *m W) = t%:R).
Proof.
move=> t n k y x W Wnt rb g sk o Ho s0 t0 W0 Hc J; rewrite -d_tE in J *.
have [Ex Ey Ep Eu Ei] := ols_fields Ho; have U := ols_gram Ho.
have T0 : 0 < d_t W by rewrite d_t_gt0.
have V0 : 0 < utu_of (ann x *m (Wnt *m (x *m o_betas o))).
  by rewrite lt_def utu_ge0 utu_eq0 andbT; apply/eqP => /(ann_ker U _) [c]; exact: Hc.
rewrite /panel_LMlag /panel_rLMerror /panel_LMerror /panel_rLMlag (p_num2E _ Ho) p_trwE {}/J /p_utwy Ey.
set V := utu_of _ in V0 *; set a := (_ *m (Wnt *m y)) 0 0; set b := p_utwu _ _.
have tR : 0 < t%:R :> R by rewrite ltr0n.
move: (o_sig2 o) (d_t W) V (t%:R : R) a b s0 T0 V0 tR; clear => s T V t a b s0 T0 V0 t0.
have ns : s <> 0 by apply/eqP; rewrite gt_eqF.
have nT : T <> 0 by apply/eqP; rewrite gt_eqF.
have nV : V <> 0 by apply/eqP; rewrite gt_eqF.
have nt : t <> 0 by apply/eqP; rewrite gt_eqF.
have n1 : V + t * T * s <> 0 by apply/eqP; rewrite gt_eqF // addr_gt0 // mulr_gt0 // mulr_gt0.
have n2 : V + T * T * s <> 0 by apply/eqP; rewrite gt_eqF // addr_gt0 // mulr_gt0 // mulr_gt0.
have E : (a / s) ^+ 2 / (V / s + t * T) + (b / s - t * T / ((V + t * T * s) / s) * a / s) ^+ 2 / (t * T * (1 - t * T / ((V + t * T * s) / s))) =
  b ^+ 2 / (s ^+ 2 * t * T) + (a / s - b / s) ^+ 2 / ((V + t * T * s) / s - t * T).
  rewrite !expr2; mfield R; repeat split => //; change (V + t * T * s + - (t * T) * s <> 0); by rewrite mulNr addrK.
split; first exact: E.
rewrite -E; set r := _ / (t * T * _).
have -> : (a / s) ^+ 2 / (V / s + t * T) = a ^+ 2 / (s * (V + t * T * s)).
  rewrite !expr2; clear -ns n1; mfield R; by split.
have -> : a ^+ 2 / (s ^+ 2 * ((V + T * T * s) / s)) = a ^+ 2 / (s * (V + T * T * s)).
  rewrite !expr2; clear -ns n2; mfield R; by split.
split.
- move/addIr => /eqP; have [->|a0] := eqVneq a 0; first by left.
  move=> /eqP H; right.
  have A0 : a ^+ 2 != 0 by rewrite sqrf_eq0.
  move/(mulfI A0)/invr_inj: H => H.
  have S1 : s != 0 by exact/eqP.
  move/(mulfI S1)/addrI/(mulIf S1)/(mulIf (introN eqP nT)): H => //.
- case=> [->|->]; last by [].
  by rewrite !expr2 !mul0r.
Qed.
(** ... and W of T pairs: the weights of the stacked panel have T times the trace, as the cross-section tests would use. *)
Lemma kron_lt t n (p : 'I_t * 'I_n.+1) : (p.1 * n.+1 + p.2 < t * n.+1)%N.
Proof. by case: p => i j /=; rewrite (@leq_trans (i.+1 * n.+1)%N) ?leq_pmul2r // mulSn addnC ltn_add2r. Qed.
Definition kron_ix t n (p : 'I_t * 'I_n.+1) : 'I_(t * n.+1) := Ordinal (kron_lt p).
Lemma kron_ix_bij t n : bijective (@kron_ix t n).
Proof.
apply: inj_card_bij; last by rewrite card_prod !card_ord.
move=> [i j] [i' j'] /(congr1 val) /= E.
have Ej : j = j' by apply: val_inj; rewrite /= -(modn_small (ltn_ord j)) -(modn_small (ltn_ord j')) -(modnMDl i) E modnMDl.
by congr pair => //; apply: val_inj; move: E; rewrite Ej => /eqP; rewrite eqn_add2r eqn_pmul2r // => /eqP.
Qed.
Lemma kron_ixE t n (W : 'M[R]_n.+1) p q : kron_id t W (kron_ix p) (kron_ix q) = if p.1 == q.1 then W p.2 q.2 else 0.
Proof.
case: p q => [i j] [i' j']; rewrite mxE /= !divnMDl // !divn_small // !addn0 !modnMDl !modn_small //.
by rewrite !inord_val -val_eqE.
Qed.
Theorem C43_trace : forall t n (W : 'M[R]_n.+1), d_t (kron_id t W) = t%:R * \tr (W *m W + W^T *m W).
Proof.
move=> t n W; rewrite -d_tE; set K := kron_id t W.
have E m (A : 'M[R]_m) : d_t A = \sum_i \sum_j (A j i + A i j) * A j i.
  by apply: eq_bigr => i _; rewrite mxE; apply: eq_bigr => j _; rewrite !mxE.
rewrite !E (reindex (@kron_ix t n)) /=; last exact: onW_bij (kron_ix_bij t n).
transitivity (\sum_(p : 'I_t * 'I_n.+1) \sum_j (W j p.2 + W p.2 j) * W j p.2).
  apply: eq_bigr => p _; rewrite (reindex (@kron_ix t n)) /=; last exact: onW_bij (kron_ix_bij t n).
  transitivity (\sum_(i < t) \sum_(j < n.+1) (if i == p.1 then (W j p.2 + W p.2 j) * W j p.2 else 0)).
    rewrite pair_bigA /=; apply: eq_bigr => q _; rewrite !kron_ixE eq_sym; case: eqP => _ //; by rewrite mulr0.
  rewrite (bigD1 p.1) //= eqxx -[RHS]addr0; congr (_ + _).
  by apply: big1 => i /negbTE Hi; apply: big1 => j _; rewrite Hi.
rewrite -(pair_bigA _ (fun _ p2 => \sum_j (W j p2 + W p2 j) * W j p2)) /= sumr_const card_ord mulr_natl //.
Qed.

(** C62: with an efficient random effects estimator (the difference of the covariance matrices, fixed minus random effects, is positive definite)
    the reported Hausman statistic is minus the textbook one: never positive, and negative whenever the coefficients differ. *)
Theorem C62_hausman_refuted : forall k (d : 'cV[R]_k) (v_fe v_re : 'M[R]_k), pd (v_fe - v_re) ->
  exists h, [/\ panel_Hausman d v_fe v_re = Some h, h = - (d^T *m invmx (v_fe - v_re) *m d) 0 0, h <= 0 & d != 0 -> h < 0].
Proof.
move=> k d v_fe v_re P; have U := pd_unit P; have Pi := pd_inv P.
have E : v_re - v_fe = (-1) *: (v_fe - v_re) by rewrite scaleN1r opprB.
have U1 : v_re - v_fe \in unitmx by rewrite E unitmxZ // unitrN1.
have EI : invmx (v_re - v_fe) = - invmx (v_fe - v_re) by rewrite E invmxZ ?unitmxZ ?unitrN1 // invrN1 scaleN1r.
exists (- (d^T *m invmx (v_fe - v_re) *m d) 0 0); split => //.
- rewrite /panel_Hausman (la_inv_unit U1) EI mulNmx mulmxN mulmxA; congr Some; by rewrite mxE.
- rewrite oppr_le0; have [->|N] := eqVneq d 0; first by rewrite mulmx0 mxE.
  exact: ltW (proj2 Pi _ N).
- by move=> N; rewrite oppr_lt0; exact: (proj2 Pi).
Qed.

(** C63: the common factor test.  G is the gradient of rho beta + gamma (the remainder is the product of the two increments); with a positive
    definite vm the test is always defined, non-negative, and zero exactly when gamma = - rho beta. *)
Theorem C63_comfac : forall k (rho : R) (beta gamma : 'cV[R]_k) (vm : 'M[R]_(k + (k + 1))), pd vm ->
  exists G : 'M[R]_(k + (k + 1), k),
  [/\ forall (hb hg : 'cV[R]_k) (hr : R),
        (rho + hr) *: (beta + hb) + (gamma + hg) = (rho *: beta + gamma) + G^T *m col_mx hb (col_mx hg hr%:M) + hr *: hb
    & exists w, [/\ comfac_test rho beta gamma vm = Some (w, k),
        w = ((rho *: beta + gamma)^T *m invmx (G^T *m vm *m G) *m (rho *: beta + gamma)) 0 0, 0 <= w & w = 0 <-> gamma = - rho *: beta]].
Proof.
move=> k rho beta gamma vm P; pose G : 'M[R]_(k + (k + 1), k) := col_mx (rho *: 1%:M) (col_mx 1%:M beta^T); exists G; split.
- move=> hb hg hr; rewrite /G !tr_col_mx trmxK trmx1 trZ trmx1 !mul_row_col mul1mx -scalemxAl mul1mx mul_mx_scalar.
  apply/matrixP => i j; rewrite !mxE; move: (beta i j) (hb i j) (gamma i j) (hg i j) => a b c d; mring R.
- have PG : pd (G^T *m (vm *m G)).
    have := @rvr_pd R (k + (k + 1)) k G^T vm P; rewrite trmxK; apply=> c.
    by rewrite /G !mul_col_mx mul1mx => /eqP; rewrite !col_mx_eq0 => /andP [_ /andP [/eqP]].
  have UG := pd_unit PG; have [_ Pi] := pd_inv PG.
  exists (((rho *: beta + gamma)^T *m invmx (G^T *m vm *m G) *m (rho *: beta + gamma)) 0 0); rewrite -(mulmxA G^T vm G).
  split => //.
  + by rewrite /comfac_test -/G (la_inv_unit UG) !mulmxA.
  + by have [->|N] := eqVneq (rho *: beta + gamma) 0; [rewrite mulmx0 mxE|exact: ltW (Pi _ N)].
  + split=> [H|->]; last by rewrite scaleNr subrr mulmx0 mxE.
    apply/eqP; rewrite -subr_eq0 scaleNr opprK addrC; apply/negPn/negP => /Pi; by rewrite H ltxx.
Qed.
End T.
