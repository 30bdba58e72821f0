(** C78: the F test on a block of coefficients and the Durbin-Wu-Hausman test; C79: Jarque-Bera. *)
From Coq Require Import Ring Field.
From mathcomp Require Import all_ssreflect all_algebra.
From Verif Require Import Mring LinRegModel LinRegProofs LinRegProofs2 LinRegProofs3 LinRegTheorems DiagModel DiagProofs.
Set Implicit Arguments.
Unset Strict Implicit.
Unset Printing Implicit Defensive.
Import Order.TTheory GRing.Theory Num.Theory.
Local Open Scope ring_scope.

Section F.
Variables (R : realFieldType) (n k d : nat).
Lemma nested (y : 'cV[R]_n) (x0 : 'M[R]_(n, k)) (x1 : 'M[R]_(n, d)) rb g s o rb0 g0 s0 o0 :
  base_ols y (row_mx x0 x1) rb g s = Some o -> base_ols y x0 rb0 g0 s0 = Some o0 ->
  let h := o_betas o - col_mx (o_betas o0) 0 in
  [/\ o_u o0 = o_u o + row_mx x0 x1 *m h,
      utu_of (o_u o0) - utu_of (o_u o) = utu_of (row_mx x0 x1 *m h) &
      (row_mx x0 x1)^T *m (row_mx x0 x1) *m h = col_mx 0 (x1^T *m o_u o0)].
Proof.
move=> E E0 h; have [_ _ Ep Eu _] := ols_fields E; have [_ _ Ep0 Eu0 _] := ols_fields E0.
have U : o_u o0 = o_u o + row_mx x0 x1 *m h.
{ by rewrite Eu0 Eu Ep Ep0 /h mulmxBr mul_row_col mulmx0 addr0 addrA subrK. }
split=> //.
- by rewrite U utuD mulmxA -[(o_u o)^T *m _]trmxK trmx_mul trmxK (ols_orth E) trmx0 mul0mx mxE mul0rn addr0 addrAC subrr add0r.
- rewrite -mulmxA; have -> : row_mx x0 x1 *m h = o_u o0 - o_u o by rewrite U [RHS]addrC addKr.
  by rewrite mulmxBr (ols_orth E) subr0 tr_row_mx mul_col_mx (ols_orth E0).
Qed.
End F.

(** the F statistic of the last d coefficients times d is the Wald statistic of the hypothesis that they are zero *)
Theorem C78_f_is_wald : forall (R : realFieldType) n k d (y : 'cV[R]_n) (x0 : 'M[R]_(n, k)) (x1 : 'M[R]_(n, d)) o f,
  (0 < d)%N -> (k + d < n)%N -> base_ols y (row_mx x0 x1) RobNone None true = Some o -> o_u o != 0 ->
  f_stat_last y x0 x1 = Some f ->
  wald_w (o_betas o) (row_mx 0 1%:M) 0 (o_vm o) = Some (d%:R * f).
Proof.
move=> R n k d y x0 x1 o f d0 kn E u0; rewrite /f_stat_last E; case E0: (base_ols y x0 _ _ _) => [o0|//] [<-].
have [_ UE GE] := nested E E0; rewrite UE; move: GE; set h := _ - _; set X := row_mx x0 x1 in E UE *; pose G := X^T *m X; rewrite -/G => GE; pose Rm : 'M[R]_(d, k + d) := row_mx 0 1%:M.
have UG : G \in unitmx := ols_gram E.
set s := x1^T *m o_u o0 in GE.
have nk : 0 < n%:R - (k + d)%:R :> R by rewrite subr_gt0 ltr_nat.
have uu : utu_of (o_u o) != 0 by rewrite utu_eq0.
have sg : o_sig2 o = utu_of (o_u o) / (n%:R - (k + d)%:R) by move: E; rewrite /base_ols /la_inv UG => -[<-].
have vE : o_vm o = o_sig2 o *: invmx G by move: E; rewrite /base_ols /la_inv UG => -[<-].
have s0 : o_sig2 o != 0 by rewrite sg mulf_neq0 // invr_eq0 gt_eqF.
pose V := Rm *m (invmx G *m Rm^T).
have RT : Rm^T = col_mx 0 1%:M by rewrite /Rm tr_row_mx trmx0 trmx1.
have UV : V \in unitmx.
{ apply: pd_unit; apply: rvr_pd; first by apply/pd_inv/gram_pd.
  by move=> c; rewrite RT mul_col_mx mul0mx mul1mx -[X in _ = X]col_mx0 => /eq_col_mx[]. }
have hE : h = invmx G *m (Rm^T *m s) by rewrite RT mul_col_mx mul0mx mul1mx -GE mulKmx.
have bE : Rm *m o_betas o = V *m s.
{ have -> : Rm *m o_betas o = Rm *m h by rewrite /h mulmxBr /Rm mul_row_col mul0mx mul1mx add0r subr0.
  by rewrite hE /V !mulmxA. }
have QE : utu_of (X *m h) = (s^T *m V *m s) 0 0.
{ rewrite utuE trmx_mul -[LHS]/((h^T *m X^T *m (X *m h)) 0 0) -[h^T *m X^T *m _]mulmxA.
 rewrite [X^T *m _]mulmxA -/G {2}hE mulKVmx // hE trmx_mul trmx_mul trmxK trmx_inv /G gram_sym -/G.
  by rewrite /V -!mulmxA. }
rewrite /wald_w -/Rm vE -scalemxAl -scalemxAr -/V subr0.
have US : o_sig2 o *: V \in unitmx by rewrite unitmxZ // unitfE.
rewrite la_inv_unit //; congr Some.
rewrite bE trmx_mul invmxZ // -scalemxAl mulKmx // -scalemxAr mxE.
have VS : V^T = V by rewrite /V !trmx_mul trmxK trmx_inv /G gram_sym -/G mulmxA.
rewrite VS QE sg; set q := (_ *m s) 0 0; rewrite invfM invrK.
have dn : d%:R != 0 :> R by rewrite pnatr_eq0 -lt0n.
by rewrite [RHS]mulrA [d%:R * _]mulrC divfK // mulrC.
Qed.

Section Dwh.
Variables (R : realFieldType) (n k ny q : nat).
Implicit Types (x : 'M[R]_(n, k)) (yend : 'M[R]_(n, ny)) (h : 'M[R]_(n, q)).
(** projection on the instruments *)
Definition fitted h yend : 'M[R]_(n, ny) := h *m (invmx (h^T *m h) *m (h^T *m yend)).
Lemma dwhE x yend h y : (0 < ny)%N -> dwh x yend h y = if h^T *m h \in unitmx then f_stat_last y (row_mx x yend) (fitted h yend) else None.
Proof.
move=> n0; rewrite /dwh; case: ifP => [/forallP H|/negbT].
- have U : h^T *m h \in unitmx.
  { have := H (Ordinal n0); case E: (base_ols _ _ _ _ _) => [o|//] _; exact: ols_gram E. }
  rewrite U; congr (f_stat_last _ _ _); apply/matrixP => a i; rewrite mxE ols_Some //=.
  have -> : fitted h yend a i = col i (fitted h yend) a 0 by rewrite [RHS]mxE.
  by rewrite /fitted !colE !mulmxA.
- rewrite negb_forall => /existsP[i]; case: ifP => // U; by rewrite ols_Some.
Qed.
End Dwh.

(** replacing the predicted values by the first-stage residuals gives the same test *)
Theorem C78_dwh_residual_form : forall (R : realFieldType) n k ny q (x : 'M[R]_(n, k)) (yend : 'M[R]_(n, ny)) (h : 'M[R]_(n, q)) (y : 'cV[R]_n),
  (0 < ny)%N -> h^T *m h \in unitmx ->
  dwh x yend h y = f_stat_last y (row_mx x yend) (yend - h *m (invmx (h^T *m h) *m (h^T *m yend))).
Proof.
move=> R n k ny q x yend h y n0 U; rewrite dwhE // U -/(fitted h yend); set p := fitted h yend; set z := row_mx x yend.
pose A : 'M[R]_(k + ny + ny) := block_mx 1%:M (col_mx 0 1%:M) 0 (- 1%:M).
have zE : row_mx z (yend - p) = row_mx z p *m A.
{ rewrite /A mul_row_block mulmx1 mulmx0 addr0 mul_row_col mulmx0 add0r mulmx1 mulmxN mulmx1. by []. }
have AA : A *m A = 1%:M.
{ rewrite /A mulmx_block !mulmx0 !mul0mx !mulmx1 !addr0 ?mul1mx mulmxN mulmx1 subrr mulNmx mul1mx opprK add0r -scalar_mx_block. by []. }
have UA : A \in unitmx by case/mulmx1_unit: AA.
rewrite /f_stat_last zE; case E: (base_ols y (row_mx z p) _ _ _) => [o|].
- by have [o' -> [_ _ -> _ _]] := ols_recomb UA E.
- case E': (base_ols y (row_mx z p *m A) _ _ _) => [o'|//].
  have := ols_recomb UA E'; rewrite -mulmxA AA mulmx1 E => -[]. by [].
Qed.

(** in that regression the coefficients of the original regressors are the two-stage least-squares estimates *)
Theorem C78_dwh_control_function : forall (R : realFieldType) n k ny q (x : 'M[R]_(n, k)) (yend : 'M[R]_(n, ny)) (h : 'M[R]_(n, q)) (y : 'cV[R]_n)
    (a : 'M[R]_(q, k)) rb g s o rb' g' s' t,
  x = h *m a ->
  base_ols y (row_mx (row_mx x yend) (yend - h *m (invmx (h^T *m h) *m (h^T *m yend)))) rb g s = Some o ->
  base_tsls y (row_mx x yend) h rb' g' s' = Some t ->
  usubmx (o_betas o) = t_betas t.
Proof.
move=> R n k ny q x yend h y a rb g s o rb' g' s' t xE E T; rewrite -/(fitted h yend) in E *.
have [U UF Ev Eb _] := tsls_fields T.
set z := row_mx x yend in E T UF Ev Eb *; set v := yend - fitted h yend in E *.
pose P := h *m invmx (h^T *m h) *m h^T.
have Ph : P *m h = h by rewrite /P -!mulmxA mulVmx // mulmx1.
have PT : P^T = P by rewrite /P !trmx_mul trmxK trmx_inv gram_sym mulmxA.
have Pv : P *m v = 0.
{ rewrite /v mulmxBr /fitted mulmxA Ph /P !mulmxA subrr. by []. }
have Pz : P *m z = z - row_mx 0 v.
{ rewrite /z mul_mx_row {1}xE mulmxA Ph -xE opp_row_mx oppr0 add_row_mx addr0; congr row_mx.
  by rewrite /v opprB addrCA subrr addr0 /fitted /P !mulmxA. }
have [_ _ Ep Eu _] := ols_fields E; have := ols_orth E; rewrite tr_row_mx mul_col_mx -[0]col_mx0 => /eq_col_mx[oz ov].
have Pzu : z^T *m P *m o_u o = 0.
{ have -> : z^T *m P = (P *m z)^T by rewrite trmx_mul PT.
  by rewrite Pz linearB /= tr_row_mx trmx0 mulmxBl oz mul_col_mx mul0mx ov col_mx0 subr0. }
have FE : z^T *m h *m invmx (h^T *m h) *m (z^T *m h)^T = z^T *m P *m z by rewrite trmx_mul trmxK /P !mulmxA.
set b := usubmx _; rewrite Eb Ev FE.
have : z^T *m P *m (y - z *m b) = 0.
{ rewrite -[RHS]Pzu Eu Ep -[o_betas o]vsubmxK mul_row_col -/b opprD addrA [in RHS]mulmxBr -[z^T *m P *m (v *m _)]mulmxA [P *m (v *m _)]mulmxA Pv mul0mx mulmx0 subr0. by []. }
rewrite mulmxBr => /eqP; rewrite subr_eq0 => /eqP H.
rewrite FE in UF; apply: (can_inj (mulKmx UF)); rewrite -[_ *m _ *m (h^T *m y)]mulmxA mulKVmx // -[LHS]mulmxA -H /P !mulmxA. by [].
Qed.

(** with fewer instruments than regressors (order condition violated) the augmented regression is singular: no value is returned *)
Theorem C78_dwh_order_condition : forall (R : realFieldType) n k ny q (x : 'M[R]_(n, k)) (yend : 'M[R]_(n, ny)) (h : 'M[R]_(n, q)) (y : 'cV[R]_n) (a : 'M[R]_(q, k)),
  (0 < ny)%N -> x = h *m a -> (q < k + ny)%N -> dwh x yend h y = None.
Proof.
move=> R n k ny q x yend h y a n0 xE lt; rewrite dwhE //; case: ifP => // U; rewrite /f_stat_last.
case E: (base_ols _ _ _ _ _) => [o|//]; exfalso; have /gram_unit G := ols_gram E.
have V : (row_mx x (fitted h yend))^T *m row_mx x (fitted h yend) \in unitmx.
{ apply/gram_unit => c; rewrite -[c]vsubmxK mul_row_col => H.
  have := G (col_mx (col_mx (usubmx c) 0) (dsubmx c)); rewrite !mul_row_col mulmx0 addr0 => /(_ H)/eqP.
  by rewrite !col_mx_eq0 => /andP[/andP[/eqP -> _] /eqP ->]; rewrite col_mx0. }
have := gram_rank V; rewrite xE /fitted -mul_mx_row => r; have := mxrankM_maxl h (row_mx a (invmx (h^T *m h) *m (h^T *m yend))).
rewrite r => /leq_trans/(_ (rank_leq_col h)); by rewrite leqNgt lt.
Qed.

(** only the space spanned by the instruments matters *)
Theorem C78_dwh_instruments : forall (R : realFieldType) n k ny q (x : 'M[R]_(n, k)) (yend : 'M[R]_(n, ny)) (h : 'M[R]_(n, q)) (y : 'cV[R]_n) (B : 'M[R]_q),
  (0 < ny)%N -> B \in unitmx -> dwh x yend (h *m B) y = dwh x yend h y.
Proof.
move=> R n k ny q x yend h y B n0 UB.
rewrite (dwhE x yend h y n0) (dwhE x yend (h *m B) y n0) gram_recomb.
have -> : (B^T *m (h^T *m h) *m B \in unitmx) = (h^T *m h \in unitmx) by rewrite !unitmx_mul unitmx_tr UB andbT.
have [U|U] := boolP (h^T *m h \in unitmx); last by [].
suff -> : fitted (h *m B) yend = fitted h yend by [].
have Hi : invmx (B^T *m (h^T *m h) *m B) = invmx B *m (invmx (h^T *m h) *m invmx B^T).
{ by rewrite invmxM ?unitmx_mul ?unitmx_tr ?UB ?U // invmxM ?unitmx_tr. }
rewrite /fitted gram_recomb Hi [(h *m B)^T]trmx_mul -[h *m B *m _]mulmxA; congr (h *m _).
rewrite -!mulmxA mulKVmx //; congr (_ *m _); by rewrite mulKmx // unitmx_tr.
Qed.

(** non-vacuity: four observations, a constant, one endogenous variable, one excluded instrument *)
Section Example.
Let one : 'cV[rat]_4 := const_mx 1.
Let e (s : seq rat) : 'cV[rat]_4 := \col_i nth 0 s i.
Let yend := e [:: 0; 2%:R; 0; 0].
Let h : 'M[rat]_(4, (1 + 1)%N) := row_mx one (e [:: 0; 0; 1; 1]).
Let y := e [:: 0; 0; 0; 1].
Let p := e [:: 1; 1; 0; 0].
Lemma ex_col (a : 'cV[rat]_4) (v : 'cV[rat]_1) i : (a *m v) i 0 = a i 0 * v 0 0.
Proof. by rewrite mxE big_ord1. Qed.
Lemma ex_row3 (a b c : 'cV[rat]_4) (v1 v2 v3 : 'cV[rat]_1) : row_mx (row_mx a b) c *m col_mx (col_mx v1 v2) v3 = 0 ->
  forall i, a i 0 * v1 0 0 + b i 0 * v2 0 0 + c i 0 * v3 0 0 = 0.
Proof. by rewrite !mul_row_col => /colP H i; have := H i; rewrite mxE mxE !ex_col [RHS]mxE. Qed.
Lemma ex_row2 (a b : 'cV[rat]_4) (v1 v2 : 'cV[rat]_1) : row_mx a b *m col_mx v1 v2 = 0 ->
  forall i, a i 0 * v1 0 0 + b i 0 * v2 0 0 = 0.
Proof. by rewrite !mul_row_col => /colP H i; have := H i; rewrite mxE !ex_col [RHS]mxE. Qed.
Lemma ex_z (v : 'cV[rat]_1) : v 0 0 = 0 -> v = 0.
Proof. by move=> H; apply/matrixP => i j; rewrite !ord1 H mxE. Qed.
Lemma ex_h : h^T *m h \in unitmx.
Proof.
apply/gram_unit => v; rewrite -[v](@vsubmxK _ 1%N 1%N); move: (usubmx v) (dsubmx v) => v1 v2 {v} /ex_row2 H; have := H 0; have := H (Ordinal (isT : 2 < 4)%N); rewrite !mxE /= !mul1r !mul0r !addr0 => H2 H0.
by rewrite H0 add0r in H2; rewrite (ex_z H0) (ex_z H2) col_mx0.
Qed.
Lemma ex_fit : fitted h yend = p.
Proof.
have hp : h *m (col_mx 1%:M (- 1%:M)) = p.
{ rewrite mul_row_col mulmxN !mulmx1; apply/colP => i; rewrite !mxE; case: i => [[|[|[|[|m]]]] Hm] //=; rewrite ?subr0 ?subrr //. }
have hd : h^T *m (yend - p) = 0.
{ rewrite tr_row_mx mul_col_mx; apply/eqP; rewrite col_mx_eq0; apply/andP; split; apply/eqP/matrixP => a b; rewrite !mxE !big_ord_recl big_ord0 !mxE /= ?mul1r ?mul0r ?sub0r ?subrr ?addr0 ?add0r ?oppr0 ?mulr0 //. }
by rewrite -[yend](subrK p) /fitted mulmxDr hd add0r -hp [h^T *m (h *m _)]mulmxA mulKmx ?ex_h.
Qed.
Lemma ex_aug : (row_mx (row_mx one yend) p)^T *m row_mx (row_mx one yend) p \in unitmx.
Proof.
apply/gram_unit => v; rewrite -[v](@vsubmxK _ (1 + 1)%N 1%N) -[usubmx v](@vsubmxK _ 1%N 1%N); move: (usubmx (usubmx v)) (dsubmx (usubmx v)) (dsubmx v) => v1 v2 v3 {v} /ex_row3 H.
have := H (Ordinal (isT : 2 < 4)%N); have := H 0; have := H (Ordinal (isT : 1 < 4)%N); rewrite !mxE /= !mul1r !mul0r !addr0 => H1 V2 H2.
rewrite H2 add0r in V2; rewrite V2 H2 addr0 add0r in H1.
have {}H1 : v2 0 0 = 0 by move/eqP: H1; rewrite mulf_eq0 pnatr_eq0 /= => /eqP.
by rewrite (ex_z H1) (ex_z H2) (ex_z V2) !col_mx0.
Qed.
Example C78_example : exists f, dwh one yend h y = Some f.
Proof.
rewrite dwhE // ex_h ex_fit /f_stat_last ols_Some ?ex_aug //.
have U : (row_mx one yend)^T *m row_mx one yend \in unitmx.
{ apply/gram_unit => v; rewrite -[v](@vsubmxK _ 1%N 1%N); move: (usubmx v) (dsubmx v) => v1 v2 {v} /ex_row2 H; have := H (Ordinal (isT : 2 < 4)%N); have := H (Ordinal (isT : 1 < 4)%N); rewrite !mxE /= !mul1r !mul0r !addr0 => H1 H2.
  rewrite H2 add0r in H1; have {}H1 : v2 0 0 = 0 by move/eqP: H1; rewrite mulf_eq0 pnatr_eq0 /= => /eqP.
  by rewrite (ex_z H1) (ex_z H2) !col_mx0. }
rewrite ols_Some //; by eexists.
Qed.
End Example.

Section Ident.
Variable F : realFieldType.
Add Field FfD : (@p_ft F).
Lemma sq_id (v a m : F) : (v ^+ 2 - a * v - m) ^+ 2 = v ^+ 4 + (- (2%:R * a)) * v ^+ 3 + (a ^+ 2 - 2%:R * m) * v ^+ 2 + 2%:R * a * m * v + m ^+ 2.
Proof. rewrite -[2%:R]/(1 + 1) !exprS !expr0; mring F. Qed.
Lemma sq_id0 (b c d : F) : b - 2%:R * 0 * c + (0 ^+ 2 - 2%:R * d) * d + d ^+ 2 = b - d ^+ 2.
Proof. rewrite -[2%:R]/(1 + 1) !exprS !expr0; mring F. Qed.
Lemma sq_id1 (b c d : F) : d != 0 -> b - 2%:R * (c / d) * c + ((c / d) ^+ 2 - 2%:R * d) * d + d ^+ 2 = (b / d ^+ 2 - (1 + c ^+ 2 / d ^+ 3)) * d ^+ 2.
Proof. move=> /eqP d0; rewrite -[2%:R]/(1 + 1) !exprS !expr0; by mfield F. Qed.
Lemma sq_id2 (S4 S3 S2 S1 N a m : F) : N != 0 -> a * S1 = 0 ->
  S4 / N - 2%:R * a * (S3 / N) + (a ^+ 2 - 2%:R * m) * (S2 / N) + m ^+ 2 =
  (S4 + (- (2%:R * a)) * S3 + (a ^+ 2 - 2%:R * m) * S2 + 2%:R * a * m * S1 + m ^+ 2 * N) / N.
Proof.
move=> /eqP N0 aS; have -> : 2%:R * a * m * S1 = 0 by rewrite -mulrA [m * S1]mulrC mulrA -[2%:R * a * S1]mulrA aS mulr0 mul0r.
rewrite -[2%:R]/(1 + 1) !exprS !expr0; by mfield F.
Qed.
Lemma sq_sum n (v : 'I_n -> F) a m : \sum_i (v i ^+ 2 - a * v i - m) ^+ 2 =
  \sum_i v i ^+ 4 + (- (2%:R * a)) * (\sum_i v i ^+ 3) + (a ^+ 2 - 2%:R * m) * (\sum_i v i ^+ 2) + 2%:R * a * m * (\sum_i v i) + m ^+ 2 * n%:R.
Proof. under eq_bigr do rewrite sq_id.
move: (2%:R : F) => t; rewrite !big_split /=.
by rewrite sumr_const card_ord -[in LHS]mulr_natr !mulr_sumr. Qed.
End Ident.

Section Jb.
Variables (R : rcfType) (n : nat).
Implicit Types (u : 'cV[R]_n).
Lemma moment_scale p a u : moment_u p (a *: u) = a ^+ p * moment_u p u.
Proof. rewrite /moment_u mulrA mulr_sumr; congr (_ / _); apply: eq_bigr => i _; by rewrite mxE exprMn. Qed.
Lemma m2_gt0 u : u != 0 -> 0 < moment_u 2 u.
Proof.
move=> u0; have n0 : (0 < n)%N.
{ case: (posnP n) => // n0; case/eqP: u0; apply/colP => i; by have := ltn_ord i; rewrite {2}n0. }
apply: divr_gt0; last by rewrite ltr0n.
by rewrite -/(utu_of u) lt_neqAle utu_ge0 andbT eq_sym utu_eq0.
Qed.
End Jb.

(** non-negative, chi-squared with two degrees of freedom, zero exactly for zero skewness and kurtosis three *)
Theorem C79_jarque_bera : forall (R : rcfType) n (u : 'cV[R]_n), (0 < n)%N ->
  [/\ 0 <= (jarque_bera u).1, (jarque_bera u).2 = 2%N & (jarque_bera u).1 = 0 <-> jb_S u = 0 /\ jb_K u = 3%:R].
Proof.
move=> R n u n0; rewrite /jarque_bera /=.
have s1 : 0 <= jb_S u ^+ 2 / 6%:R by rewrite divr_ge0 ?sqr_ge0 ?ler0n.
have s2 : 0 <= (jb_K u - 3%:R) ^+ 2 / 24%:R by rewrite divr_ge0 ?sqr_ge0 ?ler0n.
split=> //; first by rewrite mulr_ge0 ?ler0n // addr_ge0.
split=> [/eqP|[-> ->]]; last by rewrite subrr !expr0n /= !mul0r addr0 mulr0.
rewrite mulf_eq0 pnatr_eq0 -[n == 0%N]negbK -lt0n n0 /= paddr_eq0 // => /andP[].
rewrite mulf_eq0 invr_eq0 pnatr_eq0 orbF sqrf_eq0 => /eqP ->; rewrite mulf_eq0 invr_eq0 pnatr_eq0 orbF sqrf_eq0 subr_eq0 => /eqP ->.
by [].
Qed.

(** the unit and the sign of the residuals do not matter *)
Theorem C79_scale : forall (R : rcfType) n (u : 'cV[R]_n) a, a != 0 ->
  [/\ jarque_bera (a *: u) = jarque_bera u, jb_K (a *: u) = jb_K u & jb_S (a *: u) = Num.sg a * jb_S u].
Proof.
move=> R n u a a0.
have KE : jb_K (a *: u) = jb_K u.
{ rewrite /jb_K !moment_scale exprMn -exprM invfM mulrACA mulfV ?expf_neq0 // mul1r. by []. }
have SE : jb_S (a *: u) = Num.sg a * jb_S u.
{ rewrite /jb_S !moment_scale sqrtrM ?sqr_ge0 // sqrtr_sqr.
  have -> : a ^+ 2 * moment_u 2 u * (`|a| * Num.sqrt (moment_u 2 u)) = a ^+ 2 * `|a| * (moment_u 2 u * Num.sqrt (moment_u 2 u)) by rewrite mulrACA.
  rewrite invfM mulrACA; congr (_ * _).
  have na : a ^+ 2 * `|a| != 0 by rewrite mulf_neq0 ?normr_eq0 ?expf_neq0.
  have -> : a ^+ 3 = Num.sg a * (a ^+ 2 * `|a|) by rewrite exprS {1}[a]numEsg -mulrA [`|a| * _]mulrC.
  by rewrite mulfK. }
split=> //; rewrite /jarque_bera KE SE exprMn; congr (_ * (_ / _ + _), _).
by rewrite sqr_sg a0 mul1r.
Qed.

(** bounds on the moments: kurtosis at least one; with residuals that sum to zero (a constant among the regressors), at least one plus
    the squared skewness *)
Theorem C79_moments : forall (R : rcfType) n (u : 'cV[R]_n), u != 0 ->
  1 <= jb_K u /\ (\sum_i u i 0 = 0 -> 1 + jb_S u ^+ 2 <= jb_K u).
Proof.
move=> R n u u0; have m0 := m2_gt0 u0.
have n0 : (0 < n)%N.
{ case: (posnP n) => // n0; case/eqP: u0; apply/colP => i; by have := ltn_ord i; rewrite {2}n0. }
have nn : n%:R != 0 :> R by rewrite pnatr_eq0 -lt0n.
set m2 := moment_u 2 u in m0 *; pose m1 := moment_u 1 u; pose m3 := moment_u 3 u; pose m4 := moment_u 4 u.
have gen a : m1 = 0 \/ a = 0 -> 0 <= m4 - 2%:R * a * m3 + (a ^+ 2 - 2%:R * m2) * m2 + m2 ^+ 2.
{ move=> H; have aS : a * (\sum_i u i 0) = 0.
  { case: H => [|->]; last by rewrite mul0r.
    rewrite /m1 /moment_u => /eqP; rewrite mulf_eq0 invr_eq0 (negbTE nn) orbF => /eqP H; rewrite -[RHS](mulr0 a) -[in RHS]H.
    by congr (_ * _); apply: eq_bigr => i _; rewrite expr1. }
  rewrite (sq_id2 _ _ _ _ nn aS) -sq_sum; by rewrite divr_ge0 ?ler0n // sumr_ge0 // => i _; exact: sqr_ge0. }
have KE : jb_K u = m4 / m2 ^+ 2 by [].
have m22 : 0 < m2 ^+ 2 by rewrite exprn_gt0.
split.
- rewrite KE ler_pdivl_mulr // mul1r -subr_ge0; have := gen 0 (or_intror erefl).
  by rewrite sq_id0.
- move=> s0; have z1 : m1 = 0 by rewrite /m1 /moment_u; under eq_bigr do rewrite expr1; rewrite s0 mul0r.
  have SE : jb_S u ^+ 2 = m3 ^+ 2 / m2 ^+ 3.
  { rewrite /jb_S -/m2 -/m3 expr_div_n [(m2 * _) ^+ 2]exprMn [Num.sqrt m2 ^+ 2]sqr_sqrtr ?(ltW m0) -?exprSr //. }
  have := gen (m3 / m2) (or_introl z1).
  have -> : m4 - 2%:R * (m3 / m2) * m3 + ((m3 / m2) ^+ 2 - 2%:R * m2) * m2 + m2 ^+ 2 = (m4 / m2 ^+ 2 - (1 + m3 ^+ 2 / m2 ^+ 3)) * m2 ^+ 2.
  { apply: sq_id1; by rewrite gt_eqF. }
  by rewrite pmulr_lge0 // subr_ge0 SE KE.
Qed.
