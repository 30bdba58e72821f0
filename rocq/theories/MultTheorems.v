(** C50: spatial multipliers. *)
From Coq Require Import Strings.String.
From mathcomp Require Import all_ssreflect all_algebra.
From Verif Require Import LinRegModel LinRegProofs MultModel.
Set Implicit Arguments.
Unset Strict Implicit.
Unset Printing Implicit Defensive.
Import Order.TTheory GRing.Theory Num.Theory.
Local Open Scope ring_scope.

(** ** Specification *)
Section Spec.
Variables (R : realFieldType) (n : nat).
(** W to the power j *)
Fixpoint mpw (W : 'M[R]_n) (j : nat) : 'M[R]_n := if j is j'.+1 then mpw W j' *m W else 1%:M.
Definition nonneg (A : 'M[R]_n) : Prop := forall i j, 0 <= A i j.
Definition row_std (A : 'M[R]_n) : Prop := forall i, \sum_j A i j = 1.
Definition avg_diag (A : 'M[R]_n) : R := (\sum_i A i i) / n%:R.
Definition avg_rowsum (A : 'M[R]_n) : R := (\sum_i \sum_j A i j) / n%:R.
(** the j-th term of the series of the average direct effect *)
Definition series_term (W : 'M[R]_n) (rho : R) (j : nat) : R := rho ^+ j * \tr (mpw W j) / n%:R.
Definition reduced (W : 'M[R]_n) (rho : R) : 'M[R]_n := invmx (1%:M - rho *: W).
End Spec.

Section Basics.
Variables (R : realFieldType) (n : nat).
Implicit Types (W A : 'M[R]_n).
Lemma mpw_comm W j : W *m mpw W j = mpw W j *m W.
Proof. by elim: j => [|j IH] /=; rewrite ?mulmx1 ?mul1mx // mulmxA IH. Qed.
Lemma mpwD W i j : mpw W (i + j) = mpw W i *m mpw W j.
Proof. by elim: j => [|j IH]; rewrite ?addn0 ?mulmx1 //= addnS /= IH mulmxA. Qed.
Lemma rows1E A : row_std A <-> A *m (const_mx 1 : 'cV[R]_n) = const_mx 1.
Proof.
split=> H; first by apply/matrixP => i j; rewrite !mxE -[RHS](H i); apply: eq_bigr => l _; rewrite !mxE mulr1.
move=> i; move/matrixP/(_ i 0): H; rewrite !mxE => E; rewrite -[RHS]E; by apply: eq_bigr => l _; rewrite !mxE mulr1.
Qed.
Lemma mpw_std W j : row_std W -> row_std (mpw W j).
Proof. move/rows1E=> H; apply/rows1E; elim: j => [|j IH] /=; first by rewrite mul1mx. by rewrite -mulmxA H. Qed.
Lemma mpw_nn W j : nonneg W -> nonneg (mpw W j).
Proof.
move=> H; elim: j => [|j IH] i k /=; first by rewrite mxE ler0n.
by rewrite mxE; apply: sumr_ge0 => l _; apply: mulr_ge0.
Qed.
End Basics.

Section C50a.
Variable R : realFieldType.

(** ** C50_adds: for every method, weights and coefficient, the three multipliers add up *)
Theorem C50_adds : forall n (W : 'M[R]_n) rho method mtol fuel m, spmultiplier W rho method mtol fuel = MOk m ->
  m_ati m = m_adi m + m_aii m.
Proof.
move=> n W rho method mtol fuel m; rewrite /spmultiplier.
case: (String.eqb _ _); first by case=> <- /=; rewrite [RHS]addrC subrK.
case: (String.eqb _ _).
  by case: (la_inv _) => [i|] //; case=> <- /=; rewrite [RHS]addrC subrK.
case: (String.eqb _ _).
  by case: (pow_loop _ _ _ _ _ _ _ _ _) => [[a p]|] //; case=> <- /=; rewrite [RHS]addrC subrK.
by case=> <- /=; rewrite [RHS]addrC subrK.
Qed.

(** ** C50_method: which method was used, and the warning *)
Theorem C50_method : forall n (W : 'M[R]_n) rho method mtol fuel m, spmultiplier W rho method mtol fuel = MOk m ->
  (method = "simple" \/ method = "full" \/ method = "power")%string /\ m_method m = method /\ m_warn m = false \/
  ~ (method = "simple" \/ method = "full" \/ method = "power")%string /\ m_method m = "simple"%string /\ m_warn m = true /\ m_adi m = 1.
Proof.
move=> n W rho method mtol fuel m; rewrite /spmultiplier.
case: (String.eqb_spec method "simple") => [->|h1]; first by case=> <- /=; left; intuition.
case: (String.eqb_spec method "full") => [->|h2].
  by case: (la_inv _) => [i|] //; case=> <- /=; left; intuition.
case: (String.eqb_spec method "power") => [->|h3].
  by case: (pow_loop _ _ _ _ _ _ _ _ _) => [[a p]|] //; case=> <- /=; left; intuition.
by case=> <- /=; right; intuition.
Qed.

(** ** C50_full: the direct multiplier is the average diagonal entry of the inverse; a singular matrix raises *)
Theorem C50_full : forall n (W : 'M[R]_n) rho mtol fuel,
  (1%:M - rho *: W \in unitmx -> exists2 m, spmultiplier W rho "full" mtol fuel = MOk m & m_adi m = avg_diag (reduced W rho)) /\
  (1%:M - rho *: W \notin unitmx -> spmultiplier W rho "full" mtol fuel = MRaise).
Proof.
move=> n W rho mtol fuel; rewrite /spmultiplier /= /la_inv; split=> U; last by rewrite (negbTE U).
by rewrite U; eexists; first reflexivity.
Qed.

Lemma reduced_std n (W : 'M[R]_n) rho : row_std W -> rho != 1 -> 1%:M - rho *: W \in unitmx ->
  reduced W rho *m (const_mx 1 : 'cV[R]_n) = (1 - rho)^-1 *: const_mx 1.
Proof.
move=> /rows1E H r1 U.
have E : (1%:M - rho *: W) *m (const_mx 1 : 'cV[R]_n) = (1 - rho) *: const_mx 1 by rewrite mulmxBl mul1mx -scalemxAl H scalerBl scale1r.
have h : 1 - rho != 0 by rewrite subr_eq0 eq_sym.
apply: (scalerI h); rewrite scalerA mulfV // scale1r scalemxAr -E mulmxA mulVmx // mul1mx //.
Qed.

(** ** C50_total: for row-standardised weights the total multiplier, whatever the method, is the average row sum of the inverse *)
Theorem C50_total : forall n (W : 'M[R]_n.+1) rho method mtol fuel m, row_std W -> rho != 1 -> 1%:M - rho *: W \in unitmx ->
  spmultiplier W rho method mtol fuel = MOk m -> m_ati m = avg_rowsum (reduced W rho).
Proof.
move=> n W rho method mtol fuel m st r1 U; have E := reduced_std st r1 U => H.
have -> : m_ati m = 1 / (1 - rho).
  move: H; rewrite /spmultiplier; case: (String.eqb _ _); first by case=> <-.
  case: (String.eqb _ _); first by case: (la_inv _) => [i|] //; case=> <-.
  case: (String.eqb _ _); last by case=> <-.
  by case: (pow_loop _ _ _ _ _ _ _ _ _) => [[a p]|] //; case=> <-.
have F i : \sum_j reduced W rho i j = (1 - rho)^-1.
  by move/matrixP/(_ i 0): E; rewrite !mxE mulr1 => <-; apply: eq_bigr => j _; rewrite !mxE mulr1.
rewrite /avg_rowsum (eq_bigr (fun=> (1 - rho)^-1)) => [|i _]; last exact: F.
rewrite sumr_const card_ord -[(1 - rho)^-1 *+ _]mulr_natr -mulrA mulfV ?pnatr_eq0 // mulr1 mul1r //.
Qed.

(** ** the loop of the power method *)
Lemma pow_loopP n (W : 'M[R]_n) rho mtol fuel : forall p adi d a p',
  pow_loop W rho mtol fuel p (mpw W p) (rho ^+ p) adi d = Some (a, p') ->
  (p <= p')%N /\ a = adi + \sum_(p.+1 <= j < p'.+1) series_term W rho j /\
  (if p' == p then (d <= mtol) : Prop else mtol < d /\ series_term W rho p' <= mtol /\ forall j, (p < j < p')%N -> mtol < series_term W rho j).
Proof.
elim: fuel => [|f IH] p adi d a p' /=; rewrite ltNge; case D: (d <= mtol) => //=.
- by case=> <- <-; rewrite eqxx leqnn big_geq // addr0.
- by case=> <- <-; rewrite eqxx leqnn big_geq // addr0.
have -> : \sum_i (mpw W p *m W) i i = \tr (mpw W p.+1) by [].
have -> : rho ^+ p * rho = rho ^+ p.+1 by rewrite exprSr.
move/(IH p.+1) => [h1 [h2 h3]].
have h4 : (p < p')%N by [].
split; first exact: ltnW.
split.
  rewrite h2 -addrA; congr (_ + _); by rewrite [RHS]big_ltn.
rewrite gtn_eqF //; split; first by [].
move: h3; case: eqP => [-> h3|ne [d1 [d2 d3]]].
  split=> // j; case/andP=> a1 a2; by move: (leq_trans a2 a1); rewrite ltnn.
split=> // j /andP[a1 a2]; case: (ltnP p.+1 j) => a3; first by apply: d3; rewrite a3.
by have -> : j = p.+1 by apply/eqP; rewrite eqn_leq a3.
Qed.

Lemma pow_loop_stops n (W : 'M[R]_n) rho mtol : forall q p adi d, (d <= mtol \/ (p < q)%N /\ series_term W rho q <= mtol) ->
  exists fuel r, (fuel <= q - p)%N /\ pow_loop W rho mtol fuel p (mpw W p) (rho ^+ p) adi d = Some r.
Proof.
move=> q p adi d H; move E: (q - p)%N => k; elim: k p adi d E H => [|k IH] p adi d E H.
  have {}H : d <= mtol by case: H => // -[]; rewrite -subn_gt0 E.
  by exists 0%N, (adi, p); rewrite /= ltNge H.
case D: (d <= mtol); first by exists 0%N, (adi, p); rewrite /= ltNge D.
have {}H : (p < q)%N /\ series_term W rho q <= mtol by case: H => //; rewrite D.
case: H => h1 h2.
have e : (q - p.+1)%N = k by rewrite subnS E.
have H : series_term W rho p.+1 <= mtol \/ (p.+1 < q)%N /\ series_term W rho q <= mtol.
  case: (ltnP p.+1 q) => h3; [by right|left].
  by have -> : p.+1 = q by apply/eqP; rewrite eqn_leq h1.
case: (IH p.+1 (adi + series_term W rho p.+1) (series_term W rho p.+1) e H) => f [r [f1 f2]]; exists f.+1, r; split=> //=; rewrite ltNge D /=; move: f2; rewrite /series_term exprSr; exact.
Qed.

(** ** C50_power: what the loop returns, and when it stops: at the first power p >= 2 whose term is at most the tolerance *)
Theorem C50_power : forall n (W : 'M[R]_n) rho mtol fuel m, mtol < 100%:R -> spmultiplier W rho "power" mtol fuel = MOk m ->
  [/\ (2 <= m_pow m)%N, m_adi m = 1 + \sum_(2 <= j < (m_pow m).+1) series_term W rho j, series_term W rho (m_pow m) <= mtol
    & forall j, (2 <= j < m_pow m)%N -> mtol < series_term W rho j].
Proof.
move=> n W rho mtol fuel m t; rewrite /spmultiplier /=.
have -> : pow_loop W rho mtol fuel 1 W rho 1 100%:R = pow_loop W rho mtol fuel 1 (mpw W 1) (rho ^+ 1) 1 100%:R by rewrite /= mul1mx expr1.
case E: (pow_loop _ _ _ _ _ _ _ _ _) => [[a p]|] //; case=> <- /=.
case: (pow_loopP E) => h1 [h2]; case: eqP => [_|ne [_ [h3 h4]]]; first by rewrite leNgt t.
by split=> //; rewrite ltn_neqAle h1 andbT eq_sym; apply/eqP.
Qed.
(** conversely the loop ends as soon as some term is at most the tolerance *)
Theorem C50_power_stops : forall n (W : 'M[R]_n) rho mtol q, (2 <= q)%N -> series_term W rho q <= mtol ->
  exists fuel m, spmultiplier W rho "power" mtol fuel = MOk m /\ (m_pow m <= q)%N.
Proof.
move=> n W rho mtol q q2 H.
case: (@pow_loop_stops n W rho mtol q 1 1 100%:R (or_intror (conj q2 H))) => fuel [[a p] [f1 f2]].
have E : pow_loop W rho mtol fuel 1 W rho 1 100%:R = Some (a, p) by rewrite -f2 /= mul1mx expr1.
exists fuel; rewrite /spmultiplier /= E; eexists; split; first by reflexivity.
rewrite /=; case: (pow_loopP f2) => h1 [h2]; case: eqP => [-> _|ne [_ [h3 h4]]]; first exact: ltnW.
by rewrite leqNgt; apply/negP => h; move: (h4 q); rewrite q2 h => /(_ isT); rewrite ltNge H.
Qed.

(** ** C50_power_error: the distance of the power approximation from the exact value *)
Lemma tele n (W : 'M[R]_n) rho p : 1%:M - rho *: W \in unitmx ->
  reduced W rho = \sum_(0 <= j < p.+1) rho ^+ j *: mpw W j + rho ^+ p.+1 *: (mpw W p.+1 *m reduced W rho).
Proof.
move=> U; have A : (1%:M - rho *: W) *m reduced W rho = 1%:M by rewrite mulmxV.
have B : reduced W rho = 1%:M + rho *: (W *m reduced W rho).
  by move: A; rewrite mulmxBl mul1mx -scalemxAl => /eqP; rewrite subr_eq => /eqP.
elim: p => [|p IH].
  by rewrite big_nat1 expr0 scale1r expr1 /= mul1mx -B.
rewrite big_nat_recr //= -addrA [LHS]IH; congr (_ + _).
rewrite {1}B mulmxDr mulmx1 scalerDr -scalemxAr scalerA -exprSr mulmxA; by rewrite /= -!mulmxA.
Qed.
Theorem C50_power_error : forall n (W : 'M[R]_n.+1) rho mtol fuel m, mtol < 100%:R -> \tr W = 0 -> 1%:M - rho *: W \in unitmx ->
  spmultiplier W rho "power" mtol fuel = MOk m ->
  avg_diag (reduced W rho) - m_adi m = rho ^+ (m_pow m).+1 * avg_diag (mpw W (m_pow m).+1 *m reduced W rho).
Proof.
move=> n W rho mtol fuel m t tr0 U H; case: (C50_power t H) => h1 -> h3 h4.
have E (A : 'M[R]_n.+1) : avg_diag A = \tr A / n.+1%:R by [].
rewrite !E {1}(tele (m_pow m) U) linearD /= linearZ /= mulrDl.
have -> : \tr (\sum_(0 <= j < (m_pow m).+1) rho ^+ j *: mpw W j) / n.+1%:R = 1 + \sum_(2 <= j < (m_pow m).+1) series_term W rho j.
  rewrite raddf_sum mulr_suml /= big_ltn // big_ltn; last exact: ltnW.
  rewrite expr0 scale1r mxtrace1 mulfV ?pnatr_eq0 // /= mul1mx linearZ /= tr0 mulr0 mul0r add0r; congr (_ + _).
  by apply: eq_bigr => j _; rewrite linearZ.
rewrite [X in X - _]addrC addrK -mulrA //.
Qed.
End C50a.
