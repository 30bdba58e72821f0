(** C76, White's test. *)
From mathcomp Require Import all_ssreflect all_algebra.
From Verif Require Import LinRegModel LinRegProofs LinRegProofs3 LinRegTheorems DiagModel DiagProofs DiagTheorems.
Set Implicit Arguments.
Unset Strict Implicit.
Unset Printing Implicit Defensive.
Import Order.TTheory GRing.Theory Num.Theory.
Local Open Scope ring_scope.

Section White.
Variables (R : realFieldType) (n k : nat).
Implicit Types (x : 'M[R]_(n, k)) (u c : 'cV[R]_n).
(** spec: a regressor or a product of two regressors *)
Definition term2 x c : Prop := (exists j, c = col j x) \/ (exists i j, c = \col_r (x r i * x r j)).
Lemma mem_terms x c : c \in cols x ++ products x <-> term2 x c.
Proof.
rewrite mem_cat; split=> [/orP[/mapP[j _ ->]|/mapP[[i j] _ ->]]|[[j ->]|[i [j ->]]]].
- by left; exists j.
- by right; exists i, j; apply/colP => r; rewrite !mxE.
- by apply/orP; left; apply/mapP; exists j; rewrite ?mem_enum.
- apply/orP; right; apply/mapP; case: (leqP i j) => ij.
  + exists (i, j); first by rewrite mem_filter ij mem_enum.
    by apply/colP => r; rewrite !mxE.
  + exists (j, i); first by rewrite mem_filter (ltnW ij) mem_enum.
    by apply/colP => r; rewrite !mxE mulrC.
Qed.
Lemma white_colsE x : white_cols x = const_mx 1 :: [seq c <- firsts (cols x ++ products x) | ~~ const_col c].
Proof. by rewrite /white_cols white_del. Qed.
Lemma constP c : (exists a, c = const_mx a) <-> const_col c.
Proof.
split=> [[a ->]|/forallP H]; first by apply/forallP => i; apply/forallP => j; rewrite !mxE.
case: (posnP n) => [n0|n0].
- exists 0; apply/colP => i; by have := ltn_ord i; rewrite {2}n0.
- exists (c (Ordinal n0) 0); apply/colP => i; rewrite mxE; by apply/eqP; move/forallP: (H i).
Qed.
Lemma white_mem x c : c \in white_cols x <-> c = const_mx 1 \/ (term2 x c /\ ~ exists a, c = const_mx a).
Proof.
rewrite white_colsE inE mem_filter firsts_mem; split.
- case/orP => [/eqP ->|/andP[nc /mem_terms T]]; [by left|right; split=> //].
  by move/constP; apply/negP.
- case=> [->|[T nc]]; first by rewrite eqxx.
  apply/orP; right; apply/andP; split; last by apply/mem_terms.
  by apply/negP => /constP.
Qed.
(** everything of degree at most two lies in the span *)
Lemma span_terms x c : term2 x c -> inspan (white_cols x) c.
Proof.
move=> T; case C: (const_col c).
- have /constP[a ->] := C; have -> : const_mx a = a *: const_mx 1 :> 'cV[R]_n by apply/matrixP => i j; rewrite !mxE mulr1.
  apply/spanZ/span_mem/white_mem; by left.
- apply/span_mem/white_mem; right; split=> // /constP; by rewrite C.
Qed.
Lemma whiteE x u ci : white x u ci = if 30%:R < ci then DOk None else
  if base_ols (\col_i (u i 0 ^+ 2)) (of_cols (white_cols x)) RobNone None true is Some aux
  then DOk (Some (Het (size (white_cols x) - 1) (r2_of aux * n%:R))) else DErr LinAlgError.
Proof. by []. Qed.
End White.

(** the columns of White's auxiliary regression: the constant, and every non-constant regressor, square and cross-product exactly once *)
Theorem C76_white_columns : forall (R : realFieldType) n k (x : 'M[R]_(n, k)),
  [/\ (0 < n)%N -> uniq (white_cols x), nth 0 (white_cols x) 0 = const_mx 1 &
      forall c, c \in white_cols x <-> c = const_mx 1 \/ (term2 x c /\ ~ exists a, c = const_mx a)].
Proof.
move=> R n k x; split=> [_||c]; last exact: white_mem; last by [].
rewrite white_colsE /= filter_uniq ?firsts_uniq // andbT mem_filter; apply/negP => /andP[/negP H _]; apply: H; apply/constP; by exists 1.
Qed.

(** n times the R2 of the regression of the squared residuals on these columns, between 0 and n; one degree of freedom per
    non-constant column; raises exactly when the columns are collinear *)
(* partial; missing: two-valued regressors (C76_white_two_valued_refuted) *)
Theorem C76_white_partial : forall (R : realFieldType) n k (x : 'M[R]_(n, k)) (u : 'cV[R]_n) ci,
  ci <= 30%:R -> (exists i j, u i 0 ^+ 2 != u j 0 ^+ 2) ->
  let z := white_cols x in
  match white x u ci with
  | DOk (Some h) => [/\ independent z, h_df h = (size z - 1)%N, 0 <= h_stat h <= n%:R &
      exists q, explained_ss z (kb_g u) q /\ h_stat h = n%:R * (q / \sum_i kb_g u i 0 ^+ 2)]
  | DOk None => False
  | DErr e => e = LinAlgError /\ ~ independent z
  end.
Proof.
move=> R n k x u ci hci ne z; rewrite whiteE ltNge hci /= -/z.
set w := \col_i _; case E: (base_ols _ _ _ _ _) => [aux|]; last first.
{ split=> // /indepE U; by move: (ols_Some w RobNone None true U); rewrite E. }
have U := ols_gram E.
have ne' : exists i j, w i 0 != w j 0 by case: ne => i [j ij]; exists i, j; rewrite !mxE.
have S1 : inspan z (const_mx 1) by apply: span_mem; rewrite inE eqxx.
have [a aE] := S1.
have [_ /andP[r0 r1] _ _] := C33_fit_measures E (esym aE) ne'.
split=> //=; first by apply/indepE.
- by rewrite mulr_ge0 ?ler0n //= -[X in _ <= X]mul1r ler_wpmul2r ?ler0n.
- have [_ Ey Ep Eu _] := ols_fields E.
  have gE : kb_g u = w - const_mx (mean_of w).
  { apply/colP => i; rewrite !mxE; congr (_ - _ / _); by apply: eq_bigr => r _; rewrite mxE. }
  have TE : \sum_i kb_g u i 0 ^+ 2 = tss w by rewrite tssE gE.
  have mE : const_mx (mean_of w) = of_cols z *m (mean_of w *: a) by rewrite -scalemxAr -aE; apply/matrixP => i j; rewrite !mxE mulr1.
  exists (utu_of (o_predy aux - const_mx (mean_of w))); split.
  + exists (o_predy aux - const_mx (mean_of w)); split=> //.
    * by exists (o_betas aux - mean_of w *: a); rewrite mulmxBr -mE Ep.
    * apply/orthE; rewrite gE opprB addrA subrK -Eu; exact: ols_orth E.
  + rewrite TE mulrC /r2_of Ey -/(tss w); congr (_ * _).
    have D := ols_decomp E (esym aE).
    have T0 : tss w != 0 by rewrite gt_eqF // tss_gt0.
    apply: (mulIf T0); rewrite mulrBl !divfK // mul1r {1}D addrK.
    by apply: eq_bigr => i _; rewrite !mxE.
Qed.

(** a change of units, of origin, or any other non-singular recombination of the regressors (constant included) does not change the
    test, when it can be computed in both *)
Theorem C76_white_invariant : forall (R : realFieldType) n k (x : 'M[R]_(n, k)) (A : 'M[R]_k) (u : 'cV[R]_n) ci ci' h h',
  A \in unitmx ->
  white x u ci = DOk (Some h) -> white (x *m A) u ci' = DOk (Some h') -> h = h'.
Proof.
move=> R n k x A u ci ci' h h' UA; rewrite !whiteE; case: ifP => // _; case: ifP => // _.
set w := \col_i _; case E: (base_ols _ _ _ _ _) => [o|//]; move: E => E [<-].
case E': (base_ols _ _ _ _ _) => [o'|//] [<-].
have inc : forall (x : 'M[R]_(n, k)) (B : 'M[R]_k), forall c, c \in white_cols (x *m B) -> inspan (white_cols x) c.
{ move=> y B c /white_mem[->|[T _]].
  - by apply: span_mem; apply/white_mem; left.
  - case: T => [[j ->]|[i [j ->]]].
    + have -> : col j (y *m B) = \sum_r B r j *: col r y by apply/colP => s; rewrite !mxE summxE; apply: eq_bigr => r _; rewrite !mxE mulrC.
      by apply: span_sum => r; apply/spanZ/span_terms; left; exists r.
    + have -> : \col_s ((y *m B) s i * (y *m B) s j) = \sum_r \sum_t (B r i * B t j) *: \col_s (y s r * y s t).
      { apply/colP => s; rewrite !mxE summxE mulr_suml; apply: eq_bigr => r _; rewrite mulr_sumr summxE; apply: eq_bigr => t _.
        by rewrite !mxE mulrACA mulrC. }
      by apply: span_sum => r; apply: span_sum => t; apply/spanZ/span_terms; right; exists r, t. }
have S1 := inc x A.
have S2 : forall c, c \in white_cols x -> inspan (white_cols (x *m A)) c by move=> c; rewrite -{1}(mulmxK UA x); exact: inc.
have /indepE I := ols_gram E; have /indepE I' := ols_gram E'.
have sz := indep_size I I' S2 S1; congr (Het _ (_ * _)); first by congr (_ - 1)%N; exact: sz.
have [_ Ey Ep Eu _] := ols_fields E; have [_ Ey' Ep' Eu' _] := ols_fields E'.
rewrite /r2_of Ey Ey' Eu Eu' Ep Ep' (@proj_unique _ _ _ (white_cols (x *m A)) w (o_betas o) (o_betas o')) //.
- by have := ols_orth E; rewrite Eu Ep.
- by have := ols_orth E'; rewrite Eu' Ep'.
Qed.

(** a two-valued regressor in any coding other than 0/1 or -a/+a (x^2 = p x + r with p <> 0, x^2 <> x): its square is collinear with it and
    the constant, but not a duplicate; the test raises LinAlgError *)
Theorem C76_white_two_valued_refuted : forall (R : realFieldType) n k (x : 'M[R]_(n, k)) (u : 'cV[R]_n) ci j p r,
  ci <= 30%:R -> (forall i, x i j ^+ 2 = p * x i j + r) -> p != 0 -> (exists i i', x i j != x i' j) -> (exists i, x i j ^+ 2 != x i j) ->
  white x u ci = DErr LinAlgError.
Proof.
move=> R n k x u ci j p r hci H p0 [i1 [i2 ne]] [i3 ne3]; rewrite whiteE ltNge hci /=.
case E: (base_ols _ _ _ _ _) => [o|//]; exfalso; have /gram_unit U := ols_gram E.
set z := white_cols x in U E.
have m1 : const_mx 1 \in z by apply/white_mem; left.
have nc : forall c : 'cV[R]_n, c i1 0 != c i2 0 -> ~ exists a, c = const_mx a by move=> c /eqP ne' [a ca]; apply: ne'; rewrite ca !mxE.
have m2 : col j x \in z by apply/white_mem; right; split; [left; exists j|apply: nc; rewrite !mxE].
have m3 : \col_s (x s j * x s j) \in z.
{ apply/white_mem; right; split; first by right; exists j, j.
  apply: nc; rewrite !mxE -!expr2 !H (can_eq (addrK _)); apply: contra ne => /eqP/(mulfI p0) ->. by []. }
have [b1 e1] := span_mem m1; have [b2 e2] := span_mem m2.
move/(nthP 0): m3 => [q Hq e3].
move/(nthP 0): (m1) => [q1 Hq1 e1']; move/(nthP 0): (m2) => [q2 Hq2 e2'].
have : delta_mx (Ordinal Hq) 0 - p *: delta_mx (Ordinal Hq2) 0 - r *: delta_mx (Ordinal Hq1) 0 = 0 :> 'cV[R]_(size z).
{ apply: U; rewrite !mulmxBr -!scalemxAr -!colE; apply/colP => i; rewrite !mxE /= e1' e2' e3 !mxE -expr2 H mulr1.
  by rewrite addrAC addrK subrr. }
move/colP/(_ (Ordinal Hq)); rewrite !mxE !eqxx /=.
have n1 : (Ordinal Hq == Ordinal Hq2) = false.
{ apply/negP => /eqP[qq]; move: ne3; have /colP/(_ i3) : \col_s (x s j * x s j) = col j x by rewrite -e3 -e2' qq.
  by rewrite !mxE expr2 => ->; rewrite eqxx. }
have n2 : (Ordinal Hq == Ordinal Hq1) = false.
{ apply/negP => /eqP[qq]; have C : \col_s (x s j * x s j) = const_mx 1 by rewrite -e3 -e1' qq.
  case/negP: ne; apply/eqP; apply: (mulfI p0); apply: (addIr r); rewrite -!H.
  by have /colP/(_ i1) := C; have /colP/(_ i2) := C; rewrite !mxE !expr2 => -> ->. }
by rewrite n1 n2 /= !mulr0 !subr0 => /eqP; rewrite oner_eq0.
Qed.

(** non-vacuity: two observations, a constant and a dummy, residuals 1 and 2: all three tests are computed *)
Section Example.
Let x : 'M[rat]_(2, 2) := \matrix_(i, j) (if j == 0 then 1 else (i : nat)%:R).
Let u : 'cV[rat]_2 := \col_i (i.+1)%:R.
Let d : 'cV[rat]_2 := \col_i (i : nat)%:R.
Lemma ex_ind : independent [:: const_mx 1 : 'cV[rat]_2; d].
Proof.
move=> a H.
have H0 := H 0; have H1 := H 1; move: H0 H1; rewrite !big_ord_recl !big_ord0 /= !mxE /= !mulr1 !mulr0 !addr0 => a0; rewrite a0 add0r => a1.
by move=> [[|[|m]] Hm] //; [rewrite -[RHS]a0|rewrite -[RHS]a1]; congr (a _); apply: val_inj.
Qed.
Lemma ex_squares : squares x = [:: const_mx 1; d].
Proof.
rewrite /squares enum_ordSl enum_ordSl /= (_ : enum 'I_0 = [::]) /=; last by apply: size0nil; rewrite size_enum_ord.
by congr [:: _; _]; apply/colP => i; rewrite !mxE /= ?expr1n //; case: i => [[|[|m]] Hm] //=; rewrite ?expr0n ?expr1n.
Qed.
Lemma ex_distinct : distinct (squares x) = [:: const_mx 1; d].
Proof.
rewrite distinctE ex_squares firsts_id //= inE andbT; apply/eqP => /colP/(_ 0); by rewrite !mxE.
Qed.
Example C76_example : [/\ exists i j, u i 0 ^+ 2 != u j 0 ^+ 2, exists h, breusch_pagan x u None = DOk h & exists h, koenker_bassett x u None = DOk h].
Proof.
split.
- by exists 0, 1; rewrite !mxE.
- have [q Hq] := ess_of (bp_g u) ex_ind; rewrite bpE ex_distinct Hq; by eexists.
- have [q Hq] := ess_of (kb_g u) ex_ind; rewrite kbE ex_distinct Hq; by eexists.
Qed.
Lemma ex_white : forall c, c \in white_cols x -> c = const_mx 1 \/ c = d.
Proof.
have x0 : forall s, x s 0 = 1 by move=> s; rewrite mxE.
have x1 : forall s, x s 1 = (s : nat)%:R by move=> s; rewrite mxE.
have dd : forall s : 'I_2, (s : nat)%:R * (s : nat)%:R = (s : nat)%:R :> rat by move=> [[|[|m]] Hm] //=; rewrite mulr1.
have two : forall j : 'I_2, j = 0 \/ j = 1 by move=> [[|[|m]] Hm] //; [left|right]; apply: val_inj.
move=> c /white_mem[->|[[[j ->]|[i [j ->]]] _]]; first by left.
- by case: (two j) => ->; [left|right]; apply/colP => s; rewrite !mxE.
- case: (two j) => ->; case: (two i) => ->; [left|right|right|right]; apply/colP => s; by rewrite !mxE /= ?mulr1 ?mul1r ?dd.
Qed.
Example C76_white_example : exists h, white x u 0 = DOk (Some h).
Proof.
rewrite whiteE ltNge ler0n /=.
have inc : forall c, c \in white_cols x -> inspan [:: const_mx 1; d] c.
{ by move=> c /ex_white[->|->]; apply: span_mem; rewrite !inE eqxx ?orbT. }
have U : (of_cols (white_cols x))^T *m of_cols (white_cols x) \in unitmx.
{ have E : white_cols x = [:: const_mx 1; d].
  { have [W1 W0 W2] := C76_white_columns x; have {W1}W1 := W1 isT.
    have md : d \in white_cols x.
    { apply/W2; right; split; first by left; exists 1; apply/colP => i; rewrite !mxE.
      by case=> a /colP H; have := H 0; have := H 1; rewrite !mxE /= => <-. }
    case: (white_cols x) W0 W1 md ex_white => [|c s] //= -> /andP[ns us] md hs; congr (_ :: _).
    have ne : d != const_mx 1 by apply/eqP => /colP/(_ 0); rewrite !mxE.
    move: md; rewrite inE (negbTE ne) /= => md.
    case: s md ns us hs => [|c' [|c'' s]] //.
    + by rewrite inE => /eqP <-.
    + move=> _ ns us hs; exfalso; move: ns us; rewrite !inE !negb_or /= !inE !negb_or => /and3P[n1 n2 _] /andP[/andP[n3 _] _].
      have c1 : c' = d by case: (hs c') => [|E|//]; [rewrite !inE eqxx orbT|rewrite E eqxx in n1].
      have c2 : c'' = d by case: (hs c'') => [|E|//]; [rewrite !inE eqxx !orbT|rewrite E eqxx in n2].
      by rewrite c1 c2 eqxx in n3. }
  rewrite E; apply/indepE; exact: ex_ind. }
rewrite ols_Some //; by eexists.
Qed.
End Example.
