(** C76: the heteroskedasticity diagnostics (Breusch-Pagan, Koenker-Bassett, White). *)
From Coq Require Import Ring Field.
From mathcomp Require Import all_ssreflect all_algebra.
From Verif Require Import Mring LinRegModel LinRegProofs LinRegProofs3 LinRegTheorems DiagModel DiagProofs.
Set Implicit Arguments.
Unset Strict Implicit.
Unset Printing Implicit Defensive.
Import Order.TTheory GRing.Theory Num.Theory.
Local Open Scope ring_scope.

(** * specification *)
Section Spec.
Variables (R : realFieldType) (n : nat).
(** the squares of the regressors *)
Definition squares k (x : 'M[R]_(n, k)) : seq 'cV[R]_n := [seq \col_i (x i j ^+ 2) | j <- enum 'I_k].
(** the columns that differ from every earlier column, in the original order *)
Definition distinct (z : seq 'cV[R]_n) : seq 'cV[R]_n := [seq nth 0 z i | i <- iota 0 (size z) & nth 0 z i \notin take i z].
(** q is the explained sum of squares of the least-squares regression of g on the columns z (no centring) *)
Definition explained_ss (z : seq 'cV[R]_n) (g : 'cV[R]_n) (q : R) : Prop :=
  exists f : 'cV[R]_n, [/\ inspan z f, forall c, c \in z -> \sum_i c i 0 * (g i 0 - f i 0) = 0 & q = \sum_i f i 0 ^+ 2].
(** no column is a linear combination of the others *)
Definition independent (z : seq 'cV[R]_n) : Prop :=
  forall a : 'I_(size z) -> R, (forall i : 'I_n, \sum_j a j * nth 0 z j i 0 = 0) -> forall j, a j = 0.
End Spec.

Section Proofs.
Variables (R : realFieldType) (n : nat).
Implicit Types (z : seq 'cV[R]_n) (u g : 'cV[R]_n).
Lemma distinctE z : distinct z = firsts z.
Proof.
have [f Hf] : exists om : seq nat, forall i, (i < size z)%N -> (i \in om) = (nth 0 z i \in take i z).
{ by exists (omit z) => i Hi; rewrite mem_omit. }
rewrite -[RHS](@filter_predT _) -(@np_delete_gen _ _ z pred0 f) => [|i Hi]; last by rewrite Hf // orbF.
rewrite (np_deleteE _ _ 0) /distinct; congr map; apply: eq_in_filter => i; rewrite mem_iota /= add0n => /Hf ->. by [].
Qed.
Lemma squaresE k (x : 'M[R]_(n, k)) : [seq vmul c c | c <- cols x] = squares x.
Proof. rewrite /cols /squares -map_comp; apply: eq_map => j /=; apply/colP => i; by rewrite !mxE expr2. Qed.
Lemma orthE z g f : (of_cols z)^T *m (g - f) = 0 <-> (forall c, c \in z -> \sum_i c i 0 * (g i 0 - f i 0) = 0).
Proof.
split=> [H c /(nthP 0)[j Hj <-]|H].
- have /colP/(_ (Ordinal Hj)) := H; rewrite !mxE => {2}<-; apply: eq_bigr => i _; by rewrite !mxE.
- apply/colP => j; rewrite !mxE -[RHS](H (nth 0 z j) (mem_nth _ _)) //; apply: eq_bigr => i _; by rewrite !mxE.
Qed.
Lemma indepE z : independent z <-> (of_cols z)^T *m of_cols z \in unitmx.
Proof.
rewrite gram_unit; split=> H.
- move=> c /colP E; apply/colP => j; rewrite mxE; apply: (H (fun j => c j 0)) => i.
  by have := E i; rewrite !mxE => {2}<-; apply: eq_bigr => r _; rewrite mxE mulrC.
- move=> a E j; have /colP/(_ j) : (\col_r a r : 'cV[R]_(size z)) = 0.
  { apply: H; apply/colP => i; rewrite !mxE -[RHS](E i); apply: eq_bigr => r _; by rewrite !mxE mulrC. }
  by rewrite !mxE.
Qed.
Lemma explainedP z g q : explained z g = DOk q -> explained_ss z g q /\ independent z.
Proof.
rewrite /explained; case E: (la_inv _) => [v|] // [<-]; have [U ->] := la_invP E.
split; last by apply/indepE.
exists (of_cols z *m (invmx ((of_cols z)^T *m of_cols z) *m ((of_cols z)^T *m g))); split.
- by eexists; reflexivity.
- by apply/orthE; rewrite mulmxBr !mulmxA mulmxV // mul1mx subrr.
- rewrite -/(utu_of _) utuE; set Z := of_cols z; set P := invmx _.
  have Ps : P^T = P by apply: invmx_sym; exact: gram_sym.
  rewrite !trmx_mul trmxK Ps; congr (_ 0 0); rewrite -!mulmxA; congr (_ *m (_ *m (_ *m _))).
  by rewrite [RHS]mulmxA [RHS]mulmxA mulmxV // mul1mx.
Qed.
Lemma explained_uniq z z' g q q' : (forall d, d \in z -> inspan z' d) -> (forall d, d \in z' -> inspan z d) ->
  explained_ss z g q -> explained_ss z' g q' -> q = q'.
Proof.
move=> S S' [f [[b ->] o ->]] [f' [[b' ->] o' ->]]; by rewrite (@proj_unique _ _ z z' g b b') //; apply/orthE.
Qed.
Lemma indep_size z z' : independent z -> independent z' -> (forall d, d \in z -> inspan z' d) -> (forall d, d \in z' -> inspan z d) ->
  size z = size z'.
Proof. by move=> /indepE U /indepE U' S S'; apply/eqP; rewrite eqn_leq !span_size. Qed.
Lemma ess_bounds z g q : explained_ss z g q -> 0 <= q <= \sum_i g i 0 ^+ 2.
Proof.
move=> [f [[b fE] o ->]]; rewrite sumr_ge0 => [|i _]; last exact: sqr_ge0.
have -> : \sum_i g i 0 ^+ 2 = \sum_i f i 0 ^+ 2 + \sum_i (g i 0 - f i 0) ^+ 2.
{ have -> : \sum_i g i 0 ^+ 2 = utu_of (f + (g - f)) by rewrite addrC subrK.
  rewrite utuD fE trmx_mul -fE -mulmxA.
  have -> : (of_cols z)^T *m (g - f) = 0 by apply/orthE.
  by rewrite mulmx0 mxE mul0rn addr0; congr (_ + _); apply: eq_bigr => i _; rewrite !mxE. }
rewrite ler_addl sumr_ge0 // => i _; exact: sqr_ge0.
Qed.
Lemma explained_fail z g e : explained z g = DErr e <-> e = LinAlgError /\ ~ independent z.
Proof.
rewrite indepE /explained /la_inv; case: ifP => U; split=> //.
- by case=> _ [].
- by case=> <-.
- by case=> ->.
Qed.
Lemma ess_scale z g q a : explained_ss z g q -> explained_ss z (a *: g) (a ^+ 2 * q).
Proof.
move=> [f [[b ->] o ->]]; exists (a *: (of_cols z *m b)); split.
- apply: spanZ; by exists b.
- move=> c /o; move: (_ *m b) => h E; rewrite -[RHS](mulr0 a) -[in RHS]E mulr_sumr; apply: eq_bigr => i _; by rewrite !mxE -mulrBr mulrCA.
- by rewrite mulr_sumr; apply: eq_bigr => i _; rewrite [in RHS]mxE exprMn.
Qed.
Lemma ess_of z g : independent z -> exists q, explained z g = DOk q.
Proof. by move/indepE => U; rewrite /explained la_inv_unit //; eexists. Qed.
End Proofs.

(** * theorems *)
(** the columns kept by the tests: each distinct column once, at its first position *)
Theorem C76_dedup : forall (R : realFieldType) n (z : seq 'cV[R]_n),
  [/\ dedup z = distinct z, uniq (dedup z), dedup z =i z & uniq z -> dedup z = z].
Proof.
move=> R n z; rewrite dedupE distinctE; split=> //; [exact: firsts_uniq|exact: firsts_mem|exact: firsts_id].
Qed.

Section BP.
Variables (R : realFieldType) (n k : nat).
Definition bp_g (u : 'cV[R]_n) : 'cV[R]_n := \col_i (u i 0 ^+ 2 / ((\sum_r u r 0 ^+ 2) / n%:R) - 1).
Definition kb_g (u : 'cV[R]_n) : 'cV[R]_n := \col_i (u i 0 ^+ 2 - (\sum_r u r 0 ^+ 2) / n%:R).
Lemma bpE (x : 'M[R]_(n, k)) u : breusch_pagan x u None =
  match explained (distinct (squares x)) (bp_g u) with DErr e => DErr e | DOk q => DOk (Het (size (distinct (squares x)) - 1) (2%:R^-1 * q)) end.
Proof. by rewrite /breusch_pagan /= squaresE dedupE -distinctE. Qed.
Lemma kbE (x : 'M[R]_(n, k)) u : koenker_bassett x u None =
  match explained (distinct (squares x)) (kb_g u) with DErr e => DErr e
  | DOk q => DOk (Het (size (distinct (squares x)) - 1) ((n%:R^-1 * \sum_i (kb_g u i 0) ^+ 2)^-1 * q)) end.
Proof.
rewrite /koenker_bassett /= squaresE dedupE -distinctE.
have -> : \sum_i (u i 0 ^+ 2 - utu_of u / n%:R) ^+ 2 = \sum_i kb_g u i 0 ^+ 2 by apply: eq_bigr => i _; rewrite [in RHS]mxE.
by [].
Qed.
End BP.

(** Breusch-Pagan: half the explained sum of squares of the regression of the standardised squared residuals on the distinct
    squared regressors; computed exactly when these are linearly independent *)
(* partial; missing: an explicit z (C76_explicit_z_refuted) and two-valued regressors (C76_two_valued_refuted) *)
Theorem C76_breusch_pagan_partial : forall (R : realFieldType) n k (x : 'M[R]_(n, k)) (u : 'cV[R]_n),
  let z := distinct (squares x) in
  let s2 := (\sum_r u r 0 ^+ 2) / n%:R in
  let g : 'cV[R]_n := \col_i (u i 0 ^+ 2 / s2 - 1) in
  match breusch_pagan x u None with
  | DOk h => [/\ independent z, h_df h = (size z - 1)%N, (exists q, explained_ss z g q /\ h_stat h = q / 2%:R)
                & 0 <= h_stat h <= (\sum_i g i 0 ^+ 2) / 2%:R]
  | DErr e => e = LinAlgError /\ ~ independent z
  end.
Proof.
move=> R n k x u z s2 g; rewrite bpE -/z -[bp_g u]/g.
case E: (explained z g) => [q|e] /=; last by have /explained_fail := E.
have [S I] := explainedP E; split=> //; first by exists q; rewrite mulrC.
have /andP[q0 q1] := ess_bounds S.
by rewrite mulr_ge0 ?invr_ge0 ?ler0n //= mulrC ler_wpmul2r // invr_ge0 ler0n.
Qed.

(** Koenker-Bassett: between 0 and n when the squared residuals are not all equal *)
(* partial; missing: an explicit z (C76_explicit_z_refuted) and two-valued regressors (C76_two_valued_refuted) *)
Theorem C76_koenker_bassett_partial : forall (R : realFieldType) n k (x : 'M[R]_(n, k)) (u : 'cV[R]_n),
  let z := distinct (squares x) in
  let s2 := (\sum_r u r 0 ^+ 2) / n%:R in
  let g : 'cV[R]_n := \col_i (u i 0 ^+ 2 - s2) in
  (exists i j, u i 0 ^+ 2 != u j 0 ^+ 2) ->
  match koenker_bassett x u None with
  | DOk h => [/\ independent z, h_df h = (size z - 1)%N, (exists q, explained_ss z g q /\ h_stat h = n%:R * (q / \sum_i g i 0 ^+ 2))
                & 0 <= h_stat h <= n%:R]
  | DErr e => e = LinAlgError /\ ~ independent z
  end.
Proof.
move=> R n k x u z s2 g [i0 [j0 ne]]; rewrite kbE -/z -[kb_g u]/g.
have n0 : (0 < n)%N by case: (n) i0 {u z s2 g j0 ne x} => // -[].
have T0 : 0 < \sum_i g i 0 ^+ 2.
{ have := @tss_gt0 _ n (\col_i (u i 0 ^+ 2)); rewrite /tss; set w := \col_i _.
  have -> : \sum_i (w i 0 - mean_of w) ^+ 2 = \sum_i g i 0 ^+ 2.
  { apply: eq_bigr => i _; rewrite !mxE /s2; congr ((_ - _ / _) ^+ 2); apply: eq_bigr => r _; by rewrite mxE. }
  by apply; exists i0, j0; rewrite !mxE. }
case E: (explained z g) => [q|e] /=; last by have /explained_fail := E.
have [S I] := explainedP E; have /andP[q0 q1] := ess_bounds S.
have Eq : (n%:R^-1 * \sum_i g i 0 ^+ 2)^-1 * q = n%:R * (q / \sum_i g i 0 ^+ 2) by rewrite invfM invrK -mulrA [_^-1 * q]mulrC.
split=> //; first by exists q.
rewrite Eq; apply/andP; split; first by rewrite mulr_ge0 ?ler0n // divr_ge0 // ltW.
by rewrite -[X in _ <= X]mulr1 ler_wpmul2l ?ler0n // ler_pdivr_mulr // mul1r.
Qed.

(** with the constant among the (distinct squared) regressors, Koenker-Bassett is n times the R2 of the auxiliary regression of the
    squared residuals *)
Theorem C76_kb_is_nR2 : forall (R : realFieldType) n k (x : 'M[R]_(n, k)) (u : 'cV[R]_n) rb gw s aux h,
  let z := distinct (squares x) in
  inspan z (const_mx 1) -> (exists i j, u i 0 ^+ 2 != u j 0 ^+ 2) ->
  base_ols (\col_i (u i 0 ^+ 2)) (of_cols z) rb gw s = Some aux ->
  koenker_bassett x u None = DOk h -> h_stat h = n%:R * r2_of aux.
Proof.
move=> R n k x u rb gw s aux h z [a aE] ne H E; have := C76_koenker_bassett_partial x ne; rewrite E -/z => -[_ _ [q [S ->]] _].
move: H S; set w := \col_i (u i 0 ^+ 2); set g := \col_i _ => H S.
have gE : g = w - const_mx (mean_of w).
{ apply/colP => i; rewrite !mxE; congr (_ - _ / _); by apply: eq_bigr => r _; rewrite mxE. }
have TE : \sum_i g i 0 ^+ 2 = tss w by rewrite tssE gE.
have T0 : tss w != 0 by rewrite gt_eqF //; apply: tss_gt0; case: ne => i [j ij]; exists i, j; rewrite !mxE.
have [_ Ey Ep Eu _] := ols_fields H.
rewrite TE /r2_of Ey -/(tss w); congr (_ * _).
case: S => f [[b fE] /orthE o ->].
have bE : b + mean_of w *: a = o_betas aux.
{ apply: (ols_unique H); apply/eqP; rewrite -subr_eq0 -mulmxA -mulmxBr -oppr_eq0 -mulmxN opprB [_ *m (b + _)]mulmxDr -scalemxAr -aE -fE.
  rewrite -[X in _ == X]o; apply/eqP; congr (_ *m _); rewrite gE opprD addrA addrAC; congr (_ - _ - _).
  by apply/matrixP => i j; rewrite !mxE mulr1. }
have uE : o_u aux = g - f.
{ rewrite Eu Ep -bE mulmxDr -scalemxAr -aE -fE gE opprD addrA addrAC; congr (_ - _ - _).
  by apply/matrixP => i j; rewrite !mxE mulr1. }
have D : tss w = utu_of f + utu_of (g - f).
{ rewrite tssE -gE -{1}[g](subrK f) addrC utuD.
  have -> : f^T *m (g - f) = 0 by rewrite {1}fE trmx_mul -mulmxA o mulmx0.
  by rewrite mxE mul0rn addr0. }
by rewrite uE; apply: (mulIf T0); rewrite mulrBl !divfK // mul1r {1}D addrK.
Qed.

(** Breusch-Pagan and Koenker-Bassett differ only in the variance of the squared residuals: 2 s2^2 against the empirical one *)
Theorem C76_studentized : forall (R : realFieldType) n k (x : 'M[R]_(n, k)) (u : 'cV[R]_n) h h',
  let s2 := (\sum_r u r 0 ^+ 2) / n%:R in
  let v := (\sum_i (u i 0 ^+ 2 - s2) ^+ 2) / n%:R in
  (0 < n)%N -> u != 0 -> v != 0 ->
  breusch_pagan x u None = DOk h -> koenker_bassett x u None = DOk h' ->
  h_df h = h_df h' /\ h_stat h * (2%:R * s2 ^+ 2) = h_stat h' * v.
Proof.
move=> R n k x u h h' s2 v n0 u0 v0; rewrite bpE kbE.
case E: (explained _ (bp_g u)) => [q|//] [<-]; case E': (explained _ (kb_g u)) => [q'|//] [<-] /=; split=> //.
have [S I] := explainedP E; have [S' _] := explainedP E'.
have n0' : n%:R != 0 :> R by rewrite pnatr_eq0 -lt0n.
have s0 : s2 != 0 by rewrite /s2 mulf_neq0 ?invr_eq0 // -/(utu_of u) utu_eq0.
have gE : s2 *: bp_g u = kb_g u.
{ apply/colP => i; rewrite !mxE -/s2 mulrBr mulr1 mulrC divfK. by []. by []. }
have := ess_scale s2 S; rewrite gE => S2.
have qE : s2 ^+ 2 * q = q' by apply: (explained_uniq _ _ S2 S') => d; exact: span_mem.
have -> : n%:R^-1 * (\sum_i kb_g u i 0 ^+ 2) = v by rewrite mulrC /v; congr (_ / _); apply: eq_bigr => i _; rewrite mxE.
rewrite [RHS]mulrAC [_ * v]mulrC mulfV // mul1r -qE mulrACA mulVf ?mul1r 1?mulrC //; by rewrite pnatr_eq0.
Qed.

(** the residuals' unit does not matter *)
Theorem C76_residual_units : forall (R : realFieldType) n k (x : 'M[R]_(n, k)) (u : 'cV[R]_n) a, (0 < n)%N -> a != 0 ->
  breusch_pagan x (a *: u) None = breusch_pagan x u None /\ koenker_bassett x (a *: u) None = koenker_bassett x u None.
Proof.
move=> R n k x u a n0 a0; have n0' : n%:R != 0 :> R by rewrite pnatr_eq0 -lt0n.
have sE : \sum_r (a *: u) r 0 ^+ 2 = a ^+ 2 * \sum_r u r 0 ^+ 2.
{ rewrite mulr_sumr; apply: eq_bigr => i _; by rewrite mxE exprMn. }
have a2 : a ^+ 2 != 0 by rewrite sqrf_eq0.
rewrite !bpE !kbE; split.
- have -> : bp_g (a *: u) = bp_g u.
  { apply/colP => i; rewrite [LHS]mxE [RHS]mxE sE mxE exprMn; congr (_ - _); by rewrite -[a ^+ 2 * _ / n%:R]mulrA invfM mulrACA mulfV // mul1r. }
  by [].
- have -> : kb_g (a *: u) = a ^+ 2 *: kb_g u.
  { apply/colP => i; rewrite [LHS]mxE sE !mxE exprMn mulrBr; congr (_ - _); by rewrite mulrA. }
  case E: (explained _ (kb_g u)) => [q|e].
  + have [S I] := explainedP E; have [q' E'] := ess_of (a ^+ 2 *: kb_g u) I; rewrite E'.
    have [S' _] := explainedP E'.
    have <- : (a ^+ 2) ^+ 2 * q = q' by apply: (explained_uniq _ _ (ess_scale _ S) S') => d; exact: span_mem.
    congr (DOk (Het _ _)).
    have -> : \sum_i (a ^+ 2 *: kb_g u) i 0 ^+ 2 = (a ^+ 2) ^+ 2 * \sum_i kb_g u i 0 ^+ 2.
    { rewrite mulr_sumr; apply: eq_bigr => i _; by rewrite mxE exprMn. }
    rewrite [n%:R^-1 * _]mulrCA invfM mulrACA mulVf ?mul1r // expf_neq0 //.
  + have /explained_fail[-> I] := E. have -> // : explained (distinct (squares x)) (a ^+ 2 *: kb_g u) = DErr LinAlgError.
    by apply/explained_fail.
Qed.

(** nor do the regressors' units: whenever the tests can be computed in both units, they agree *)
Theorem C76_regressor_units : forall (R : realFieldType) n k (x : 'M[R]_(n, k)) (u : 'cV[R]_n) (d : 'I_k -> R) h h',
  (forall j, d j != 0) ->
  let x' : 'M[R]_(n, k) := \matrix_(i, j) (x i j * d j) in
  (breusch_pagan x u None = DOk h -> breusch_pagan x' u None = DOk h' -> h = h') /\
  (koenker_bassett x u None = DOk h -> koenker_bassett x' u None = DOk h' -> h = h').
Proof.
move=> R n k x u d h h' d0 x'.
have inc : forall (d : 'I_k -> R) (x x' : 'M[R]_(n, k)), (forall j, d j != 0) -> (forall i j, x' i j = x i j * d j) -> forall c, c \in distinct (squares x') -> inspan (distinct (squares x)) c.
{ move=> e y y' e0 ye c; rewrite distinctE firsts_mem => /mapP[j _ ->].
  have -> : \col_i (y' i j ^+ 2) = e j ^+ 2 *: \col_i (y i j ^+ 2) by apply/colP => i; rewrite !mxE ye exprMn mulrC.
  apply/spanZ/span_mem; rewrite distinctE firsts_mem; apply/mapP; by exists j; rewrite ?mem_enum. }
have S1 := inc d x x' d0 (fun i j => mxE _ _ i j).
have S2 : forall c, c \in distinct (squares x) -> inspan (distinct (squares x')) c.
{ apply: (inc (fun j => (d j)^-1)) => [j|i j]; first by rewrite invr_eq0.
  by rewrite mxE mulfK. }
rewrite !bpE !kbE; split.
- case E: (explained _ (bp_g u)) => [q|//] [<-]; case E': (explained _ (bp_g u)) => [q'|//] [<-].
  have [S I] := explainedP E; have [S' I'] := explainedP E'.
  by rewrite (explained_uniq S2 S1 S S') (indep_size I I' S2 S1).
- case E: (explained _ (kb_g u)) => [q|//] [<-]; case E': (explained _ (kb_g u)) => [q'|//] [<-].
  have [S I] := explainedP E; have [S' I'] := explainedP E'.
  by rewrite (explained_uniq S2 S1 S S') (indep_size I I' S2 S1).
Qed.

(** the documented argument z: any explicit array with more than one element is refused with ValueError *)
Theorem C76_explicit_z_refuted : forall (R : realFieldType) n k (x : 'M[R]_(n, k)) (u : 'cV[R]_n) z, (n * size z != 1)%N ->
  breusch_pagan x u (Some z) = DErr ValueError /\ koenker_bassett x u (Some z) = DErr ValueError.
Proof. by move=> R n k x u z /negbTE H; rewrite /breusch_pagan /koenker_bassett /z_of H. Qed.

(** a regressor that takes the values +a and -a (a^2 <> 1) besides the constant: the squares are collinear but not duplicates, and
    both tests raise LinAlgError, whatever the residuals *)
Theorem C76_two_valued_refuted : forall (R : realFieldType) n k (x : 'M[R]_(n, k)) (u : 'cV[R]_n) j0 j1 a, (0 < n)%N ->
  (forall i, x i j0 = 1) -> (forall i, x i j1 ^+ 2 = a) -> a != 1 ->
  breusch_pagan x u None = DErr LinAlgError /\ koenker_bassett x u None = DErr LinAlgError.
Proof.
move=> R n k x u j0 j1 a n0 H0 H1 a1.
have I : ~ independent (distinct (squares x)).
{ have m0 : const_mx 1 \in distinct (squares x).
  { rewrite distinctE firsts_mem; apply/mapP; exists j0; rewrite ?mem_enum //; apply/colP => i; by rewrite !mxE H0 expr1n. }
  have m1 : const_mx a \in distinct (squares x).
  { rewrite distinctE firsts_mem; apply/mapP; exists j1; rewrite ?mem_enum //; apply/colP => i; by rewrite !mxE H1. }
  move/(nthP 0): m0 => [p0 q0 e0]; move/(nthP 0): m1 => [p1 q1 e1].
  have ne : Ordinal q1 != Ordinal q0.
  { apply/eqP => -[E]; have /colP/(_ (Ordinal n0)) : const_mx a = const_mx 1 :> 'cV[R]_n by rewrite -e0 -e1 E.
    by rewrite !mxE => /eqP; rewrite (negbTE a1). }
  move/(_ (fun j => if j == Ordinal q1 then 1 else if j == Ordinal q0 then - a else 0)) => H.
  have := H _ (Ordinal q1); rewrite eqxx => /(_ _)/eqP; rewrite oner_eq0 => H'; apply: notF; apply: H' => i.
  rewrite (bigD1 (Ordinal q1)) //= eqxx e1 mxE (bigD1 (Ordinal q0)) ?(eq_sym (Ordinal q0)) //= (negbTE ne) eqxx e0 mxE big1 ?addr0 ?mulr1 ?mul1r ?subrr //.
  by move=> j /andP[n1 n2]; rewrite (negbTE n1) (negbTE n2) mul0r. }
rewrite bpE kbE; split.
- by have -> : explained (distinct (squares x)) (bp_g u) = DErr LinAlgError by apply/explained_fail.
- by have -> : explained (distinct (squares x)) (kb_g u) = DErr LinAlgError by apply/explained_fail.
Qed.
