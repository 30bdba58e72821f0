From mathcomp Require Import all_ssreflect all_algebra.
From Verif Require Import LinRegModel LinRegProofs LinRegProofs2.
Set Implicit Arguments.
Unset Strict Implicit.
Unset Printing Implicit Defensive.
Import Order.TTheory GRing.Theory Num.Theory.
Local Open Scope ring_scope.

Section P.
Variable R : realFieldType.
Implicit Types n k h : nat.

(** fit measures *)
Definition tss n (y : 'cV[R]_n) : R := \sum_i (y i 0 - mean_of y) ^+ 2.

Lemma tssE n (y : 'cV[R]_n) : tss y = utu_of (y - const_mx (mean_of y)).
Proof. by apply: eq_bigr => i _; rewrite !mxE. Qed.

Lemma ols_decomp n k (y : 'cV[R]_n) (x : 'M[R]_(n, k)) rb g s o (c : 'cV[R]_k) :
  base_ols y x rb g s = Some o -> x *m c = const_mx 1 ->
  tss y = \sum_i (o_predy o i 0 - mean_of y) ^+ 2 + utu_of (o_u o).
Proof.
move=> H Hc; have [_ _ P U _] := ols_fields H; rewrite tssE.
have -> : y - const_mx (mean_of y) = (o_predy o - const_mx (mean_of y)) + o_u o by rewrite U [RHS]addrC addrA subrK.
rewrite utuD.
have -> : o_predy o - const_mx (mean_of y) = x *m (o_betas o - mean_of y *: c).
{ by rewrite mulmxBr -P -scalemxAr Hc; congr (_ - _); apply/matrixP => i j; rewrite !mxE mulr1. }
rewrite trmx_mul -mulmxA (ols_orth H) mulmx0 [X in X *+ 2]mxE mul0rn addr0; congr (_ + _).
have <- : o_predy o - const_mx (mean_of y) = x *m (o_betas o - mean_of y *: c).
{ by rewrite mulmxBr -P -scalemxAr Hc; congr (_ - _); apply/matrixP => i j; rewrite !mxE mulr1. }
by apply: eq_bigr => i _; rewrite !mxE.
Qed.

Lemma tss_ge0 n (y : 'cV[R]_n) : 0 <= tss y.
Proof. by apply: sumr_ge0 => i _; exact: sqr_ge0. Qed.

Lemma mean_const n a : (0 < n)%N -> mean_of (const_mx a : 'cV[R]_n) = a.
Proof.
move=> n0; rewrite /mean_of (eq_bigr (fun=> a)) => [|i _]; last by rewrite mxE.
by rewrite sumr_const card_ord -[a *+ n]mulr_natr mulfK // pnatr_eq0 -lt0n.
Qed.

Lemma tss_gt0 n (y : 'cV[R]_n) : (exists i j, y i 0 != y j 0) -> 0 < tss y.
Proof.
case=> i [j Hij]; rewrite lt0r tss_ge0 andbT tssE utu_eq0; apply: contra Hij => /eqP/subr0_eq H.
by rewrite H !mxE.
Qed.

(** regimes *)
Section Reg.
Variables (n k m : nat) (g : 'I_n -> 'I_m).
Notation members := (members g).
Notation regime_x := (regime_x g).

Lemma regime_xE (x : 'M[R]_(n, k)) i p j : regime_x x i (mxvec_index p j) = if g i == p then x i j else 0.
Proof. by rewrite mxE mxvecE mxE. Qed.

Lemma regime_row (x : 'M[R]_(n, k)) i : row i (regime_x x) = mxvec ((delta_mx 0 (g i))^T *m row i x).
Proof.
apply/rowP => c; rewrite mxE mxE; congr (mxvec _ 0 c).
apply/matrixP => p j; rewrite !mxE big_ord1 !mxE !eqxx /= eq_sym.
by case: eqP => _; rewrite ?mul1r ?mul0r.
Qed.

Lemma stackE (b : 'I_m -> 'cV[R]_k) p j : stack b (mxvec_index p j) 0 = b p j 0.
Proof. by rewrite mxE mxvecE mxE. Qed.

Lemma regime_mul (x : 'M[R]_(n, k)) b i : (regime_x x *m stack b) i 0 = (x *m b (g i)) i 0.
Proof.
have -> : (regime_x x *m stack b) i 0 = (row i (regime_x x) *m stack b) 0 0 by rewrite -row_mul [RHS]mxE.
rewrite regime_row /stack mxvec_dotmul -rowE.
rewrite !mxE; apply: eq_bigr => j _; rewrite !mxE mulrC //.
Qed.

Lemma stack_surj (c : 'cV[R]_(m * k)) : exists b, c = stack b.
Proof.
exists (fun p => \col_j vec_mx c^T p j); apply: trmx_inj; rewrite /stack trmxK -[LHS]vec_mxK.
by congr mxvec; apply/matrixP => p j; rewrite !mxE.
Qed.

Lemma stack_eq0 (b : 'I_m -> 'cV[R]_k) : (forall p, b p = 0) -> stack b = 0.
Proof.
move=> H; rewrite /stack -[RHS]trmx0 -[X in _ = X^T](linear0 (mxvec_linear _ m k)) /=; congr ((mxvec _)^T).
by apply/matrixP => p j; rewrite !mxE H mxE.
Qed.

Lemma rows_mul p (x : 'M[R]_(n, k)) q (b : 'M[R]_(k, q)) : rows_of g x p *m b = rows_of g (x *m b) p.
Proof. by apply/matrixP => i j; rewrite !mxE; apply: eq_bigr => l _; rewrite mxE. Qed.

Lemma sum_members (F : 'I_n -> R) p : \sum_(i < #|members p|) F (enum_val i) = \sum_(i | g i == p) F i.
Proof. by rewrite -(big_enum_val (A := members p) F) /=; apply: eq_bigl => i; rewrite inE. Qed.

Lemma member_val p (i : 'I_n) : g i == p -> exists j : 'I_#|members p|, enum_val j = i.
Proof.
move=> Hi; have Hin : i \in members p by rewrite inE.
by exists (enum_rank_in Hin i); rewrite enum_rankK_in.
Qed.

Lemma regime_gram (x : 'M[R]_(n, k)) :
  ((regime_x x)^T *m regime_x x \in unitmx) <-> (forall p, (rows_of g x p)^T *m rows_of g x p \in unitmx).
Proof.
split.
- move/gram_unit => H p; apply/gram_unit => c Hc.
  pose b q := if q == p then c else 0 : 'cV[R]_k.
  have /H : regime_x x *m stack b = 0.
  { apply/colP => i; rewrite regime_mul [RHS]mxE /b; case: eqP => [Hi|_]; last by rewrite mulmx0 mxE.
    have [j Ej] := member_val (introT eqP Hi).
    by have := congr1 (fun z : 'cV[R]_(#|members p|) => z j 0) Hc; rewrite rows_mul [X in X = _]mxE [X in _ = X]mxE Ej. }
  move=> Hs; apply/colP => j; rewrite mxE.
  have := congr1 (fun z : 'cV[R]_(m * k) => z (mxvec_index p j) 0) Hs; rewrite stackE /b eqxx mxE //.
- move=> H; apply/gram_unit => c; have [b ->] := stack_surj c => Hc.
  apply: stack_eq0 => p; have /gram_unit Hp := H p; apply: Hp; rewrite rows_mul; apply/colP => i; rewrite [LHS]mxE [RHS]mxE.
  have Hi : g (enum_val i) = p by exact: (eqP (enum_valP i)).
  have := congr1 (fun z : 'cV[R]_n => z (enum_val i) 0) Hc; by rewrite regime_mul Hi => ->; rewrite mxE.
Qed.

Lemma regime_ols (y : 'cV[R]_n) (x : 'M[R]_(n, k)) rb gw s (os : forall p, ols R #|members p| k) :
  (forall p, base_ols (rows_of g y p) (rows_of g x p) RobNone None s = Some (os p)) ->
  exists o, [/\ base_ols y (regime_x x) rb gw s = Some o, o_betas o = stack (fun p => o_betas (os p)) &
    forall p i, o_u o (enum_val i) 0 = o_u (os p) i 0 /\ o_predy o (enum_val i) 0 = o_predy (os p) i 0].
Proof.
move=> H; have UG : (regime_x x)^T *m regime_x x \in unitmx by apply/regime_gram => p; exact: (ols_gram (H p)).
pose o := ols_of_xtxi y (regime_x x) rb gw s (invmx ((regime_x x)^T *m regime_x x)).
have Ho : base_ols y (regime_x x) rb gw s = Some o by exact: ols_Some.
have Hb : o_betas o = stack (fun p => o_betas (os p)).
{ symmetry; apply: (ols_unique Ho); rewrite -mulmxA; apply/eqP; rewrite -subr_eq0 -mulmxBr; apply/eqP/colP => c.
  case: (mxvec_indexP c) => p j; rewrite [LHS]mxE [RHS]mxE.
  rewrite (eq_bigr (fun i => if g i == p then x i j * (x *m o_betas (os p) - y) i 0 else 0)); last first.
  { move=> i _; rewrite [(regime_x x)^T _ _]mxE regime_xE; case: eqP => [Hi|_]; last by rewrite mul0r.
    by congr (_ * _); rewrite [LHS]mxE [RHS]mxE regime_mul Hi. }
  rewrite -big_mkcond /= -sum_members.
  have := congr1 (fun z : 'cV[R]_k => z j 0) (ols_orth (H p)); rewrite [X in X = _]mxE [X in _ = X]mxE => E.
  apply/eqP; rewrite -oppr_eq0 -sumrN -[X in _ == X]E; apply/eqP/eq_bigr => i _.
  have [_ _ P U _] := ols_fields (H p); rewrite U P rows_mul !mxE -mulrN opprB //. }
exists o; split=> // p i.
have [_ _ P U _] := ols_fields Ho; have [_ _ P' U' _] := ols_fields (H p).
have Hi : g (enum_val i) = p by exact: (eqP (enum_valP i)).
have Hp : o_predy o (enum_val i) 0 = o_predy (os p) i 0.
{ by rewrite P Hb regime_mul Hi P' rows_mul [RHS]mxE. }
by split=> //; rewrite U U' [LHS]mxE [RHS]mxE [(- _ : 'cV_n) _ _]mxE [(- _ : 'cV_#|_|) _ _]mxE Hp; congr (_ - _); rewrite mxE.
Qed.
End Reg.
End P.
