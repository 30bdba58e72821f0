From mathcomp Require Import all_ssreflect all_algebra.
From Verif Require Import LinRegModel.
Set Implicit Arguments.
Unset Strict Implicit.
Unset Printing Implicit Defensive.
Import Order.TTheory GRing.Theory Num.Theory.
Local Open Scope ring_scope.

Section P.
Variable R : realFieldType.
Implicit Types n k h : nat.

Lemma dotE n (u v : 'cV[R]_n) : (u^T *m v) 0 0 = \sum_i u i 0 * v i 0.
Proof. by rewrite mxE; apply: eq_bigr => i _; rewrite mxE. Qed.

Lemma utuE n (u : 'cV[R]_n) : utu_of u = (u^T *m u) 0 0.
Proof. by rewrite dotE /utu_of; apply: eq_bigr => i _; rewrite expr2. Qed.

Lemma utu_ge0 n (u : 'cV[R]_n) : 0 <= utu_of u.
Proof. by apply: sumr_ge0 => i _; apply: sqr_ge0. Qed.

Lemma utu_eq0 n (u : 'cV[R]_n) : (utu_of u == 0) = (u == 0).
Proof.
apply/eqP/eqP => [H|->].
- apply/colP => i; rewrite mxE; apply/eqP; rewrite -sqrf_eq0; apply/eqP.
  move: H; rewrite /utu_of => /eqP.
  rewrite psumr_eq0 => [/allP/(_ i)|j _]; last exact: sqr_ge0.
  by rewrite mem_index_enum /= => /(_ isT)/eqP.
- by rewrite /utu_of big1 // => i _; rewrite mxE expr0n.
Qed.

Lemma la_invP k (A : 'M[R]_k) B : la_inv A = Some B -> A \in unitmx /\ B = invmx A.
Proof. by rewrite /la_inv; case: ifP => // AU [<-]. Qed.

Lemma la_inv_unit k (A : 'M[R]_k) : A \in unitmx -> la_inv A = Some (invmx A).
Proof. by rewrite /la_inv => ->. Qed.

(** a square matrix is invertible iff its kernel (on columns) is trivial *)
Lemma unitmx_inj k (A : 'M[R]_k) : A \in unitmx <-> (forall c : 'cV[R]_k, A *m c = 0 -> c = 0).
Proof.
split=> [AU c Ac0|H]; first by rewrite -(mulKmx AU c) Ac0 mulmx0.
rewrite -unitmx_tr -row_free_unit -kermx_eq0; apply/eqP/row_matrixP => i; rewrite row0.
apply: trmx_inj; rewrite trmx0; apply: H.
apply: trmx_inj; rewrite trmx_mul trmxK trmx0 -row_mul mulmx_ker.
by rewrite row0.
Qed.

Lemma gram_ker n k (x : 'M[R]_(n, k)) (c : 'cV[R]_k) : x^T *m x *m c = 0 -> x *m c = 0.
Proof.
move=> H; apply/eqP; rewrite -utu_eq0 utuE trmx_mul -mulmxA [x^T *m _]mulmxA H mulmx0 mxE; exact: eqxx.
Qed.

Lemma gram_unit n k (x : 'M[R]_(n, k)) : x^T *m x \in unitmx <-> (forall c : 'cV[R]_k, x *m c = 0 -> c = 0).
Proof.
rewrite unitmx_inj; split=> H c Hc; apply: H; first by rewrite -mulmxA Hc mulmx0.
exact: gram_ker.
Qed.

Lemma utuD n (u v : 'cV[R]_n) : utu_of (u + v) = utu_of u + utu_of v + (u^T *m v) 0 0 *+ 2.
Proof.
rewrite dotE /utu_of -sumrMnl -!big_split /=; apply: eq_bigr => i _.
by rewrite mxE sqrrD addrAC addrA.
Qed.

Lemma utuN n (u : 'cV[R]_n) : utu_of (- u) = utu_of u.
Proof. by apply: eq_bigr => i _; rewrite mxE sqrrN. Qed.

Lemma invmx_sym k (A : 'M[R]_k) : A^T = A -> (invmx A)^T = invmx A.
Proof. by move=> H; rewrite trmx_inv H. Qed.

Lemma gram_sym n k (x : 'M[R]_(n, k)) : (x^T *m x)^T = x^T *m x.
Proof. by rewrite trmx_mul trmxK. Qed.

(** OLS *)
Lemma ols_normal n k (y : 'cV[R]_n) (x : 'M[R]_(n, k)) rb g s o : base_ols y x rb g s = Some o ->
  x^T *m x *m o_betas o = x^T *m y.
Proof. by rewrite /base_ols; case E: la_inv => [B|] // [<-] /=; case: (la_invP E) => U ->; rewrite mulKVmx. Qed.

Lemma ols_fields n k (y : 'cV[R]_n) (x : 'M[R]_(n, k)) rb g s o : base_ols y x rb g s = Some o ->
  [/\ o_x o = x, o_y o = y, o_predy o = x *m o_betas o, o_u o = y - o_predy o & o_xtxi o = invmx (x^T *m x)].
Proof. by rewrite /base_ols; case E: la_inv => [B|] // [<-] /=; case: (la_invP E) => U ->. Qed.

Lemma ols_orth n k (y : 'cV[R]_n) (x : 'M[R]_(n, k)) rb g s o : base_ols y x rb g s = Some o -> x^T *m o_u o = 0.
Proof.
move=> H; have [_ _ P U _] := ols_fields H; rewrite U P mulmxBr mulmxA (ols_normal H).
exact: subrr.
Qed.

Lemma ols_None n k (y : 'cV[R]_n) (x : 'M[R]_(n, k)) rb g s :
  base_ols y x rb g s = None <-> exists2 c : 'cV[R]_k, c != 0 & x *m c = 0.
Proof.
rewrite /base_ols /la_inv; case: ifP => U; split => //.
- case=> c c0 xc; case/negP: c0; apply/eqP; exact: (proj1 (gram_unit x) U).
- move=> _.
  have: ~~ [forall i, row i (kermx x^T) == 0].
  { apply/negP => /forallP Hk; move/negP: U; apply; apply/gram_unit => c xc.
    have : (c^T <= kermx x^T)%MS.
    { by apply/sub_kermxP; rewrite -trmx_mul xc trmx0. }
    have -> : kermx x^T = 0 by apply/row_matrixP => i; rewrite row0; apply/eqP/Hk.
    by rewrite submx0 => /eqP c0; rewrite -[c]trmxK c0 trmx0. }
  rewrite negb_forall => /existsP [i Hi]; exists (row i (kermx x^T))^T.
    by apply: contra Hi => /eqP H; rewrite -[row _ _]trmxK H trmx0.
  by apply: trmx_inj; rewrite trmx_mul trmxK trmx0 -row_mul mulmx_ker row0.
Qed.

Lemma ols_min n k (y : 'cV[R]_n) (x : 'M[R]_(n, k)) rb g s o (b : 'cV[R]_k) : base_ols y x rb g s = Some o ->
  utu_of (y - x *m b) = utu_of (o_u o) + utu_of (x *m (b - o_betas o)).
Proof.
move=> H; have [_ _ P U _] := ols_fields H.
have -> : y - x *m b = o_u o + - (x *m (b - o_betas o)) by rewrite U P mulmxBr opprB addrA subrK.
rewrite utuD utuN mulmxN mulmxA -[(o_u o)^T *m x]trmxK trmx_mul trmxK (ols_orth H) trmx0 mul0mx.
by rewrite oppr0 [X in X *+ 2]mxE mul0rn addr0.
Qed.

Lemma ols_gram n k (y : 'cV[R]_n) (x : 'M[R]_(n, k)) rb g s o : base_ols y x rb g s = Some o -> x^T *m x \in unitmx.
Proof. by rewrite /base_ols; case E: la_inv => [B|] //; case: (la_invP E). Qed.

Lemma ols_unique n k (y : 'cV[R]_n) (x : 'M[R]_(n, k)) rb g s o (b : 'cV[R]_k) : base_ols y x rb g s = Some o ->
  x^T *m x *m b = x^T *m y -> b = o_betas o.
Proof.
move=> H Hb; have U := ols_gram H; apply: (can_inj (mulKmx U)).
by rewrite Hb (ols_normal H).
Qed.

Lemma ols_Some n k (y : 'cV[R]_n) (x : 'M[R]_(n, k)) rb g s : x^T *m x \in unitmx ->
  base_ols y x rb g s = Some (ols_of_xtxi y x rb g s (invmx (x^T *m x))).
Proof. by move=> U; rewrite /base_ols la_inv_unit. Qed.

End P.
