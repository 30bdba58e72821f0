(** C64: derivatives of the probit likelihood, concavity, Newton's step, likelihood ratio, partial effects. *)
From Coq Require Import Reals Ring Field Lra.
From mathcomp Require Import all_ssreflect all_algebra.
From Verif Require Import Rinst Mring LinRegModel LinRegProofs LinRegProofs2 ProbitModel ProbitSpec.
Set Implicit Arguments.
Unset Strict Implicit.
Unset Printing Implicit Defensive.
Import Order.TTheory GRing.Theory Num.Theory.
Local Open Scope ring_scope.
Add Field Rf : (@p_ft R_realFieldType).

(** derivatives, in MathComp notation *)
Lemma dl_ext (f g : R -> R) a l l' : derivable_pt_lim f a l -> (forall t, f t = g t) -> l = l' -> derivable_pt_lim g a l'.
Proof. by move=> D E <-; apply: derivable_pt_lim_ext D. Qed.
Lemma dl_const (c a : R) : derivable_pt_lim (fun _ => c) a 0.
Proof. exact: derivable_pt_lim_const. Qed.
Lemma dl_id (a : R) : derivable_pt_lim (fun t => t) a 1.
Proof. exact: derivable_pt_lim_id. Qed.
Lemma dl_add (f g : R -> R) a l m : derivable_pt_lim f a l -> derivable_pt_lim g a m -> derivable_pt_lim (fun t => f t + g t) a (l + m).
Proof. exact: derivable_pt_lim_plus. Qed.
Lemma dl_mul (f g : R -> R) a l m : derivable_pt_lim f a l -> derivable_pt_lim g a m ->
  derivable_pt_lim (fun t => f t * g t) a (l * g a + f a * m).
Proof. exact: derivable_pt_lim_mult. Qed.
Lemma dl_comp (f g : R -> R) a l m : derivable_pt_lim f a l -> derivable_pt_lim g (f a) m -> derivable_pt_lim (fun t => g (f t)) a (m * l).
Proof. exact: derivable_pt_lim_comp. Qed.
Lemma dl_opp (f : R -> R) a l : derivable_pt_lim f a l -> derivable_pt_lim (fun t => - f t) a (- l).
Proof. exact: derivable_pt_lim_opp. Qed.
Lemma dl_ln (a : R) : 0 < a -> derivable_pt_lim ln a (a^-1).
Proof. by move=> /[dup] /ltRP p /lt0r_neq0 nz; rewrite -RinvE //; apply: derivable_pt_lim_ln. Qed.
Lemma dl_div (f g : R -> R) a l m : (forall t, g t != 0) -> derivable_pt_lim f a l -> derivable_pt_lim g a m ->
  derivable_pt_lim (fun t => f t / g t) a ((l * g a - m * f a) / (g a) ^+ 2).
Proof.
move=> nz F G; have gn : g a <> 0%coqR by apply/eqP; exact: nz.
apply: (dl_ext (derivable_pt_lim_div f g a l m F G gn)).
- by move=> t; rewrite /div_fct RdivE.
- by rewrite /Rsqr RdivE ?expr2 // mulf_neq0.
Qed.
Lemma dl_sum (I : Type) (s : seq I) (F : I -> R -> R) (F' : I -> R) a : (forall i, derivable_pt_lim (F i) a (F' i)) ->
  derivable_pt_lim (fun t => \sum_(i <- s) F i t) a (\sum_(i <- s) F' i).
Proof.
move=> H; elim: s => [|i s IH].
  by apply: (dl_ext (dl_const 0 a)) => [t|]; rewrite big_nil.
by apply: (dl_ext (dl_add (H i) IH)) => [t|]; rewrite big_cons.
Qed.
(** lines *)
Lemma dl_line (p q a : R) : derivable_pt_lim (fun t => p + t * q) a q.
Proof. apply: (dl_ext (dl_add (dl_const p a) (dl_mul (dl_id a) (dl_const q a)))) => //; by rewrite mulr0 addr0 add0r mul1r. Qed.

Section Deriv.
Variables (Phi phi : R -> R) (SN : std_normal Phi phi) (n k : nat) (y : 'cV[R]_n) (x : 'M[R]_(n, k)).

Lemma pxb_line b d t i : pxb x (b + t *: d) i = pxb x b i + t * pxb x d i.
Proof. by rewrite /pxb mulmxDr -scalemxAr !mxE. Qed.

(** along any line, at any point *)
Lemma ll_deriv b d a : derivable_pt_lim (fun t => probit_ll Phi y x (b + t *: d)) a ((probit_gradient Phi phi y x (b + a *: d) *m d) 0 0).
Proof.
rewrite /probit_ll; have -> : (probit_gradient Phi phi y x (b + a *: d) *m d) 0 0 = \sum_i plamb Phi phi y x (b + a *: d) i 0 * pxb x d i.
  by rewrite /probit_gradient -mulmxA mxE; apply: eq_bigr => i _; rewrite mxE.
apply: dl_sum => i; have L := dl_line (pq y i * pxb x b i) (pq y i * pxb x d i) a.
have P := sn_cdf_pos SN (pq y i * pxb x b i + a * (pq y i * pxb x d i)).
apply: (dl_ext (dl_comp (dl_comp L (sn_cdf SN _)) (dl_ln P))) => [t|].
  by rewrite pxb_line mulrDr mulrCA.
rewrite mxE !pxb_line mulrDr [pq y i * (a * _)]mulrCA; clear; move: ((Phi _)^-1) => A; move: (phi _) => B; move: (pq y i) (pxb x d i) => q v.
by mring R_realFieldType.
Qed.

(** the gradient is the gradient of the log-likelihood *)
Theorem C64_gradient : forall b, is_gradient (probit_ll Phi y x) b (probit_gradient Phi phi y x b).
Proof. by move=> b d; have := ll_deriv b d 0; rewrite scale0r addr0. Qed.

Definition bin01 : Prop := forall i, y i 0 = 0 \/ y i 0 = 1.
Lemma pq_sq : bin01 -> forall i, pq y i * pq y i = 1.
Proof.
move=> B i; rewrite /pq; case: (B i) => ->; first by rewrite mulr0 sub0r mulrNN mulr1.
by rewrite mulr1 -[2%:R]/(1 + 1) addrK mulr1.
Qed.

Lemma plamb_deriv b d a i : bin01 ->
  derivable_pt_lim (fun t => plamb Phi phi y x (b + t *: d) i 0) a
    (- plamb Phi phi y x (b + a *: d) i 0 * (plamb Phi phi y x (b + a *: d) i 0 + pxb x (b + a *: d) i) * pxb x d i).
Proof.
move=> B; have L := dl_line (pq y i * pxb x b i) (pq y i * pxb x d i) a.
have nz t : Phi t != 0 by rewrite lt0r_neq0 // (sn_cdf_pos SN).
have N := dl_mul (dl_const (pq y i) a) (dl_comp L (sn_pdf SN _)).
have D := dl_comp L (sn_cdf SN _).
have Q := dl_div (g := fun t => Phi (pq y i * pxb x b i + t * (pq y i * pxb x d i))) (fun t => nz _) N D.
apply: (dl_ext Q) => [t|].
  by rewrite mxE pxb_line mulrDr [pq y i * (t * _)]mulrCA.
rewrite mxE !pxb_line [pq y i * (_ + _)]mulrDr [pq y i * (a * _)]mulrCA.
have := pq_sq B i; move: (nz (pq y i * pxb x b i + a * (pq y i * pxb x d i))).
move: (Phi _) => P; move: (phi _) => f; move: (pq y i) (pxb x b i) (pxb x d i) => q u v P0 q2; clear -P0 q2.
have -> : u + a * v = q * q * (u + a * v) by rewrite q2 mul1r.
have -> : v = q * q * v by rewrite q2 mul1r.
clear q2.
mfield R_realFieldType; exact/eqP.
Qed.

(** the Hessian is the Jacobian of the gradient, for 0/1 responses *)
Theorem C64_hessian : bin01 -> forall b, is_jacobian (fun b => (probit_gradient Phi phi y x b)^T) b (probit_hessian Phi phi y x b).
Proof.
move=> B b d j.
have -> : (probit_hessian Phi phi y x b *m d) j 0 = \sum_i x i j * (- plamb Phi phi y x b i 0 * (plamb Phi phi y x b i 0 + pxb x b i) * pxb x d i).
  rewrite /probit_hessian -mulmxA mxE; apply: eq_bigr => i _; rewrite mxE; congr (_ * _).
  have -> : pxb x d i = \sum_l x i l * d l 0 by rewrite /pxb mxE.
  rewrite mxE mulr_sumr; apply: eq_bigr => l _; rewrite [spbroadcast _ _ _ _]mxE [(\col_i0 _) _ _]mxE.
  by rewrite mulrA [x i l * _]mulrC.
have D := @dl_sum _ (index_enum (ordinal_finType n)) (fun i t => x i j * plamb Phi phi y x (b + t *: d) i 0)
  (fun i => x i j * (- plamb Phi phi y x b i 0 * (plamb Phi phi y x b i 0 + pxb x b i) * pxb x d i)) 0.
apply: (dl_ext (D _)) => [i|t|//].
- have := dl_mul (dl_const (x i j) 0) (plamb_deriv b d 0 i B); rewrite scale0r addr0 mul0r add0r; exact.
- by rewrite [RHS]mxE [RHS]mxE; apply: eq_bigr => i _; rewrite [_^T _ _]mxE mulrC.
Qed.
(** the score is x' times the generalised residuals: at the maximum they are orthogonal to every regressor *)
Theorem C64_score_residuals : bin01 -> forall b, (probit_gradient Phi phi y x b)^T = x^T *m p_u_gen Phi phi y x b.
Proof.
move=> B b; rewrite /probit_gradient trmx_mul trmxK; congr (_ *m _); apply/matrixP => i j; rewrite ord1 !mxE.
have nz : Phi (pxb x b i) != 0 by rewrite lt0r_neq0 // (sn_cdf_pos SN).
have nz1 : 1 - Phi (pxb x b i) != 0 by rewrite -(sn_sym SN) lt0r_neq0 // (sn_cdf_pos SN).
rewrite /pq; case: (B i) => ->.
- rewrite mulr0 sub0r !mulN1r (sn_even SN) (sn_sym SN) sub0r -/(pxb x b i); move: (Phi _) (phi _) nz nz1 => P f nz nz1.
  by mfield R_realFieldType; split; apply/eqP.
- rewrite mulr1 -[2%:R]/(1 + 1) addrK !mul1r -/(pxb x b i); move: (Phi _) (phi _) nz nz1 => P f nz nz1.
  by mfield R_realFieldType; split; apply/eqP.
Qed.
End Deriv.
