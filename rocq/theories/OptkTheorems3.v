(** C89: the rule documented (Mojena) and the rule of the code differ; concrete cases. *)
From mathcomp Require Import all_ssreflect all_algebra.
From Verif Require Import Mring OptkModel OptkSpec OptkTheorems OptkTheorems2.
Set Implicit Arguments.
Unset Strict Implicit.
Unset Printing Implicit Defensive.
Import Order.TTheory GRing.Theory Num.Theory.
Local Open Scope ring_scope.

Section Optk.
Variable R : rcfType.
Add Field Ff3 : (@p_ft R).
Notation z trace := (nth (0 : R) trace).
Lemma four (a b c d : R) : optim_k [:: a; b; c; d] (Some 2%N) = Some (if below (z [:: a; b; c; d]) 2 2 then 4%N else 3%N).
Proof. rewrite /optim_k /= andbF andbT testE //; by case: (below _ _ _). Qed.
Lemma mean2 (v : nat -> R) : mean 2 v = (v 0%N + v 1%N) / 2%:R.
Proof. by rewrite /mean !big_ord_recl big_ord0 addr0. Qed.
Lemma sd2 (v : nat -> R) : sd 2 v = `|v 0%N - v 1%N| / 2%:R.
Proof.
have t0 : (2%:R : R) != 0 by rewrite pnatr_eq0.
have -> : `|v 0%N - v 1%N| / 2%:R = `|(v 0%N - v 1%N) / 2%:R| by rewrite normrM normfV [`|2%:R|]ger0_norm ?ler0n.
rewrite /sd -sqrtr_sqr mean2 !big_ord_recl big_ord0 addr0 /= !expr2; congr Num.sqrt.
by move: t0; move: (v 0%N) (v 1%N) (2%:R : R) (E2 R) => x y a -> /eqP a0; mfield R.
Qed.
Lemma below2 (a b c d : R) : b <= a -> below (z [:: a; b; c; d]) 2 2 = (8%:R * c < 27%:R * b - 7%:R * a).
Proof.
move=> ab; rewrite C89_first // mean2 sd2 /win /= ger0_norm ?subr_ge0 //.
have e0 : (0 : R) < 8%:R by rewrite ltr0n.
rewrite -[LHS](ltr_pmul2l e0); congr (_ < _).
have /eqP t0 : (2%:R : R) != 0 by rewrite pnatr_eq0.
have e8 : 8%:R = 2%:R * 2%:R * 2%:R :> R by rewrite -!natrM.
have e4 : 4%:R = 2%:R * 2%:R :> R by rewrite -!natrM.
have e27 : 27%:R = 2%:R * 2%:R + 2%:R * 2%:R * 3%:R + 11%:R :> R by rewrite -!natrM -!natrD.
have e7 : 7%:R = 11%:R - 2%:R * 2%:R :> R by rewrite -natrM -natrB.
rewrite e8 e4 e27 e7.
by move: (2%:R : R) (3%:R : R) (11%:R : R) t0 => p q r p0; mfield R.
Qed.
(** Adding the same number to every SSR changes the answer *)
Theorem C89_shift_refuted : exists (trace : seq R) c w,
  [/\ all (fun x => 0 < x) trace, sorted (fun x y => y < x) trace, 0 < c & optim_k [seq x + c | x <- trace] (Some w) <> optim_k trace (Some w)].
Proof.
exists [:: 20%:R; 2%:R; 1; 2%:R^-1], 20%:R, 2%N; split=> //=.
- by rewrite !ltr0n ltr01 invr_gt0 ltr0n.
- by rewrite ltr_nat ltr1n invf_lt1 ?ltr0n ?ltr1n.
rewrite !four !below2 -?natrD ?ler_nat //.
have -> : (8%:R * (1 + 20%:R) < 27%:R * (2 + 20)%:R - 7%:R * (20 + 20)%:R :> R) = true.
  by rewrite -[1]/(1%:R) -!natrD -!natrM ltr_subr_addl -natrD ltr_nat.
have -> : (8%:R * 1 < 27%:R * 2%:R - 7%:R * 20%:R :> R) = false.
  by rewrite -[1]/(1%:R) -!natrM ltr_subr_addl -natrD ltr_nat.
by [].
Qed.
(** SSR falling along a straight line: there is no significant drop at position 2 according to the rule cited in the documentation, so the
    search should stop there (answer 3), but it goes on *)
Theorem C89_mojena_refuted : exists trace : seq R,
  [/\ all (fun x => 0 < x) trace, sorted (fun x y => y < x) trace, mojena (z trace) 2 2 false & optim_k trace (Some 2%N) = Some 4%N].
Proof.
exists [:: 10%:R; 9%:R; 8%:R; 7%:R]; split=> //=.
- by rewrite !ltr0n.
- by rewrite !ltr_nat.
- move=> a b /ls_lineP-/(_ isT) [-> ->]; rewrite sd2 /win /= /ls_a mean2 /ls_b !big_ord_recl big_ord0 addr0 /=.
  have -> : SS R 2 = 2%:R^-1.
    rewrite /SS (_ : 12%:R = 2%:R * (2%:R * (2%:R ^+ 2 - 1)) :> R); last by rewrite -natrX -[1]/(1%:R) -natrB // -!natrM.
    have d0 : 2%:R * (2%:R ^+ 2 - 1) != 0 :> R by rewrite -natrX -[1]/(1%:R) -natrB // -!natrM pnatr_eq0.
    by rewrite invfM mulrCA mulfV // mulr1.
  symmetry; apply/negbTE; rewrite -leNgt.
  have -> : `|10%:R - 9%:R| = 1 :> R by rewrite -natrB // normr1.
  set b0 := _ / 2%:R^-1; have bE : b0 = -1.
    rewrite /b0 /tb invrK; have /eqP t0 : (2%:R : R) != 0 by rewrite pnatr_eq0.
    rewrite (_ : 10%:R = 1 + 9%:R :> R); last by rewrite -[1]/(1%:R) -natrD.
    rewrite (_ : 1%:R = 1) //; move: (9%:R : R) (2%:R : R) t0 (E2 R) => x aa t0 aE; rewrite aE in t0 *; by mfield R.
  rewrite bE /tb; have h0 : (0 : R) <= 11%:R / 4%:R * (1 / 2%:R) by rewrite !mulr_ge0 ?invr_ge0 ?ler0n ?ler01.
  rewrite ler_subl_addr (le_trans _ (_ : 8%:R <= _)) ?ler_addl //.
  rewrite le_eqVlt; apply/orP; left; apply/eqP; have /eqP t0 : (2%:R : R) != 0 by rewrite pnatr_eq0.
  rewrite (_ : 10%:R = 8%:R + (1 + 1) :> R); last by rewrite -[1]/(1%:R) -!natrD.
  rewrite (_ : 9%:R = 8%:R + 1 :> R); last by rewrite -[1]/(1%:R) -!natrD.
  rewrite (_ : 3%:R = 1 + 1 + 1 :> R); last by rewrite -[1]/(1%:R) -!natrD.
  move: (8%:R : R) (2%:R : R) t0 (E2 R) => x aa t0 aE; rewrite aE in t0 *; by mfield R.
rewrite four below2 ?ler_nat // (_ : _ < _) // ltr_subr_addl -!natrM -natrD ltr_nat //.
Qed.
(** A window and a trace that meet the hypotheses of C89_result and for which the search stops before the end *)
Theorem C89_witness : optim_k [:: 10%:R; 1; 2%:R^-1; 2%:R^-1 : R] (Some 2%N) = Some 3%N.
Proof.
rewrite four below2 ?ler1n // (_ : (_ < _) = false) //; apply/negbTE; rewrite -leNgt mulr1 -natrM.
apply: (@le_trans _ _ 0); first by rewrite subr_le0 ler_nat.
by rewrite mulr_ge0 ?invr_ge0 ?ler0n.
Qed.
End Optk.
Print Assumptions C89_result.
