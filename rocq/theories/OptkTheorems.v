(** C89: the number of regimes chosen from the trace of SSR. *)
From mathcomp Require Import all_ssreflect all_algebra.
From Verif Require Import Mring OptkModel OptkSpec.
Set Implicit Arguments.
Unset Strict Implicit.
Unset Printing Implicit Defensive.
Import Order.TTheory GRing.Theory Num.Theory.
Local Open Scope ring_scope.

Section Optk.
Variable R : rcfType.
Add Field Ff : (@p_ft R).
Implicit Types (trace l : seq R) (w i j : nat).
Notation z trace := (nth (0 : R) trace).
Lemma nth_slice a b l t : (t < b - a)%N -> nth 0 (slice a b l) t = nth 0 l (a + t).
Proof. by move=> h; rewrite /slice nth_take // nth_drop. Qed.
Lemma size_slice a b l : (a <= b)%N -> (b <= size l)%N -> size (slice a b l) = (b - a)%N.
Proof. by move=> ab bl; rewrite /slice size_take size_drop; case: ltnP => // h; apply/eqP; rewrite eqn_leq h leq_sub2r. Qed.
Lemma sum_slice (F : R -> R) a m l : (a + m <= size l)%N -> \sum_(x <- slice a (a + m) l) F x = \sum_(t < m) F (z l (a + t)).
Proof.
move=> h; rewrite (big_nth 0) size_slice ?leq_addr // addKn big_mkord; apply: eq_bigr => t _.
by rewrite nth_slice ?addKn // ltn_ord.
Qed.
Lemma maE trace w i : (i + w <= size trace)%N -> optk_ma trace w i = mean w (fun t => z trace (i + t)).
Proof.
move=> h; rewrite /optk_ma /np_sum big_map (sum_slice (fun x => x * (1 / w%:R))) // /mean mulr_suml.
by apply: eq_bigr => t _; rewrite div1r.
Qed.
Lemma stdE trace w i : (i + w <= size trace)%N -> np_std (slice i (i + w) trace) = sd w (fun t => z trace (i + t)).
Proof.
move=> h; rewrite /np_std /sd; have -> : np_mean (slice i (i + w) trace) = mean w (fun t => z trace (i + t)).
  by rewrite /np_mean /np_sum (sum_slice id) // size_slice ?leq_addr // addKn.
by rewrite (sum_slice (fun x => (x - mean w (fun t => z trace (i + t))) ^+ 2)) // size_slice ?leq_addr // addKn.
Qed.
Lemma arangeE l : np_sum (arange_mul l) = \sum_(t < size l) t.+1%:R * nth 0 l t.
Proof.
rewrite /np_sum /arange_mul big_map (big_nth (0%N, 0)) size_zip size_iota minnn big_mkord; apply: eq_bigr => t _.
by rewrite nth_zip ?size_iota // nth_iota.
Qed.
(** the number the code uses as the slope of the trend *)
Definition code_slope (zz : nat -> R) w i : R :=
  12%:R / (w%:R * (w%:R ^+ 2 - 1)) * \sum_(t < i.+1) (t.+1%:R - (w%:R + 1) / 2%:R) * zz (w.-1 + t)%N.
Lemma two0 : (2%:R : R) != 0. Proof. by rewrite pnatr_eq0. Qed.
Lemma bE trace w i : (0 < w)%N -> (i + w <= size trace)%N -> optk_b trace w i = code_slope (z trace) w i.
Proof.
move=> w0 h; rewrite /optk_b /code_slope.
have iw : (i + w = w.-1 + i.+1)%N by rewrite addnS -addSn prednK // addnC.
have h' : (w.-1 + i.+1 <= size trace)%N by rewrite -iw.
rewrite arangeE iw size_slice ?leq_addr // addKn /np_sum (sum_slice id) //.
rewrite (eq_bigr (fun t : 'I_i.+1 => t.+1%:R * z trace (w.-1 + t))) => [|t _]; last by rewrite nth_slice ?addKn ?ltn_ord.
have E : 12%:R / (w%:R * (w%:R ^+ 2 - 1)) = (6%:R / (w%:R * (w%:R * w%:R - 1))) * 2%:R :> R.
  by rewrite -[12%:R]/((6 * 2)%:R) natrM mulrAC -expr2.
rewrite E -[RHS]mulrA; congr (_ * _).
rewrite mulr_sumr mulr_sumr mulr_sumr -sumrB; apply: eq_bigr => t _.
by rewrite mulrBl mulrBr; congr (_ - _); rewrite [RHS]mulrA [2%:R * (_ / _)]mulrC divfK ?two0.
Qed.
(** the comparison made at position j = i + w, in terms of the window before j *)
Definition below (zz : nat -> R) w j : bool :=
  zz j < mean w (win zz w j) - (w%:R + 1) / 2%:R * code_slope zz w (j - w) - 11%:R / 4%:R * sd w (win zz w j).
Lemma testE trace w i : (0 < w)%N -> (i + w <= size trace)%N -> optk_test trace w i = below (z trace) w (i + w).
Proof.
move=> w0 h; rewrite /optk_test /below maE // stdE // bE // /win addnK; congr (_ < _ - _).
rewrite -addrA; congr (_ + _); rewrite -opprD; congr (- _).
by move: (code_slope _ _ _) two0 => c /eqP t0; rewrite -[2%:R]/(1 + 1) in t0 *; move: (w%:R) => u; mfield R.
Qed.
Lemma loopP trace w fuel i : (0 < w)%N -> (w <= size trace)%N -> (i <= size trace - w)%N -> (size trace - w - i < fuel)%N ->
  let r := optk_loop trace w fuel i true in
  [/\ (i <= r <= size trace - w)%N, (i < size trace - w)%N -> (i < r)%N,
      forall k, (i <= k < r.-1)%N -> below (z trace) w (k + w) & (r < size trace - w)%N -> ~~ below (z trace) w (r.-1 + w)].
Proof.
move=> w0 wN; elim: fuel i => [//|f IH] i iN fu /=.
case: ltnP => iN'; last first.
  have -> : i = (size trace - w)%N by apply/eqP; rewrite eqn_leq iN iN'.
  split; rewrite ?leqnn ?ltnn // => k /andP [a b]; have := leq_ltn_trans a b; by case: (size trace - w)%N => // m; rewrite ltnNge leqnSn.
have h : (i + w <= size trace)%N by rewrite -(subnK wN) leq_add2r ltnW.
rewrite testE //; case E : (below _ _ _).
  have fu' : (size trace - w - i.+1 < f)%N by rewrite subnS; case: (size trace - w - i)%N (iN') fu (subn_gt0 i (size trace - w)) => [|m]; rewrite ?iN' // => _; rewrite ltnS.
  have [/andP [a b] c d e] := IH i.+1 iN' fu'; split=> //; first by rewrite (ltnW a).
  by move=> k /andP []; rewrite leq_eqVlt => /orP [/eqP <- //|ik kr]; apply: d; rewrite ik.
have -> : optk_loop trace w f i.+1 false = i.+1 by case: f {IH fu}.
split=> //=; first by rewrite leqnSn iN'.
- by move=> k /andP [a b]; have := leq_ltn_trans a b; rewrite ltnn.
- by rewrite E.
Qed.
(** The answer lies between the window and the number of values; every value before the last one examined was below its band, and unless the
    values are exhausted the one at which the search stopped was not. *)
Theorem C89_result trace w : (1 < w)%N -> (w <= size trace)%N ->
  exists r, [/\ optim_k trace (Some w) = Some r, (w <= r <= size trace)%N, (w < size trace)%N -> (w < r)%N,
    forall j, (w <= j < r.-1)%N -> below (z trace) w j & (r < size trace)%N -> (r == w) || ~~ below (z trace) w r.-1].
Proof.
move=> w1 wN; have w0 := ltnW w1; rewrite /optim_k /optk_window.
have N0 : (size trace == 0%N) = false by apply/negbTE; rewrite -lt0n (leq_trans w0).
case: w w1 w0 wN => [//|w'] w1 w0 wN; set w := w'.+1 in w1 w0 wN *.
rewrite N0 (_ : (w == 1%N) = false) /=; last by rewrite gtn_eqF.
have [/andP [_ b] c d e] := @loopP trace w (size trace - w).+1 0 w0 wN (leq0n _) (leq_trans (leq_subr _ _) (leqnn _)).
set r := optk_loop _ _ _ _ _ in b c d e *; exists (r + w)%N; split=> //.
- by rewrite leq_addl -(subnK wN) leq_add2r.
- by rewrite -subn_gt0 => /c r0; rewrite -{1}[w]add0n ltn_add2r.
- move=> j /andP [wj jr]; have := d (j - w)%N; rewrite subnK // leq0n /=; apply.
  move: jr; case: (r) => [|m] /=; last by rewrite -{1}(subnK wj) ltn_add2r.
  by move=> jw; have := leq_trans jw (leqnSn _); rewrite ltnNge wj.
- rewrite -{1}(subnK wN) ltn_add2r => /e; case: (r) => [|m] /=; first by rewrite add0n eqxx.
  by move=> ->; rewrite orbT.
Qed.
End Optk.
