(** C89: units, the trend line, refutations. *)
From mathcomp Require Import all_ssreflect all_algebra.
From Verif Require Import Mring OptkModel OptkSpec OptkTheorems.
Set Implicit Arguments.
Unset Strict Implicit.
Unset Printing Implicit Defensive.
Import Order.TTheory GRing.Theory Num.Theory.
Local Open Scope ring_scope.

Section Optk.
Variable R : rcfType.
Add Field Ff2 : (@p_ft R).
Implicit Types (trace l : seq R) (w i j : nat) (v zz : nat -> R).
Notation z trace := (nth (0 : R) trace).
Notation two0 := (two0 R).
(** Units of the SSR do not matter *)
Lemma slice_map (f : R -> R) a b l : slice a b (map f l) = map f (slice a b l).
Proof. by rewrite /slice -map_drop -map_take. Qed.
Lemma sum_scale c l : np_sum [seq c * x | x <- l] = c * np_sum l.
Proof. by rewrite /np_sum big_map mulr_sumr. Qed.
Lemma mean_scale c l : np_mean [seq c * x | x <- l] = c * np_mean l.
Proof. by rewrite /np_mean sum_scale size_map mulrA. Qed.
Lemma std_scale c l : 0 < c -> np_std [seq c * x | x <- l] = c * np_std l.
Proof.
move=> c0; rewrite /np_std big_map mean_scale size_map.
rewrite (eq_bigr (fun x => c ^+ 2 * (x - np_mean l) ^+ 2)) => [|x _]; last by rewrite -mulrBr exprMn.
by rewrite -mulr_sumr -mulrA sqrtrM ?sqr_ge0 // sqrtr_sqr gtr0_norm.
Qed.
Lemma arange_scale c l : np_sum (arange_mul [seq c * x | x <- l]) = c * np_sum (arange_mul l).
Proof.
rewrite !arangeE size_map mulr_sumr; apply: eq_bigr => t _; by rewrite (nth_map 0) // mulrCA.
Qed.
Lemma nth_scale c l j : nth 0 [seq c * x | x <- l] j = c * nth 0 l j.
Proof. case: (ltnP j (size l)) => h; [exact: nth_map | by rewrite !nth_default ?size_map // mulr0]. Qed.
Lemma test_scale c trace w i : 0 < c -> optk_test [seq c * x | x <- trace] w i = optk_test trace w i.
Proof.
move=> c0; rewrite /optk_test /optk_b /optk_ma nth_scale !slice_map std_scale //.
have -> : [seq x * (1 / w%:R) | x <- [seq c * x | x <- slice i (i + w) trace]] = [seq c * x | x <- [seq x * (1 / w%:R) | x <- slice i (i + w) trace]].
  by rewrite -!map_comp; apply: eq_map => x /=; rewrite [RHS]mulrA.
rewrite sum_scale arange_scale (sum_scale c (slice w.-1 _ _)).
set S := np_sum [seq _ | _ <- _]; set A := np_sum (arange_mul _); set B := np_sum (slice _ _ _); set sdv := np_std _; set k := 6%:R / _; set d := 11%:R / 4%:R.
have -> : k * (2%:R * (c * A) - (w%:R + 1) * (c * B)) = c * (k * (2%:R * A - (w%:R + 1) * B)).
  by rewrite [2%:R * _]mulrCA [(_ + _) * (c * _)]mulrCA -mulrBr mulrCA.
set b := k * _; have -> : (w%:R - 1) * (c * b) / 2%:R = c * ((w%:R - 1) * b / 2%:R) by rewrite mulrCA -[LHS]mulrA.
by rewrite [d * (c * _)]mulrCA -!mulrBr ltr_pmul2l.
Qed.
Theorem C89_units c trace window : 0 < c -> optim_k [seq c * x | x <- trace] window = optim_k trace window.
Proof.
move=> c0; rewrite /optim_k size_map; case: ifP => // _; case: ifP => // _; congr (Some (_ + _)%N).
move: (_ - _).+1 0%N true => fuel i b; elim: fuel i b => //= f IH i b; by rewrite size_map test_scale // IH.
Qed.
(** The window: a quarter of the values when not given, all of them when that would be less than two; a window of all or more values is
    returned as it is, even if it exceeds the number of values; a window of one value raises *)
Theorem C89_window trace w : (0 < size trace)%N ->
  optim_k trace None = optim_k trace (Some (if (size trace < 8)%N then size trace else (size trace %/ 4)%N)) /\
  ((size trace <= w)%N -> optim_k trace (Some w) = Some w) /\ ((1 < size trace)%N -> optim_k trace (Some 1%N) = None).
Proof.
move=> N0; split; last split.
- have E8 : (size trace %/ 4 < 2)%N = (size trace < 8)%N by rewrite ltn_divLR.
  rewrite /optim_k [optk_window None _]/= E8; case N8 : (size trace < 8)%N.
    by case: (size trace) N0.
  have : (1 < size trace %/ 4)%N by rewrite ltnNge -ltnS E8 N8.
  by case: (size trace %/ 4)%N.
- move=> wN; rewrite /optim_k; have -> : optk_window (Some w) (size trace) = w by case: w wN => //; rewrite leqNgt N0.
  by rewrite gtn_eqF // ltnNge wN andbF (eqP (_ : size trace - w == 0)%N) //= (eqP (_ : size trace - w == 0)%N) ?subn_eq0.
- by move=> N1; rewrite /optim_k /= gtn_eqF // N1.
Qed.
(** least squares line through w points *)
Definition tb w : R := (w%:R + 1) / 2%:R.
Definition SS w : R := w%:R * (w%:R ^+ 2 - 1) / 12%:R.
Lemma natS m : m.+1%:R = m%:R + 1 :> R. Proof. by rewrite -addn1 natrD. Qed.
Lemma sum1 w : \sum_(t < w) (t.+1%:R : R) = w%:R * tb w.
Proof.
rewrite /tb; elim: w => [|w IH]; first by rewrite big_ord0 mul0r.
rewrite big_ord_recr /= IH !(natS w); have /eqP := two0; rewrite -[2%:R]/(1 + 1); move: (w%:R) => u t0; by mfield R.
Qed.
Lemma E2 : 2%:R = 1 + 1 :> R. Proof. by []. Qed.
Lemma E6 : 6%:R = (1 + 1) * (1 + 1 + 1) :> R. Proof. by rewrite -[1]/(1%:R) -!natrD -!natrM. Qed.
Lemma E12 : 12%:R = (1 + 1) * (1 + 1) * (1 + 1 + 1) :> R. Proof. by rewrite -[1]/(1%:R) -!natrD -!natrM. Qed.
Lemma sumc (c : R) w : 6%:R * (\sum_(t < w) (t.+1%:R - c) ^+ 2) = w%:R * (w%:R + 1) * (2%:R * w%:R + 1) - 6%:R * c * w%:R * (w%:R + 1) + 6%:R * w%:R * c ^+ 2.
Proof.
elim: w => [|w IH]; first by rewrite big_ord0 !mulr0 !mul0r subr0 addr0.
by rewrite big_ord_recr /= mulrDr IH !(natS w) !expr2 E6 E2; move: (w%:R) => u; mring R.
Qed.
Lemma sum2 w : \sum_(t < w) (t.+1%:R - tb w) ^+ 2 = SS w :> R.
Proof.
have z0 : (12%:R : R) != 0 by rewrite pnatr_eq0.
apply: (mulfI z0); rewrite /SS [RHS]mulrC divfK //.
have wE : w%:R = 2%:R * tb w - 1 by rewrite /tb [2%:R * _]mulrC divfK ?two0 // addrK.
have -> : 12%:R = 2%:R * 6%:R :> R by rewrite -natrM.
rewrite -mulrA sumc wE !expr2 E6 E2; move: (tb w) => T; by mring R.
Qed.
Lemma SS_gt0 w : (1 < w)%N -> 0 < SS w.
Proof.
move=> w1; have w0 : 1 < w%:R :> R by rewrite ltr1n.
by rewrite /SS divr_gt0 ?ltr0n // mulr_gt0 ?ltr0n ?(ltnW w1) // subr_gt0 expr2 -[X in X < _]mulr1 ltr_pmul ?ler01.
Qed.
Definition ls_b w v : R := (\sum_(t < w) (t.+1%:R - tb w) * v t) / SS w.
Definition ls_a w v : R := mean w v - ls_b w v * tb w.
Lemma sum_dev w : \sum_(t < w) (t.+1%:R - tb w) = 0 :> R.
Proof. by rewrite sumrB sum1 sumr_const card_ord -[tb w *+ w]mulr_natl subrr. Qed.
Lemma ls_expand w v a b : (1 < w)%N -> \sum_(t < w) (v t - (a + b * t.+1%:R)) ^+ 2 =
  \sum_(t < w) (v t - (ls_a w v + ls_b w v * t.+1%:R)) ^+ 2 + w%:R * (mean w v - a - b * tb w) ^+ 2 + SS w * (ls_b w v - b) ^+ 2.
Proof.
move=> w1; have w0 : w%:R != 0 :> R by rewrite pnatr_eq0 -lt0n ltnW.
have S0 : SS w != 0 by rewrite gt_eqF ?SS_gt0.
set p := mean w v - a - b * tb w; set q := ls_b w v - b.
have R0 : \sum_(t < w) (v t - (ls_a w v + ls_b w v * t.+1%:R)) = 0.
  rewrite sumrB big_split /= sumr_const card_ord -mulr_sumr sum1 -[ls_a w v *+ w]mulr_natl /ls_a mulrBr.
  by rewrite /mean [w%:R * (_ / _)]mulrC divfK // [ls_b w v * (_ * _)]mulrCA subrK subrr.
have R1 : \sum_(t < w) (t.+1%:R - tb w) * (v t - (ls_a w v + ls_b w v * t.+1%:R)) = 0.
  rewrite (eq_bigr (fun t : 'I_w => (t.+1%:R - tb w) * v t - (mean w v) * (t.+1%:R - tb w) - ls_b w v * (t.+1%:R - tb w) ^+ 2)) => [|t _].
    by rewrite !sumrB -!mulr_sumr sum_dev mulr0 subr0 sum2 /ls_b divfK // subrr.
  rewrite /ls_a expr2; move: (t.+1%:R) (tb w) (v t) (mean w v) (ls_b w v) => x1 x2 x3 x4 x5; by mring R.
rewrite (eq_bigr (fun t : 'I_w => (v t - (ls_a w v + ls_b w v * t.+1%:R)) ^+ 2 + 2%:R * p * (v t - (ls_a w v + ls_b w v * t.+1%:R))
   + 2%:R * q * ((t.+1%:R - tb w) * (v t - (ls_a w v + ls_b w v * t.+1%:R))) + (p ^+ 2 + 2%:R * p * q * (t.+1%:R - tb w)) + q ^+ 2 * (t.+1%:R - tb w) ^+ 2)) => [|t _].
  rewrite !big_split /= -!mulr_sumr R0 R1 sum_dev sum2 !mulr0 !addr0 sumr_const card_ord.
  by rewrite [q ^+ 2 * _]mulrC -[p *+ w]mulr_natl mulrCA -expr2.
rewrite /p /q /ls_a !expr2 ?E2; move: (t.+1%:R) (tb w) (v t) (mean w v) (ls_b w v) => x1 x2 x3 x4 x5; by mring R.
Qed.
Lemma ls_lineP w v a b : (1 < w)%N -> ls_line w v a b <-> a = ls_a w v /\ b = ls_b w v.
Proof.
move=> w1; have S0 := SS_gt0 w1; have w0 : 0 < w%:R :> R by rewrite ltr0n ltnW.
split=> [/(_ (ls_a w v) (ls_b w v))|[-> ->] a' b']; last first.
  by rewrite (ls_expand _ a' b') // -addrA ler_addl addr_ge0 // mulr_ge0 ?sqr_ge0 // ltW.
rewrite (ls_expand _ a b) // -addrA ger_addl => H.
have P1 : 0 <= w%:R * (mean w v - a - b * tb w) ^+ 2 by rewrite mulr_ge0 ?sqr_ge0 // ltW.
have P2 : 0 <= SS w * (ls_b w v - b) ^+ 2 by rewrite mulr_ge0 ?sqr_ge0 // ltW.
have /eqP : w%:R * (mean w v - a - b * tb w) ^+ 2 + SS w * (ls_b w v - b) ^+ 2 = 0 by apply/eqP; rewrite eq_le H addr_ge0.
have K (c x : R) : 0 < c -> (c * x ^+ 2 == 0) = (x == 0) by move=> c0; rewrite mulf_eq0 gt_eqF //= sqrf_eq0.
rewrite paddr_eq0 // !K // [ls_b w v - b == 0]subr_eq0 => /andP [/eqP e1 /eqP e2]; rewrite /ls_a e2; split=> //.
by apply/eqP; rewrite eq_sym -subr_eq0 addrAC e1.
Qed.
(** The line used at the 2w-th value (position 2w - 1) is the least squares line through the window before it, but the comparison is with
    its value one step before the window (t = 0), not with its prediction for that position (t = w + 1) *)
Theorem C89_backcast zz w a b : (1 < w)%N -> let j := (2 * w).-1 in ls_line w (win zz w j) a b ->
  below zz w j = (zz j < a + b * 0%:R - 11%:R / 4%:R * sd w (win zz w j)).
Proof.
move=> w1 j /(ls_lineP _ _ _ w1) [-> ->]; rewrite /below /ls_a mulr0 addr0.
have wj : (j - w = w.-1)%N by rewrite /j mul2n -addnn; case: (w) w1 => // m _; rewrite addSn /= addnK.
suff -> : code_slope zz w (j - w) = ls_b w (win zz w j) by rewrite [X in _ - X - _]mulrC.
rewrite wj /code_slope /ls_b prednK ?(ltnW w1) // [RHS]mulrC /SS invf_div; congr (_ * _); apply: eq_bigr => t _.
by rewrite /win wj.
Qed.
(** At the first comparison (position w) three times the last value of the window over w is added to the mean of the window *)
Theorem C89_first zz w : (1 < w)%N ->
  below zz w w = (zz w < mean w (win zz w w) + 3%:R * zz w.-1 / w%:R - 11%:R / 4%:R * sd w (win zz w w)).
Proof.
move=> w1; rewrite /below subnn /code_slope big_ord1 addn0; congr (_ < _ - _); congr (_ + _).
have /eqP t0 := two0; have /eqP w0 : w%:R != 0 :> R by rewrite pnatr_eq0 -lt0n ltnW.
have /eqP wm : (w%:R : R) - 1 != 0 by rewrite subr_eq0 pnatr_eq1 gtn_eqF.
have /eqP wp : (w%:R : R) + 1 != 0 by rewrite -natS pnatr_eq0.
have e1 : (w%:R : R) ^+ 2 - 1 = (w%:R - 1) * (w%:R + 1) by rewrite expr2; move: (w%:R : R) => u; mring R.
have e2 : (1 : R) - (w%:R + 1) / 2%:R = - ((w%:R - 1) / 2%:R).
  by move: t0; move: (2%:R : R) (w%:R : R) (E2 : (2%:R : R) = _) => a u -> t0; mfield R.
have e3 : (12%:R : R) = 2%:R * 2%:R * 3%:R by rewrite -!natrM.
rewrite e1 e2 e3; clear e1 e2 e3; move: wm wp w0 t0; move: (w%:R + 1 : R) (w%:R - 1 : R) (w%:R : R) (2%:R : R) (3%:R : R) (zz w.-1) => q p u a th x wm wp w0 t0.
by mfield R; repeat split.
Qed.
End Optk.
