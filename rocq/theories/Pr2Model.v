(** Pseudo R2 and t statistics: spreg/diagnostics_tsls.py.  Exact arithmetic. *)
From mathcomp Require Import all_ssreflect all_algebra.
From Verif Require Import LinRegModel FilterModel.
Set Implicit Arguments.
Unset Strict Implicit.
Unset Printing Implicit Defensive.
Import Order.TTheory GRing.Theory Num.Theory.
Local Open Scope ring_scope.

Section Pr2.
Variable R : rcfType.
(** result of scipy.stats.pearsonr: an exception (fewer than two observations), nan (constant input), a number *)
Inductive pres := PRaise | PNan | PVal of R.
Definition pmap (f : R -> R) (p : pres) : pres := if p is PVal r then PVal (f r) else p.
(** (x == x[0]).all() *)
Definition is_const n (x : 'cV[R]_n) : bool := [forall i, [forall j, x i 0 == x j 0]].
(** np.clip(r, -1, 1) *)
Definition clip1 (r : R) : R := if r < -1 then -1 else if 1 < r then 1 else r.
(** scipy.stats.pearsonr(x, y)[0], from its documentation: centred vectors divided by their norms, inner product, clipped to [-1, 1] *)
Definition pearsonr n (x y : 'cV[R]_n) : pres :=
  if (n < 2)%N then PRaise
  else if is_const x || is_const y then PNan
  else
    let xm := \col_i (x i 0 - mean_of x) in
    let ym := \col_i (y i 0 - mean_of y) in
    let normxm := Num.sqrt (utu_of xm) in
    let normym := Num.sqrt (utu_of ym) in
    PVal (clip1 (\sum_i (xm i 0 / normxm) * (ym i 0 / normym))).
(** spreg/diagnostics_tsls.py:219-223 pr2_aspatial; 317-321 pr2_spatial is the same with predy_e *)
Definition pr2_aspatial n (y predy : 'cV[R]_n) : pres := pmap (fun pr => pr ^+ 2) (pearsonr y predy).
Definition pr2_spatial n (y predy_e : 'cV[R]_n) : pres := pmap (fun pr => pr ^+ 2) (pearsonr y predy_e).
(** spreg/diagnostics_tsls.py:107-122 t_stat; norm_sf, t_sf: upper tail functions of scipy.stats; the variances are positive *)
Definition t_stat n k (norm_sf : R -> R) (t_sf : R -> R -> R) (z_stat : bool) (betas : 'cV[R]_k) (vm : 'M[R]_k) : seq (R * R) :=
  let variance i := vm i i in
  let tStat i := betas i 0 / Num.sqrt (variance i) in
  [seq (let t := tStat i in if z_stat then (t, norm_sf `|t| * 2%:R) else (t, t_sf `|t| (n%:R - k%:R) * 2%:R)) | i <- enum 'I_k].
End Pr2.
Arguments PRaise {R}.
Arguments PNan {R}.
