(** Seemingly unrelated regressions with spatial errors and the likelihood of SUR: spreg/sur_error.py, and the likelihood parts of spreg/sur.py BaseSUR.
    Dictionaries over the equations are functions of 'I_G (SurModel.v).  The minimisers are arguments: [start] the results of minimize_scalar for each
    equation, [minz E lam] the result (x, fun) of minimize(clik) with the residuals E and the starting value lam.  [lu lam]: LU.U of I - lam W.
    [E0]: the residuals of the iterated SUR estimation that starts the loop.
    Not modelled: bounds and tolerances of the minimisers, regimes, names, p-values, the printed summary. *)
From Coq Require Import Reals.
From mathcomp Require Import all_ssreflect all_algebra.
From Verif Require Import Rinst LinRegModel FilterModel MLModel SurModel.
Set Implicit Arguments.
Unset Strict Implicit.
Unset Printing Implicit Defensive.
Import Order.TTheory GRing.Theory Num.Theory.
Local Open Scope ring_scope.

Section Model.
Variables (G n : nat) (K : 'I_G -> nat).
(** bigE - WbigE * lam.T: spreg/sur_error.py:122-123, 549-550, 967-968 *)
Definition sue_filter (W : 'M[R]_n) (lam : 'cV[R]_G) (E : 'M[R]_(n, G)) : 'M[R]_(n, G) :=
  let WE := W *m E in \matrix_(i, r) (E i r - WE i r * lam r 0).
(** spreg/sur_error.py:909-937 jacob *)
Definition sue_jacob (lu : R -> 'M[R]_n) (lam : 'cV[R]_G) : option R :=
  osum [seq osum [seq np_log `|lu (lam r 0) i i| | i <- enum 'I_n] | r <- enum 'I_G].
(** spreg/sur_error.py:940-973 clik; slogdet(sig)[1] is the logarithm of |det sig|, -inf for a singular matrix *)
Definition sue_clik (lu : R -> 'M[R]_n) (W : 'M[R]_n) (E : 'M[R]_(n, G)) (lam : 'cV[R]_G) : option R :=
  let F := sue_filter W lam E in
  let sig := n%:R^-1 *: (F^T *m F) in
  match np_log `|\det sig|, sue_jacob lu lam with
  | Some ldet, Some logjac => let clik := - (n%:R / 2%:R) * ldet + logjac in Some (- clik)
  | _, _ => None
  end.
(** the first part of a pass of the loop, spreg/sur_error.py:547-553 (BaseSURerrorGM: 117-126): estimation on the filtered data with Sigma from
    the filtered residuals [E] *)
Definition sue_est (y : 'I_G -> 'cV[R]_n) (X : forall r, 'M[R]_(n, K r)) (W : 'M[R]_n) (lam : 'cV[R]_G) (E : 'M[R]_(n, G)) : option (est R_realFieldType K) :=
  let sply := fun r => y r - lam r 0 *: (W *m y r) in
  let splX := fun r => X r - lam r 0 *: (W *m X r) in
  sur_est (crossXX splX) (crossXy splX sply) (sue_filter W lam E).

Inductive sue_res := SueDone of est R_realFieldType K & 'cV[R]_G & 'M[R]_(n, G) & R & nat | SueRaise | SueMore.
(** the loop, spreg/sur_error.py:543-563: [last] the estimates of the last pass (None before the first), [E] bigE, [it] the number of passes;
    SueMore: not finished within [fuel] passes; SueRaise: a singular matrix, or (after the loop) the unbound b1 *)
Fixpoint sue_loop (fuel : nat) (y : 'I_G -> 'cV[R]_n) (X : forall r, 'M[R]_(n, K r)) (W : 'M[R]_n) (minz : 'M[R]_(n, G) -> 'cV[R]_G -> 'cV[R]_G * R)
  (epsilon fun0 fun1 : R) (lam : 'cV[R]_G) (E : 'M[R]_(n, G)) (last : option (est R_realFieldType K)) (it : nat) : sue_res :=
  if epsilon < `|fun0 - fun1| then
    if fuel is f.+1 then
      if sue_est y X W lam E is Some e then
        let E' := sur_resids y X (e_b e) in
        let (lam', fun') := minz E' lam in
        sue_loop f y X W minz epsilon fun1 fun' lam' E' (Some e) it.+1
      else SueRaise
    else SueMore
  else if last is Some e then SueDone e lam E fun1 it else SueRaise.
(** spreg/sur_error.py:486-569 BaseSURerrorML: fun0 = 0, fun1 = the sum of the values of the equations *)
Record sue_ml := SueMl { sm_b : forall r, 'cV[R]_(K r); sm_varb : 'M[R]_(\sum_r K r); sm_sig : 'M[R]_G; sm_corr : 'M[R]_G; sm_lam : 'cV[R]_G;
  sm_lamols : 'cV[R]_G; sm_E : 'M[R]_(n, G); sm_clikerr : R; sm_clik : R }.
Definition base_sue_ml (fuel : nat) (y : 'I_G -> 'cV[R]_n) (X : forall r, 'M[R]_(n, K r)) (W : 'M[R]_n) (minz : 'M[R]_(n, G) -> 'cV[R]_G -> 'cV[R]_G * R)
  (epsilon : R) (start : 'I_G -> R * R) (E0 : 'M[R]_(n, G)) : option sue_ml :=
  let lam := \col_r (start r).1 in
  let fun1 := \sum_r (start r).2 in
  if sue_loop fuel y X W minz epsilon 0 fun1 lam E0 None 0 is SueDone e lam' E' f it then
    Some (SueMl (e_b e) (e_varb e) (e_sig e) (sur_corr (R := R_rcfType) (e_sig e)) lam' lam E' (- fun1) (- f))
  else None.
(** spreg/sur_error.py:831-834: log-likelihood with the constant *)
Definition sue_llik (clik : R) : R := - (n%:R / 2%:R) * (G%:R * (1 + ln (2%:R * PI))) + clik.
(** spreg/sur_error.py:86-132 BaseSURerrorGM, 135-160 _momentsGM_sur_Error: [optim] is optim_moments *)
Record sue_gm := SueGm { sg_b : forall r, 'cV[R]_(K r); sg_varb : 'M[R]_(\sum_r K r); sg_sig : 'M[R]_G; sg_lam : 'cV[R]_G; sg_E : 'M[R]_(n, G) }.
Definition sue_moments (W : 'M[R]_n) (U : 'M[R]_(n, G)) (r : 'I_G) : 'M[R]_3 * 'cV[R]_3 :=
  let sum (A B : 'M[R]_(n, G)) := \sum_i A i r * B i r in
  let WU := W *m U in let WWU := W *m WU in
  let u2 := sum U U in let uwu := sum U WU in let wu2 := sum WU WU in let uwwu := sum U WWU in
  let wwu2 := sum WWU WWU in let wwuwu := sum WWU WU in
  let trWtW := \sum_i \sum_j W i j * W i j in
  (\matrix_(i, j) (nth 0 (nth [::] [:: [:: 2%:R * uwu; - wu2; n%:R];
                                     [:: 2%:R * wwuwu; - wwu2; trWtW];
                                     [:: uwwu + wu2; - wwuwu; 0]] i) j / n%:R),
   \col_i (nth 0 [:: u2; wu2; uwu] i / n%:R)).
Definition base_sue_gm (optim : 'M[R]_3 * 'cV[R]_3 -> R) (y : 'I_G -> 'cV[R]_n) (X : forall r, 'M[R]_(n, K r)) (W : 'M[R]_n) : option sue_gm :=
  if sur_ols X y is Some bo then
    let olsE := sur_resids y X bo in
    let lam := \col_r optim (sue_moments W olsE r) in
    if sue_est y X W lam olsE is Some e then Some (SueGm (e_b e) (e_varb e) (e_sig e) lam (sur_resids y X (e_b e))) else None
  else None.
(** spreg/sur.py:128-157: ldetS0, the log-determinants of the iterations and llik of BaseSUR; [passes] the number of passes of the loop *)
Definition sur_ldetS0 (sig : 'M[R]_G) : option R := osum [seq np_log (sig r r) | r <- enum 'I_G].
Fixpoint sur_passes (y : 'I_G -> 'cV[R]_n) (X : forall r, 'M[R]_(n, K r)) (passes : nat) (e : est R_realFieldType K) : option (est R_realFieldType K) :=
  if passes is p.+1 then
    if sur_est (crossXX X) (crossXy X y) (sur_resids y X (e_b e)) is Some e' then sur_passes y X p e' else None
  else Some e.
Definition sur_llik (ldetS1 : R) : R := - (n%:R / 2%:R) * (G%:R * (1 + ln (2%:R * PI)) + ldetS1).
(** spreg/diagnostics_sur.py:83-109 sur_lrtest *)
Definition sur_lrtest (ldetS0 ldetS1 : R) : R * nat := (n%:R * (ldetS0 - ldetS1), (G * (G - 1) %/ 2)%N).
Record sur_iter := SurIter { si_est : est R_realFieldType K; si_E : 'M[R]_(n, G); si_ldetS0 : R; si_ldetS1 : R; si_llik : R; si_lr : R * nat }.
Definition base_sur_iter (y : 'I_G -> 'cV[R]_n) (X : forall r, 'M[R]_(n, K r)) (passes : nat) : option sur_iter :=
  if sur_ols X y is Some bo then
    if sur_est (crossXX X) (crossXy X y) (sur_resids y X bo) is Some e0 then
      if sur_passes y X passes e0 is Some e then
        match sur_ldetS0 (e_sig e0), np_log `|\det (e_sig e)| with
        | Some l0, Some l1 => Some (SurIter e (sur_resids y X (e_b e)) l0 l1 (sur_llik l1) (sur_lrtest l0 l1))
        | _, _ => None
        end
      else None
    else None
  else None.
End Model.
