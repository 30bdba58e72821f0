(** Baltagi-Song-Koh tests: spreg/diagnostics_panel.py:224-501 BSK_tests. *)
From Coq Require Import Strings.String.
From mathcomp Require Import all_ssreflect all_algebra.
From Verif Require Import LinRegModel Kron.
Set Implicit Arguments.
Unset Strict Implicit.
Unset Printing Implicit Defensive.
Import Order.TTheory GRing.Theory Num.Theory.
Local Open Scope ring_scope.

(** reg.__class__.__name__: CSem stands for (Base)GM_ErrorPooled and (Base)ML_ErrorPooled *)
Inductive rcls := CPooled | CRE | CSem | COther.
(** UnboundLocalError, TypeError (PooledOLS called without w) and an exception of the model fitted inside *)
Inductive berr := BUnbound | BMissingW | BFit.
Inductive bres (A : Type) := BOk (a : A) | BErr (e : berr).
Arguments BErr {A} e.

Section Bsk.
Variables (R : rcfType) (T n : nat) (W : 'M[R]_n).
(** stats.norm.cdf and stats.chi2.cdf(., df) *)
Variables (ncdf : R -> R) (c2cdf : nat -> R -> R).
(** one row of the DataFrame: Test, Statistic, df, p-value *)
Record brow := BRow { b_name : string; b_stat : R; b_df : nat; b_p : R }.

(** u.reshape((T, N)) *)
Definition umat (u : 'cV[R]_(T * n)) : 'M[R]_(T, n) := \matrix_(t, i) u (pix t i) 0.
(** lines 263-269; w.trcWtW_WW holds the same number *)
Definition bsk_b : R := \tr (W^T *m W + W *m W).
(** np.sum(u ** 2) *)
Definition u_sq_sum (u : 'cV[R]_(T * n)) : R := \sum_r u r 0 ^+ 2.
(** lines 282-286 *)
Definition bsk_G (u : 'cV[R]_(T * n)) : R := (\sum_i (\sum_t umat u t i) ^+ 2) / u_sq_sum u - 1.
(** line 289 *)
Definition lm1 u : R := Num.sqrt ((n%:R * T%:R) / (2%:R * (T%:R - 1))) * bsk_G u.
(** lines 310-313 *)
Definition bsk_H (u : 'cV[R]_(T * n)) : R :=
  let Wu := umat u *m W^T in (\sum_r u r 0 * Wu (pt r) (pu r)) / u_sq_sum u.
(** line 316 *)
Definition lm2 u : R := Num.sqrt ((n%:R ^+ 2 * T%:R) / bsk_b) * bsk_H u.
(** lines 327-340: statistic and p-value *)
Definition lm_joint (a b : R) : R * R :=
  if (0 < a) && (0 < b) then let j := a ^+ 2 + b ^+ 2 in (j, 1 / 2%:R * (1 - c2cdf 1 j) + 1 / 4%:R * (1 - c2cdf 2 j))
  else if (0 < a) && (b <= 0) then let j := a ^+ 2 in (j, 1 / 2%:R * (1 - c2cdf 1 j))
  else if (a <= 0) && (0 < b) then let j := b ^+ 2 in (j, 1 / 2%:R * (1 - c2cdf 1 j))
  else (0, 1).
(** lines 371-390; u: y - x b of the random effects model.  cs_mean is also u_mean of line 469. *)
Definition cs_mean (u : 'cV[R]_(T * n)) : 'cV[R]_n := \col_i ((\sum_t umat u t i) / T%:R).
Definition cs_sig1 u : R := (\sum_i T%:R * cs_mean u i 0 ^+ 2) / n%:R.
Definition cs_sigv u : R := (\sum_t \sum_i (umat u t i - cs_mean u i 0) ^+ 2) / (n%:R * (T%:R - 1)).
Definition cs_quad_mean u : R := (\sum_i cs_mean u i 0 * (W *m cs_mean u) i 0) * 2%:R.
Definition cs_quad_full u : R := (\sum_t \sum_i umat u t i * (umat u *m W^T) t i) * 2%:R.
Definition cs_D u : R :=
  let term1 := cs_sigv u / cs_sig1 u ^+ 2 * T%:R * cs_quad_mean u in
  let term2 := 1 / cs_sigv u * (cs_quad_full u - T%:R * cs_quad_mean u) in
  1 / 2%:R * (term1 + term2).
Definition lmc_spatial u : R := cs_D u / Num.sqrt (((T%:R - 1) + cs_sigv u ^+ 2 / cs_sig1 u ^+ 2) * bsk_b).
(** lines 439-485; None: LinAlgError of np.linalg.inv *)
Definition cr_B lam : 'M[R]_n := 1%:M - lam *: W.
Definition cr_BB lam : 'M[R]_n := (cr_B lam)^T *m cr_B lam.
Definition cr_WB lam : 'M[R]_n := W^T *m cr_B lam + (cr_B lam)^T *m W.
Definition cr_v lam u : 'M[R]_(T, n) := \matrix_(t, i) (cr_B lam *m (row t (umat u))^T) i 0.
Definition cr_sig2 lam u : R := (\sum_t \sum_i cr_v lam u t i ^+ 2) / (n%:R * T%:R).
Definition lmc_re lam (u : 'cV[R]_(T * n)) : option R :=
  if la_inv (cr_BB lam) is Some BBi then
    let s := cr_sig2 lam u in
    let h := \tr (cr_BB lam) in
    let d := \tr (cr_WB lam) in
    let e := \tr (cr_BB lam *m cr_BB lam) in
    let term_c := cr_WB lam *m BBi in
    let g := \tr term_c in
    let c := \tr (term_c *m term_c) in
    let t1 := - (T%:R / (2%:R * s)) * h in
    let m := cs_mean u in
    let quad := (m^T *m (cr_BB lam *m cr_BB lam) *m m) 0 0 in
    let t2 := 1 / (2%:R * s ^+ 2) * T%:R ^+ 2 * quad in
    let D := t1 + t2 in
    let tin := 2%:R / T%:R * (n%:R * c - g ^+ 2) in
    let tin := if tin < 0 then 0 else tin in
    let num := D * s ^+ 2 * Num.sqrt tin in
    let den := T%:R * n%:R * e * c - n%:R * d ^+ 2 - T%:R * g ^+ 2 * e + 2%:R * g * h * d - h ^+ 2 * c in
    let den := if den < 0 then 0 else den in
    let dfin := s * Num.sqrt den in
    Some (if dfin == 0 then 0 else num / dfin)
  else None.

(** the argument which: a string or a list of strings *)
Inductive bwhich := WStr (s : string) | WList (l : seq string).
Definition bsk_which (w : bwhich) : seq string :=
  match w with
  | WStr s => if String.eqb s "all" then [:: "LMJ"; "LM1"; "LM2"; "LMC_spatial"; "LMC_RE"]%string else [:: s]
  | WList l => l
  end.
(** test in which *)
Definition asked (which : seq string) (s : string) : bool := List.existsb (String.eqb s) which.
(** a fitted regression: class, residuals and, for spatial error models, betas[-1, 0] *)
Record breg := BReg { r_cls : rcls; r_u : 'cV[R]_(T * n); r_lam : R }.
(** lines 253-501.  [fit_re], [fit_sem]: residuals (and lambda) of the models estimated when reg is of another class; None if that raises. *)
Definition bsk_tests (reg : breg) (fit_re : option ('cV[R]_(T * n))) (fit_sem : option (R * 'cV[R]_(T * n))) (w : bwhich) : bres (seq brow) :=
  let has := asked (bsk_which w) in
  let first : bres (seq brow) :=
    if [|| has "LMJ"%string, has "LM1"%string | has "LM2"%string] then
      if r_cls reg is CPooled then
        let u := r_u reg in
        let part1 := has "LMJ"%string || has "LM1"%string in
        let rows1 := if has "LM1"%string then [:: BRow "LM Marginal RE (LM1)" (lm1 u) 1 (1 - ncdf (lm1 u))] else [::] in
        if (has "LMJ"%string || has "LM2"%string) && ~~ part1 then BErr BUnbound
        else
          let rows2 := if has "LM2"%string then [:: BRow "LM Marginal Spatial (LM2)" (lm2 u) 1 (1 - ncdf (lm2 u))] else [::] in
          let rows3 := if has "LMJ"%string then let j := lm_joint (lm1 u) (lm2 u) in [:: BRow "LM Joint (LMJ)" j.1 2 j.2] else [::] in
          BOk (rows1 ++ rows2 ++ rows3)
      else BErr BMissingW
    else BOk [::] in
  if first is BOk r1 then
    let second : bres (seq brow) :=
      if has "LMC_spatial"%string then
        if (if r_cls reg is CRE then Some (r_u reg) else fit_re) is Some u then
          BOk [:: BRow "LM Conditional Spatial" (lmc_spatial u) 1 (1 - ncdf (lmc_spatial u))]
        else BErr BFit
      else BOk [::] in
    if second is BOk r2 then
      if has "LMC_RE"%string then
        if (if r_cls reg is CSem then Some (r_lam reg, r_u reg) else fit_sem) is Some (lam, u) then
          if lmc_re lam u is Some s then BOk (r1 ++ r2 ++ [:: BRow "LM Conditional RE" s 1 (1 - ncdf s)]) else BErr BFit
        else BErr BFit
      else BOk (r1 ++ r2)
    else second
  else first.
End Bsk.
