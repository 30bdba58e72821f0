(** Spatial multipliers and impacts: spreg/sputils.py. *)
From Coq Require Import Strings.String.
From mathcomp Require Import all_ssreflect all_algebra.
From Verif Require Import LinRegModel.
Set Implicit Arguments.
Unset Strict Implicit.
Unset Printing Implicit Defensive.
Import Order.TTheory GRing.Theory Num.Theory.
Local Open Scope ring_scope.

(** the call returns, raises, or the loop is still running when the fuel is used up *)
Inductive mres (A : Type) := MOk (a : A) | MRaise | MRun.
Arguments MRaise {A}.
Arguments MRun {A}.

Section Mult.
Variable R : realFieldType.
(** the dictionary returned by spmultiplier; m_warn: the warning about an unsupported method is set *)
Record mult := Mult { m_ati : R; m_adi : R; m_aii : R; m_method : string; m_pow : nat; m_warn : bool }.
(** spreg/sputils.py:319-332 the loop of method "power"; fuel bounds the number of passes *)
Fixpoint pow_loop (n : nat) (W : 'M[R]_n) (rho mtol : R) (fuel pow : nat) (ww : 'M[R]_n) (rhop adi adidiff : R) : option (R * nat) :=
  if mtol < adidiff then
    if fuel is f.+1 then
      let pow' := pow.+1 in
      let ww' := ww *m W in
      let trw := \sum_i ww' i i in
      let rhop' := rhop * rho in
      let d := rhop' * trw / n%:R in
      pow_loop W rho mtol f pow' ww' rhop' (adi + d) d
    else None
  else Some (adi, pow).
(** spreg/sputils.py:280-335 spmultiplier; exact arithmetic; 1/(1-rho) is numpy division, here the field's (rho = 1 gives inf in the code, 0 here:
    the theorems about ati assume rho <> 1); np.linalg.inv raises on a singular matrix *)
Definition spmultiplier (n : nat) (W : 'M[R]_n) (rho : R) (method : string) (mtol : R) (fuel : nat) : mres mult :=
  let ati := 1 / (1 - rho) in
  let fin adi meth pow warn := MOk (Mult ati adi (ati - adi) meth pow warn) in
  if String.eqb method "simple" then fin 1 method 0%N false
  else if String.eqb method "full" then
    if la_inv (1%:M - rho *: W) is Some inv then fin ((\sum_i inv i i) / n%:R) method 0%N false else MRaise
  else if String.eqb method "power" then
    if pow_loop W rho mtol fuel 1 W rho 1 100%:R is Some (adi, pow) then fin adi method pow false else MRun
  else fin 1 "simple"%string 0%N true.

(** a row of reg.output; the row number is the pandas index *)
Record row := Row { r_type : string; r_regime : string; r_const : bool (* the name ends with _CONSTANT *) }.
Definition row0 := Row "" "" false.
Definition idx_of (out : seq row) (t : string) : seq nat := [seq i <- iota 0 (size out) | String.eqb (r_type (nth row0 out i)) t].
(** spreg/output.py:613-616 the rows whose effects are computed *)
Definition effect_rows (out : seq row) (regimes : bool) : seq nat :=
  [seq i <- idx_of out "x" | ~~ (regimes && r_const (nth row0 out i))].
(** numpy take: reg.betas[idx]; an index beyond the end raises *)
Definition take_idx (b : seq R) (idx : seq nat) : option (seq R) :=
  if all (fun i => i < size b)%N idx then Some [seq nth 0 b i | i <- idx] else None.
(** itertools.compress *)
Definition compress (A : Type) (l : seq A) (m : seq bool) : seq A := [seq p.1 | p <- zip l m & p.2].
(** numpy: b[idx] = b[idx] + d, where d has one value or as many values as idx; the negative index -1 (from index 0 less one) is the last entry *)
Definition add_at (b : seq R) (idx : seq nat) (d : seq R) : option (seq R) :=
  if all (fun i => i < size b)%N idx && ((size d == size idx) || (size d == 1%N)) then
    let vals := [seq nth 0 b (nth 0%N idx j) + (if size d == 1%N then nth 0 d 0 else nth 0 d j) | j <- iota 0 (size idx)] in
    Some (foldl (fun acc p => set_nth 0 acc p.1 p.2) b (zip idx vals))
  else None.
Definition pred_wrap (sz h : nat) : nat := if h is h'.+1 then h' else sz.-1.
(** spreg/sputils.py:363-372 the loop over lags with regimes; the vector of totals is aligned with the x rows *)
Fixpoint regime_loop (betas : seq R) (xidx : seq nat) (wchunk : nat) (m1 : R) (lags : seq nat) (btot : seq R) : option (seq R) :=
  if lags is i :: r then
    if take_idx betas [seq (h + (i.+1) * wchunk)%N | h <- xidx] is Some bm then
      regime_loop betas xidx wchunk m1 r [seq p.1 + m1 * p.2 | p <- zip btot bm]
    else None
  else Some btot.
(** spreg/sputils.py:384-390 the loop over lags without regimes *)
Fixpoint lag_loop (betas : seq R) (wxidx xind : seq nat) (wchunk : nat) (m1 : R) (lags : seq nat) (btot : seq R) : option (seq R) :=
  if lags is i :: r then
    if take_idx betas (take wchunk (drop (i * wchunk) wxidx)) is Some bm then
      if add_at btot xind [seq m1 * b | b <- bm] is Some bt then lag_loop betas wxidx xind wchunk m1 r bt else None
    else None
  else Some btot.



(** reg.output.regime.nunique() > 1 *)
Definition many_regimes (out : seq row) : bool :=
  if out is r :: t then has (fun s => ~~ String.eqb (r_regime s) (r_regime r)) t else false.
(** spreg/sputils.py:337-397 _sp_effects; xidx: the rows given; slx_mask: the argument slx_vars when it is a list; has_slx: the object has the attribute slx_vars *)
Definition sp_effects (out : seq row) (betas : seq R) (xidx : seq nat) (ati adi aii : R) (slx_lags : nat) (has_slx : bool) (slx_mask : option (seq bool)) :
    option (seq R * seq R * seq R) :=
  if take_idx betas xidx is Some bx then
    let btot := [seq ati * b | b <- bx] in
    let bdir := [seq adi * b | b <- bx] in
    if (0 < slx_lags)%N then
      let obt :=
        if many_regimes out then
          let r0 := r_regime (nth row0 out 0) in
          let wchunk := size [seq i <- xidx | String.eqb (r_regime (nth row0 out i)) r0] in
          regime_loop betas xidx wchunk ati (iota 0 slx_lags) btot
        else
          let wxidx := idx_of out "wx" in
          let flex := if has_slx then (if slx_mask is Some m then compress xidx m else xidx) else xidx in
          let xind := if has (fun r => String.eqb (r_type r) "o") out then [seq pred_wrap (size btot) h | h <- flex] else flex in
          let wchunk := (size wxidx %/ slx_lags)%N in
          lag_loop betas wxidx xind wchunk ati (iota 0 slx_lags) btot in
      if obt is Some bt then Some (bt, bdir, [seq p.1 - p.2 | p <- zip bt bdir]) else None
    else Some (btot, bdir, [seq aii * b | b <- bx])
  else None.

(** spreg/sputils.py:398-485 i_multipliers for dense or pysal weights: the columns Direct, EofNbrs and EonNbrs *)
Record imult (n : nat) := IMult { im_direct : 'cV[R]_n; im_of : 'cV[R]_n; im_on : 'cV[R]_n }.
Definition zero_diag n (A : 'M[R]_n) : 'M[R]_n := \matrix_(i, j) (if i == j then 0 else A i j).
Definition sums n (d : 'cV[R]_n) (ww : 'M[R]_n) : imult n :=
  IMult d (\col_i \sum_j ww i j) (\col_j \sum_i ww i j).
Definition i_multipliers n (W : 'M[R]_n) (coef : R) (model : string) : mres (imult n) :=
  if String.eqb model "slx" then MOk (sums 0 W)
  else if String.eqb model "kernel" then MOk (sums (\col_i W i i) (zero_diag W))
  else if String.eqb model "lag" then
    if la_inv (1%:M - coef *: W) is Some inv then MOk (sums (\col_i inv i i) (zero_diag inv)) else MRaise
  else MRaise.
End Mult.
