(** spreg/probit.py and spreg/diagnostics_probit.py.  [Phi] and [phi] are scipy.stats.norm.cdf and pdf, arguments of the model. *)
From Coq Require Import Reals.
From mathcomp Require Import all_ssreflect all_algebra.
From Verif Require Import Rinst LinRegModel.
Set Implicit Arguments.
Unset Strict Implicit.
Unset Printing Implicit Defensive.
Import Order.TTheory GRing.Theory Num.Theory.
Local Open Scope ring_scope.

(** spreg/diagnostics_probit.py:29-76 pred_table.  y: the responses (integers; floats 0.0 and 1.0 compare like 0 and 1),
    pb: predybin, (predy > 0.5) * 1 of probit.py:126. *)
Record predtab := PredTab { actpos : int; actneg : int; predpos : int; predneg : int;
  truepos : int; falsepos : int; trueneg : int; falseneg : int }.
Definition b2z (b : bool) : int := if b then 1 else 0.
Definition zsum (s : seq int) : int := foldr (fun a b => a + b) 0 s.
Definition pred_table (y : seq int) (pb : seq bool) : predtab :=
  let n := (size y)%:Z in
  let pos := zsum y in
  let act1 := map (fun v => b2z (v == 1)) y in
  let act0 := map (fun v => b2z (v == 0)) y in
  let ppos := zsum (map b2z pb) in
  let pred1 := map (fun b => b2z (b2z b == 1)) pb in
  let pred0 := map (fun b => b2z (b2z b == 0)) pb in
  let cell a b := zsum (map (fun p => p.1 * p.2) (zip a b)) in
  PredTab pos (n - pos) ppos (n - ppos) (cell pred1 act1) (cell pred1 act0) (cell pred0 act0) (cell pred0 act1).

(** spreg/diagnostics_probit.py:79-106 probit_fit; None: nan (division of a numpy number by zero) *)
Definition ratio (a b : int) : option rat := if b == 0 then None else Some (100%:R * a%:~R / b%:~R).
Definition fit_tpr (t : predtab) : option rat := ratio (truepos t) (actpos t).
Definition fit_tnr (t : predtab) : option rat := ratio (trueneg t) (actneg t).
Definition fit_ba (t : predtab) : option rat :=
  if fit_tpr t is Some a then if fit_tnr t is Some b then Some ((a + b) / 2%:R) else None else None.
Definition fit_predpc (t : predtab) (n : nat) : option rat := ratio (truepos t + trueneg t) n%:Z.

Section Probit.
Variables (Phi phi : R -> R) (n k : nat) (y : 'cV[R]_n) (x : 'M[R]_(n, k)).
(** spreg/probit.py:105 q *)
Definition pq (i : 'I_n) : R := 2%:R * y i 0 - 1.
Definition pxb (b : 'cV[R]_k) (i : 'I_n) : R := (x *m b) i 0.
(** spreg/probit.py:170-175 ll *)
Definition probit_ll (b : 'cV[R]_k) : R := \sum_i ln (Phi (pq i * pxb b i)).
(** spreg/probit.py:177-183 gradient: lamb.T @ x, [0] *)
Definition plamb (b : 'cV[R]_k) : 'cV[R]_n := \col_i (pq i * phi (pq i * pxb b i) / Phi (pq i * pxb b i)).
Definition probit_gradient (b : 'cV[R]_k) : 'rV[R]_k := (plamb b)^T *m x.
(** spreg/probit.py:185-192 hessian *)
Definition probit_hessian (b : 'cV[R]_k) : 'M[R]_k :=
  x^T *m spbroadcast x (\col_i (- plamb b i 0 * (plamb b i 0 + pxb b i))).
(** spreg/probit.py:124-132 *)
Definition p_predy (b : 'cV[R]_k) : 'cV[R]_n := \col_i Phi (pxb b i).
Definition p_predybin (b : 'cV[R]_k) (i : 'I_n) : bool := 2%:R^-1 < p_predy b i 0.
Definition p_phiy (b : 'cV[R]_k) : 'cV[R]_n := \col_i phi (pxb b i).
Definition p_u_naive (b : 'cV[R]_k) : 'cV[R]_n := y - p_predy b.
Definition p_u_gen (b : 'cV[R]_k) : 'cV[R]_n :=
  \col_i (p_phiy b i 0 * (p_u_naive b i 0 / (p_predy b i 0 * (1 - p_predy b i 0)))).
(** spreg/probit.py:540-549: one Newton step *)
Definition newton_par (b : 'cV[R]_k) : option ('cV[R]_k * R) :=
  if la_inv (probit_hessian b) is Some hi then
    let hm := - hi in
    let g := (probit_gradient b)^T in
    let hg := hm *m g in Some (b + hg, (g^T *m hg) 0 0)
  else None.
(** spreg/probit.py:119-121 vm *)
Definition probit_vm (b : 'cV[R]_k) : option 'M[R]_k := if la_inv (probit_hessian b) is Some hi then Some (- hi) else None.

(** spreg/diagnostics_probit.py:132-143 probit_lrtest and 145-160 mcfad_rho *)
Definition py_mean : R := (\sum_i y i 0) / n%:R.
Definition lr_L0 : R := n%:R * (py_mean * ln py_mean + (1 - py_mean) * ln (1 - py_mean)).
Definition lr_stat (logl : R) : R := - 2%:R * (lr_L0 - logl).
Definition lr_df : nat := k.
Definition mcfad (logl : R) : R := 1 - logl / lr_L0.

(** spreg/diagnostics_probit.py:162-208 probit_ape: xmean, scale, slopes (with the constant's, which the code drops), variance *)
Definition p_xmean : 'cV[R]_k := \col_j ((\sum_i x i j) / n%:R).
Definition ape_scale (xmeanopt : bool) (b : 'cV[R]_k) : R :=
  if xmeanopt then phi ((p_xmean^T *m b) 0 0) else (\sum_i p_phiy b i 0) / n%:R.
Definition ape_slopes (xmeanopt : bool) (b : 'cV[R]_k) : 'cV[R]_k := \col_j (b j 0 * ape_scale xmeanopt b).
Definition ape_dfdb (b : 'cV[R]_k) : 'M[R]_k := 1%:M - (p_xmean^T *m b) 0 0 *: (b *m p_xmean^T).
Definition ape_vm (xmeanopt : bool) (b : 'cV[R]_k) (vm : 'M[R]_k) : 'M[R]_k :=
  (ape_scale xmeanopt b) ^+ 2 *: (ape_dfdb b *m vm *m (ape_dfdb b)^T).
End Probit.

(** spreg/diagnostics_probit.py:211-320 sp_tests and moran_KP: the statistics *)
Section SpTests.
Variables (F : rcfType) (n : nat) (W : 'M[F]_n) (Ph ph u_naive u_gen : 'cV[F]_n).
Definition phi_prod : 'cV[F]_n := \col_i (Ph i 0 * (1 - Ph i 0)).
Definition trww : F := \sum_i (W *m W) i i.
Definition pinkse : F :=
  let sig2 := (\sum_i (ph i 0 * ph i 0 / phi_prod i 0)) / n%:R in
  (((u_gen^T *m (W *m u_gen)) 0 0) ^+ 2) / (sig2 ^+ 2 * (trww + \sum_i (W *m W^T) i i)).
Definition moran_kp : F :=
  let E := diag_mx phi_prod^T in
  let WE := W *m E in
  (u_naive^T *m (W *m u_naive)) 0 0 / Num.sqrt (\sum_i (WE *m WE + (W^T *m E) *m WE) i i).
Definition pinkse_slade : F :=
  let u_std := \col_i (u_naive i 0 / Num.sqrt (phi_prod i 0)) in
  ((u_std^T *m (W *m u_std)) 0 0) ^+ 2 / (trww + \sum_i (W^T *m W) i i).
End SpTests.
