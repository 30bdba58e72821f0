(** Non-spatial diagnostics: spreg/diagnostics.py.  Exact arithmetic; p-values are functions of the statistic and the degrees of freedom. *)
From mathcomp Require Import all_ssreflect all_algebra.
From Verif Require Import LinRegModel.
Set Implicit Arguments.
Unset Strict Implicit.
Unset Printing Implicit Defensive.
Import Order.TTheory GRing.Theory Num.Theory.
Local Open Scope ring_scope.

(** an outcome: a value, or the class of the exception raised *)
Inductive dres (A : Type) := DOk (a : A) | DErr (e : nat).
Arguments DErr {A}.
Definition LinAlgError : nat := 0.
Definition ValueError : nat := 1.

Section Diag.
Variables (R : realFieldType) (n : nat).
Implicit Types (z : seq 'cV[R]_n) (u : 'cV[R]_n).
Definition cols k (x : 'M[R]_(n, k)) : seq 'cV[R]_n := [seq col j x | j <- enum 'I_k].
Definition of_cols z : 'M[R]_(n, size z) := \matrix_(i, j) nth 0 z j i 0.
(** spreg/utils.py spmultiply, dense: elementwise product *)
Definition vmul (a b : 'cV[R]_n) : 'cV[R]_n := \col_i (a i 0 * b i 0).

(** spreg/diagnostics.py:820-829, 1132-1141: abs(current - check).sum() == 0 for i < j *)
Definition same_col (a b : 'cV[R]_n) : bool := \sum_i `|a i 0 - b i 0| == 0.
Definition dup_of z (i : nat) : seq nat := [seq j <- iota 0 (size z) | (i < j)%N && same_col (nth 0 z i) (nth 0 z j)].
Definition omit z : seq nat := flatten [seq dup_of z i | i <- iota 0 (size z)].
(** spreg/diagnostics.py:831-840: set, sort, reverse, np.delete one column at a time *)
Definition del (A : Type) (s : seq A) (c : nat) : seq A := take c s ++ drop c.+1 s.
Definition drop_cols (A : Type) (s : seq A) (om : seq nat) : seq A := foldl (@del A) s (rev (sort leq (undup om))).
Definition dedup z : seq 'cV[R]_n := drop_cols z (omit z).

(** spreg/diagnostics.py:803-816: z == None.  An array compared with None gives an array of False: its truth value raises ValueError
    unless it has exactly one element. *)
Definition z_of k (x : 'M[R]_(n, k)) (zarg : option (seq 'cV[R]_n)) : dres (seq 'cV[R]_n) :=
  match zarg with
  | None => DOk [seq vmul c c | c <- cols x]
  | Some z => if (n * size z == 1)%N then DOk z else DErr ValueError
  end.
(** g' z (z'z)^-1 z' g *)
Definition explained z (g : 'cV[R]_n) : dres R :=
  let zm := of_cols z in
  if la_inv (zm^T *m zm) is Some ztzi then DOk (((g^T *m zm) *m ztzi *m (zm^T *m g)) 0 0) else DErr LinAlgError.
Record het := Het { h_df : nat; h_stat : R }.
(** spreg/diagnostics.py:792-858 breusch_pagan; df = p - 1 (naturals: p > 0) *)
Definition breusch_pagan k (x : 'M[R]_(n, k)) u zarg : dres het :=
  let den := utu_of u / n%:R in
  let g : 'cV[R]_n := \col_i (u i 0 ^+ 2 / den - 1) in
  match z_of x zarg with
  | DErr e => DErr e
  | DOk z0 => let z := dedup z0 in
              match explained z g with DErr e => DErr e | DOk q => DOk (Het (size z - 1) (2%:R^-1 * q)) end
  end.
(** spreg/diagnostics.py:1098-1170 koenker_bassett *)
Definition koenker_bassett k (x : 'M[R]_(n, k)) u zarg : dres het :=
  let ubar := utu_of u / n%:R in
  let g : 'cV[R]_n := \col_i (u i 0 ^+ 2 - ubar) in
  let v := n%:R^-1 * \sum_i (u i 0 ^+ 2 - ubar) ^+ 2 in
  match z_of x zarg with
  | DErr e => DErr e
  | DOk z0 => let z := dedup z0 in
              match explained z g with DErr e => DErr e | DOk q => DOk (Het (size z - 1) (v^-1 * q)) end
  end.

(** spreg/diagnostics.py:932-1014 white, dense x; ci is the condition index: above 30 a message is returned instead (None) *)
Definition const_col (c : 'cV[R]_n) : bool := [forall i, forall j, c i 0 == c j 0].
Definition products k (x : 'M[R]_(n, k)) : seq 'cV[R]_n :=
  [seq vmul (col ij.1 x) (col ij.2 x) | ij <- [seq ij : 'I_k * 'I_k <- enum [finType of 'I_k * 'I_k] | ((ij.1 : nat) <= (ij.2 : nat))%N]].
Definition white_omit (a : seq 'cV[R]_n) : seq nat :=
  flatten [seq (if const_col (nth 0 a i) then [:: i] else [::]) ++ dup_of a i | i <- iota 0 (size a)].
(** np.delete with a list of indices: the columns whose index is not listed *)
Definition np_delete (A : Type) (s : seq A) (om : seq nat) : seq A := mask [seq i \notin om | i <- iota 0 (size s)] s.
Definition white_cols k (x : 'M[R]_(n, k)) : seq 'cV[R]_n :=
  let a := cols x ++ products x in const_mx 1 :: np_delete a (white_omit a).
Definition white k (x : 'M[R]_(n, k)) u (ci : R) : dres (option het) :=
  if 30%:R < ci then DOk None
  else let a := white_cols x in
       let e : 'cV[R]_n := \col_i (u i 0 ^+ 2) in
       if base_ols e (of_cols a) RobNone None true is Some aux then DOk (Some (Het (size a - 1) (r2_of aux * n%:R)))
       else DErr LinAlgError.
(** spreg/diagnostics.py:1271-1336 constant_check: some column has min = max *)
Definition constant_check k (x : 'M[R]_(n, k)) : bool := has const_col (cols x).
End Diag.

Section Vif.
Variables (R : realFieldType) (n k : nat).
(** spreg/diagnostics.py:1233-1268 vif, one regressor j of k+1: (vif, tolerance), or MISSINGVALUE (None) when the column has no variation *)
Definition vif_j (x : 'M[R]_(n, k.+1)) (j : 'I_k.+1) : dres (option (R * R)) :=
  let z := col' j x in
  let y := col j x in
  if base_ols y z RobNone None true is Some aux then
    let ss_tot := \sum_i (y i 0 - mean_of y) ^+ 2 in
    if ss_tot == 0 then DOk None
    else let r2aux := 1 - utu_of (o_u aux) / ss_tot in
         let tolj := 1 - r2aux in
         DOk (Some (1 / tolj, tolj))
  else DErr LinAlgError.
(** spreg/diagnostics.py:609-621 condition_index: the matrix whose eigenvalues are compared (numpy broadcasting: column j divided by
    diag j); sqrt(max / min) of its eigenvalues *)
Definition ci_scale (x : 'M[R]_(n, k)) : 'M[R]_k := let xtx := x^T *m x in \matrix_(i, j) (xtx i j / xtx j j).
(** spreg/diagnostics.py:1400-1432 dwh: predicted endogenous variables from all the instruments h, column by column, added to z = [x yend];
    F test on them *)
Definition dwh q (x : 'M[R]_(n, k)) ny (yend : 'M[R]_(n, ny)) (h : 'M[R]_(n, q)) (y : 'cV[R]_n) : option R :=
  if [forall i, base_ols (col i yend) h RobNone None true] then
    let py : 'M[R]_(n, ny) := \matrix_(a, i) (if base_ols (col i yend) h RobNone None true is Some o then o_predy o a 0 else 0) in
    f_stat_last y (row_mx x yend) py
  else None.
End Vif.

Section Jb.
Variables (R : rcfType) (n : nat).
(** spreg/diagnostics.py:690-707 jarque_bera: mu2 ** 1.5 = mu2 sqrt(mu2) *)
Definition moment_u (p : nat) (u : 'cV[R]_n) : R := (\sum_i u i 0 ^+ p) / n%:R.
Definition jb_S (u : 'cV[R]_n) : R := moment_u 3 u / (moment_u 2 u * Num.sqrt (moment_u 2 u)).
Definition jb_K (u : 'cV[R]_n) : R := moment_u 4 u / moment_u 2 u ^+ 2.
Definition jarque_bera (u : 'cV[R]_n) : R * nat :=
  (n%:R * (jb_S u ^+ 2 / 6%:R + (jb_K u - 3%:R) ^+ 2 / 24%:R), 2%N).
End Jb.
