(** Asymptotic variance of lambda and Sigma in SURerrorML, and its tests: spreg/sur_error.py:840-866, 976-1087.
    Not modelled: p-values, the printed summary. *)
From mathcomp Require Import all_ssreflect all_algebra.
From Verif Require Import LinRegModel SurModel.
Set Implicit Arguments.
Unset Strict Implicit.
Unset Printing Implicit Defensive.
Import Order.TTheory GRing.Theory Num.Theory.
Local Open Scope ring_scope.

(** tlist = [(i, j) for i in range(n_eq) for j in range(i, n_eq)]: spreg/sur_error.py:1044 *)
Definition suv_tlist (G : nat) : seq ('I_G * 'I_G) := [seq (i, j) | i <- enum 'I_G, j <- [seq j <- enum 'I_G | (val i <= val j)%N]].

Section Vm.
Variables (R : realFieldType) (G n : nat).
Notation P := (size (suv_tlist G)).
Notation pair a := (tnth (in_tuple (suv_tlist G)) a).
(** spreg/sur_error.py:1012-1036: D_i = W inv(I - lam_i W) and the traces; trDTiDj is filled above the diagonal and mirrored, then its diagonal *)
Definition suv_D (W : 'M[R]_n) (lam : 'cV[R]_G) (i : 'I_G) : 'M[R]_n := W *m invmx (1%:M - lam i 0 *: W).
Definition suv_trDTD (D : 'I_G -> 'M[R]_n) : 'M[R]_G := \matrix_(i, j)
  (if (i < j)%N then \tr ((D i)^T *m D j) else if (j < i)%N then \tr ((D j)^T *m D i) else \tr ((D i)^T *m D i)).
(** spreg/sur_error.py:1038-1039 *)
Definition suv_ll (sig sigi : 'M[R]_G) (D : 'I_G -> 'M[R]_n) : 'M[R]_G :=
  diag_mx (\row_i \tr (D i *m D i)) + had (had sigi sig) (suv_trDTD D).
(** spreg/sur_error.py:1045-1053: zog = sigi * trDi; the loops over i and j write zog[i, j] at column tlist.index((i, j)) or, below the diagonal, of
    (j, i); the value of an entry is that of the last write *)
Definition suv_lsig (sigi : 'M[R]_G) (D : 'I_G -> 'M[R]_n) : 'M[R]_(G, P) :=
  let zog i j := sigi i j * \tr (D i) in
  \matrix_(i < G, a < P) foldl (fun v (j : 'I_G) => if index (if (val j < val i)%N then (j, i) else (i, j)) (suv_tlist G) == val a then zog i j else v) 0 (enum 'I_G).
(** spreg/sur_error.py:1060-1077 *)
Definition suv_sig (sigi : 'M[R]_G) : 'M[R]_P := n%:R *: \matrix_(a, c)
  let: (i, j) := pair a in let: (h, k) := pair c in
  if i == j then
    if h == k then 2%:R^-1 * sigi i h ^+ 2 else sigi i h * sigi i k
  else
    if h == k then sigi i h * sigi j h else sigi i h * sigi j k + sigi i k * sigi j h.
(** spreg/sur_error.py:1055-1085: vbig and its inverse; la.inv raises on a singular matrix *)
Definition suv_big (W : 'M[R]_n) (lam : 'cV[R]_G) (sig : 'M[R]_G) : option 'M[R]_(G + P) :=
  if la_inv sig is Some sigi then
    if [forall i, 1%:M - lam i 0 *: W \in unitmx] then
      let D := suv_D W lam in
      Some (block_mx (suv_ll sig sigi D) (suv_lsig sigi D) (suv_lsig sigi D)^T (suv_sig sigi))
    else None
  else None.
Definition surerrvm (W : 'M[R]_n) (lam : 'cV[R]_G) (sig : 'M[R]_G) : option 'M[R]_(G + P) :=
  if suv_big W lam sig is Some vbig then la_inv vbig else None.
(** spreg/sur_error.py:851-866: vlam = vm[:n_eq, :n_eq]; joinlam with the identity matrix *)
Definition suv_joinlam (W : 'M[R]_n) (lam : 'cV[R]_G) (sig : 'M[R]_G) : option R :=
  if surerrvm W lam sig is Some vm then wald_w lam 1%:M 0 (ulsubmx vm) else None.
End Vm.
(** spreg/sur_error.py:852-856: lamtest with buildR(kr=1, kf=0, nr=n_eq), regimes.py:310-336: row j has 1 in column 0 and -1 in column j+1 *)
Definition suv_lamtest (R : realFieldType) (G n : nat) (W : 'M[R]_n) (lam : 'cV[R]_G.+1) (sig : 'M[R]_G.+1) : option R :=
  if surerrvm W lam sig is Some vm then
    wald_w lam (\matrix_(j < G, c < G.+1) (if val c == (val j).+1 then -1 else if val c == 0%N then 1 else 0)) 0 (ulsubmx vm)
  else None.
