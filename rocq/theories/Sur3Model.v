(** Three-stage least squares: spreg/sur.py:608-640 BaseThreeSLS and its helpers. *)
From mathcomp Require Import all_ssreflect all_algebra.
From Verif Require Import LinRegModel SurModel.
Set Implicit Arguments.
Unset Strict Implicit.
Unset Printing Implicit Defensive.
Import Order.TTheory GRing.Theory Num.Theory.
Local Open Scope ring_scope.

Section Three.
Variables (R : realFieldType) (G n : nat) (kx ky kq : 'I_G -> nat).
Variables (X : forall r, 'M[R]_(n, kx r)) (Yd : forall r, 'M[R]_(n, ky r)) (Q : forall r, 'M[R]_(n, kq r)) (y : 'I_G -> 'cV[R]_n).
(** spreg/sur.py:614-616 bigZ *)
Definition bigZ : forall r, 'M[R]_(n, (kx r + ky r)%N) := fun r => row_mx (X r) (Yd r).
(** spreg/sur.py:622-624 bigH *)
Definition bigH : forall r, 'M[R]_(n, (kx r + kq r)%N) := fun r => row_mx (X r) (Q r).
(** spreg/sur.py:982-993 _get_bigZhat *)
Definition bigZhat : forall r, 'M[R]_(n, (kx r + ky r)%N) :=
  fun r => row_mx (X r) (bigH r *m (invmx ((bigH r)^T *m bigH r) *m ((bigH r)^T *m Yd r))).
(** spreg/sur.py:628-638; _sur_2sls (957-979) is _sur_ols on the projected regressors, with the residuals from bigZ.
    The attribute corr is sur_corr of e_sig (SurModel). *)
Record sls3 := Sls3 { l_b2 : forall r, 'cV[R]_(kx r + ky r)%N; l_E2 : 'M[R]_(n, G); l_est : est R (fun r => (kx r + ky r)%N); l_E : 'M[R]_(n, G) }.
Definition base_3sls : option sls3 :=
  if [forall r, (bigH r)^T *m bigH r \in unitmx] then
    if sur_ols bigZhat y is Some b2 then
      let E2 := sur_resids y bigZ b2 in
      if sur_est (crossXX bigZhat) (crossXy bigZhat y) E2 is Some e then
        Some (Sls3 b2 E2 e (sur_resids y bigZ (e_b e)))
      else None
    else None
  else None.
End Three.
