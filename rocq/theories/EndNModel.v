(** Endogenous regimes: the names of the variables.  The three classes clean x once, then the regimes class cleans the matrix it is handed again, with the names
    left by the first cleaning. *)
From Verif Require Import PyBase ChecksModel.
Open Scope string_scope.
Open Scope list_scope.
Open Scope nat_scope.

(** spreg/ols_regimes.py:1052 and 1085 with ols_regimes.py:435, spreg/twosls_regimes.py:1071 and 1102 (x_constant is handed over);
    spreg/twosls_sp_regimes.py:1323 and 1356 with twosls_sp_regimes.py:504 (x is handed over).  [lag]: the class is GM_Lag_Endog_Regimes *)
Definition endog_names (lag : bool) (h : heap) (nrows : nat) (x : list (list Z)) (name_x : option ref)
  : res (heap * list (list Z) * option ref * nat) :=
  bind (check_constant h nrows x name_x true) (fun r => let '(h1, x1, keep, _) := r in
    check_constant h1 nrows (if lag then x else x1) keep true).
