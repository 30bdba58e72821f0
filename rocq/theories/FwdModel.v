(** Calls with keyword arguments: the classes that hand their arguments over to another class when regimes is given
    (OLS, TSLS, GM_Lag, ML_Lag, ML_Error) and the wrappers GMM_Error and GMM_Error_Regimes.

    Modelled: binding of keyword arguments to parameters (defaults, missing and unknown keywords), the lists of forwarded
    arguments and the choice of the class.  The signatures and lists are transcribed from the sources.  Simplified: positional
    arguments are passed by keyword; a value is a literal of the sources (written as there) or an object of the caller.  Not
    modelled: what the classes do with their parameters. *)
From Coq Require Import String.
From Verif Require Import PyBase.
Open Scope list_scope.
Open Scope string_scope.

(** def __init__(self, ...): parameters with their default, None for a required one, and whether there is **kwargs *)
Record signature := { s_params : list (string * option string); s_kwargs : bool }.
Definition s_names (s : signature) : list string := map fst (s_params s).

Definition mem (p : string) (l : list string) : bool := existsb (String.eqb p) l.

Fixpoint lookup {A} (kw : list (string * A)) (p : string) : option A :=
  match kw with [] => None | (k, v) :: kw' => if String.eqb k p then Some v else lookup kw' p end.

Section Values.
Context {V : Type}.

Inductive value := Lit (s : string) | Usr (v : V).

Fixpoint no_dup (l : list string) : bool := match l with [] => true | a :: l' => (negb (mem a l') && no_dup l')%bool end.

(** A call that has been bound to a signature: the value of every parameter, and kwargs *)
Record bound := { b_sig : signature; b_env : list (string * value); b_extra : list (string * value) }.

Definition bind_param (kw : list (string * value)) (pd : string * option string) : string * value :=
  let '(p, d) := pd in
  (p, match lookup kw p with Some v => v | None => match d with Some s => Lit s | None => Lit "None" end end).

(** Python's call: a repeated keyword, an unknown one without **kwargs, or a missing required one is an error *)
Definition bind_call (s : signature) (kw : list (string * value)) : res bound :=
  if negb (no_dup (map fst kw)) then Err "TypeError"
  else if (negb (s_kwargs s) && existsb (fun k => negb (mem k (s_names s))) (map fst kw))%bool then Err "TypeError"
  else if existsb (fun pd => match snd pd with None => negb (mem (fst pd) (map fst kw)) | Some _ => false end) (s_params s) then Err "TypeError"
  else Ok {| b_sig := s; b_env := map (bind_param kw) (s_params s);
             b_extra := filter (fun kv => negb (mem (fst kv) (s_names s))) kw |}.

(** The value of a parameter in the body of __init__ *)
Definition arg (b : bound) (p : string) : value := match lookup (b_env b) p with Some v => v | None => Lit "None" end.

(** C.__init__(self, k=p, ..., **kwargs) in the body *)
Definition forward (f : list (string * string)) (extra : bool) (b : bound) : list (string * value) :=
  map (fun '(k, p) => (k, arg b p)) f ++ (if extra then b_extra b else []).

Definition is_none (v : value) : bool := match v with Lit s => String.eqb s "None" | Usr _ => false end.
Definition is_lit (v : value) (s : string) : bool := match v with Lit s' => String.eqb s' s | Usr _ => false end.
(** if add_wy: a literal, or an object of the caller (true) *)
Definition truthy (v : value) : bool := match v with Lit s => negb (mem s ["False"; "None"; "0"; "''"]) | Usr _ => true end.
End Values.
Arguments value : clear implicits.
Arguments bound : clear implicits.

(** ** Signatures *)
(** spreg/ols.py:441-465 *)
Definition sig_OLS : signature := {| s_params := [("y", None); ("x", None); ("w", Some "None"); ("robust", Some "None");
  ("gwk", Some "None"); ("slx_lags", Some "0"); ("slx_vars", Some "'All'"); ("regimes", Some "None"); ("sig2n_k", Some "True");
  ("nonspat_diag", Some "True"); ("spat_diag", Some "False"); ("moran", Some "False"); ("white_test", Some "False");
  ("vif", Some "False"); ("vm", Some "False"); ("name_y", Some "None"); ("name_x", Some "None"); ("name_w", Some "None");
  ("name_gwk", Some "None"); ("name_ds", Some "None"); ("latex", Some "False")];
  s_kwargs := true |}.

(** spreg/ols_regimes.py:390-419 *)
Definition sig_OLS_Regimes : signature := {| s_params := [("y", None); ("x", None); ("regimes", None); ("w", Some "None");
  ("robust", Some "None"); ("gwk", Some "None"); ("slx_lags", Some "0"); ("slx_vars", Some "'all'"); ("sig2n_k", Some "True");
  ("nonspat_diag", Some "True"); ("spat_diag", Some "False"); ("moran", Some "False"); ("white_test", Some "False");
  ("vm", Some "False"); ("constant_regi", Some "'many'"); ("cols2regi", Some "'all'"); ("regime_err_sep", Some "True");
  ("cores", Some "False"); ("name_y", Some "None"); ("name_x", Some "None"); ("name_regimes", Some "None");
  ("name_w", Some "None"); ("name_gwk", Some "None"); ("name_ds", Some "None"); ("latex", Some "False")];
  s_kwargs := true |}.

(** spreg/twosls.py:456-481 *)
Definition sig_TSLS : signature := {| s_params := [("y", None); ("x", None); ("yend", None); ("q", None); ("w", Some "None");
  ("robust", Some "None"); ("gwk", Some "None"); ("slx_lags", Some "0"); ("slx_vars", Some "'All'"); ("sig2n_k", Some "False");
  ("spat_diag", Some "False"); ("nonspat_diag", Some "True"); ("regimes", Some "None"); ("vm", Some "False");
  ("name_y", Some "None"); ("name_x", Some "None"); ("name_yend", Some "None"); ("name_q", Some "None"); ("name_w", Some "None");
  ("name_gwk", Some "None"); ("name_ds", Some "None"); ("latex", Some "False")];
  s_kwargs := true |}.

(** spreg/twosls_regimes.py:314-344 *)
Definition sig_TSLS_Regimes : signature := {| s_params := [("y", None); ("x", None); ("yend", None); ("q", None);
  ("regimes", None); ("w", Some "None"); ("robust", Some "None"); ("gwk", Some "None"); ("slx_lags", Some "0");
  ("slx_vars", Some "'all'"); ("sig2n_k", Some "True"); ("spat_diag", Some "False"); ("vm", Some "False");
  ("constant_regi", Some "'many'"); ("cols2regi", Some "'all'"); ("regime_err_sep", Some "False"); ("name_y", Some "None");
  ("name_x", Some "None"); ("cores", Some "False"); ("name_yend", Some "None"); ("name_q", Some "None");
  ("name_regimes", Some "None"); ("name_w", Some "None"); ("name_gwk", Some "None"); ("name_ds", Some "None");
  ("summ", Some "True"); ("latex", Some "False")];
  s_kwargs := false |}.

(** spreg/twosls_sp.py:510-538 *)
Definition sig_GM_Lag : signature := {| s_params := [("y", None); ("x", None); ("yend", Some "None"); ("q", Some "None");
  ("w", Some "None"); ("w_lags", Some "1"); ("lag_q", Some "True"); ("slx_lags", Some "0"); ("slx_vars", Some "'All'");
  ("regimes", Some "None"); ("robust", Some "None"); ("gwk", Some "None"); ("sig2n_k", Some "False"); ("spat_diag", Some "True");
  ("spat_impacts", Some "'simple'"); ("vm", Some "False"); ("name_y", Some "None"); ("name_x", Some "None");
  ("name_yend", Some "None"); ("name_q", Some "None"); ("name_w", Some "None"); ("name_gwk", Some "None");
  ("name_ds", Some "None"); ("latex", Some "False"); ("hard_bound", Some "False")];
  s_kwargs := true |}.

(** spreg/twosls_sp_regimes.py:450-484 *)
Definition sig_GM_Lag_Regimes : signature := {| s_params := [("y", None); ("x", None); ("regimes", None); ("yend", Some "None");
  ("q", Some "None"); ("w", Some "None"); ("w_lags", Some "1"); ("slx_lags", Some "0"); ("slx_vars", Some "'all'");
  ("lag_q", Some "True"); ("robust", Some "'white'"); ("gwk", Some "None"); ("sig2n_k", Some "False");
  ("spat_diag", Some "True"); ("spat_impacts", Some "'simple'"); ("constant_regi", Some "'many'"); ("cols2regi", Some "'all'");
  ("regime_lag_sep", Some "False"); ("regime_err_sep", Some "False"); ("cores", Some "False"); ("vm", Some "False");
  ("name_y", Some "None"); ("name_x", Some "None"); ("name_yend", Some "None"); ("name_q", Some "None");
  ("name_regimes", Some "None"); ("name_w", Some "None"); ("name_gwk", Some "None"); ("name_ds", Some "None");
  ("latex", Some "False"); ("hard_bound", Some "False")];
  s_kwargs := false |}.

(** spreg/ml_lag.py:600-619 *)
Definition sig_ML_Lag : signature := {| s_params := [("y", None); ("x", None); ("w", None); ("slx_lags", Some "0");
  ("slx_vars", Some "'All'"); ("regimes", Some "None"); ("method", Some "'full'"); ("epsilon", Some "1e-07");
  ("spat_impacts", Some "'simple'"); ("vm", Some "False"); ("spat_diag", Some "True"); ("name_y", Some "None");
  ("name_x", Some "None"); ("name_w", Some "None"); ("name_ds", Some "None"); ("latex", Some "False")];
  s_kwargs := true |}.

(** spreg/ml_lag_regimes.py:314-338 *)
Definition sig_ML_Lag_Regimes : signature := {| s_params := [("y", None); ("x", None); ("regimes", None); ("w", Some "None");
  ("constant_regi", Some "'many'"); ("cols2regi", Some "'all'"); ("method", Some "'full'"); ("epsilon", Some "1e-07");
  ("slx_lags", Some "0"); ("slx_vars", Some "'all'"); ("regime_lag_sep", Some "False"); ("cores", Some "False");
  ("spat_diag", Some "True"); ("spat_impacts", Some "'simple'"); ("vm", Some "False"); ("name_y", Some "None");
  ("name_x", Some "None"); ("name_w", Some "None"); ("name_ds", Some "None"); ("name_regimes", Some "None");
  ("latex", Some "False")];
  s_kwargs := false |}.

(** spreg/ml_error.py:475-492 *)
Definition sig_ML_Error : signature := {| s_params := [("y", None); ("x", None); ("w", None); ("slx_lags", Some "0");
  ("slx_vars", Some "'All'"); ("regimes", Some "None"); ("method", Some "'full'"); ("epsilon", Some "1e-07");
  ("vm", Some "False"); ("name_y", Some "None"); ("name_x", Some "None"); ("name_w", Some "None"); ("name_ds", Some "None");
  ("latex", Some "False")];
  s_kwargs := true |}.

(** spreg/ml_error_regimes.py:283-306 *)
Definition sig_ML_Error_Regimes : signature := {| s_params := [("y", None); ("x", None); ("regimes", None); ("w", Some "None");
  ("slx_lags", Some "0"); ("slx_vars", Some "'all'"); ("constant_regi", Some "'many'"); ("cols2regi", Some "'all'");
  ("method", Some "'full'"); ("epsilon", Some "1e-07"); ("regime_err_sep", Some "False"); ("regime_lag_sep", Some "False");
  ("cores", Some "False"); ("vm", Some "False"); ("name_y", Some "None"); ("name_x", Some "None"); ("name_w", Some "None");
  ("name_ds", Some "None"); ("name_regimes", Some "None"); ("latex", Some "False")];
  s_kwargs := false |}.

(** spreg/error_sp.py:1320-1323 *)
Definition sig_GMM_Error : signature := {| s_params := [("y", None); ("x", None); ("w", None); ("yend", Some "None");
  ("q", Some "None"); ("regimes", Some "None"); ("estimator", Some "'het'"); ("add_wy", Some "False"); ("slx_lags", Some "0");
  ("slx_vars", Some "'All'"); ("vm", Some "False"); ("name_y", Some "None"); ("name_x", Some "None"); ("name_w", Some "None");
  ("name_yend", Some "None"); ("name_q", Some "None"); ("name_ds", Some "None"); ("latex", Some "False");
  ("hard_bound", Some "False"); ("spat_diag", Some "False")];
  s_kwargs := true |}.

(** spreg/error_sp_regimes.py:1908-1912 *)
Definition sig_GMM_Error_Regimes : signature := {| s_params := [("y", None); ("x", None); ("regimes", None); ("w", None);
  ("yend", Some "None"); ("q", Some "None"); ("estimator", Some "'het'"); ("constant_regi", Some "'many'");
  ("cols2regi", Some "'all'"); ("regime_err_sep", Some "False"); ("regime_lag_sep", Some "False"); ("add_wy", Some "False");
  ("slx_lags", Some "0"); ("vm", Some "False"); ("name_y", Some "None"); ("name_x", Some "None"); ("name_w", Some "None");
  ("name_regimes", Some "None"); ("name_yend", Some "None"); ("name_q", Some "None"); ("name_ds", Some "None");
  ("latex", Some "False")];
  s_kwargs := true |}.

(** spreg/error_sp.py:296-299 *)
Definition sig_GM_Error : signature := {| s_params := [("y", None); ("x", None); ("w", None); ("slx_lags", Some "0");
  ("slx_vars", Some "'All'"); ("vm", Some "False"); ("name_y", Some "None"); ("name_x", Some "None"); ("name_w", Some "None");
  ("name_ds", Some "None"); ("latex", Some "False"); ("hard_bound", Some "False")];
  s_kwargs := false |}.

(** spreg/error_sp_regimes.py:278-299 *)
Definition sig_GM_Error_Regimes : signature := {| s_params := [("y", None); ("x", None); ("regimes", None); ("w", None);
  ("vm", Some "False"); ("name_y", Some "None"); ("name_x", Some "None"); ("name_w", Some "None");
  ("constant_regi", Some "'many'"); ("cols2regi", Some "'all'"); ("regime_err_sep", Some "False");
  ("regime_lag_sep", Some "False"); ("slx_lags", Some "0"); ("slx_vars", Some "'all'"); ("cores", Some "False");
  ("name_ds", Some "None"); ("name_regimes", Some "None"); ("latex", Some "False")];
  s_kwargs := false |}.

(** spreg/error_sp.py:652-671 *)
Definition sig_GM_Endog_Error : signature := {| s_params := [("y", None); ("x", None); ("yend", None); ("q", None); ("w", None);
  ("slx_lags", Some "0"); ("slx_vars", Some "'All'"); ("vm", Some "False"); ("name_y", Some "None"); ("name_x", Some "None");
  ("name_yend", Some "None"); ("name_q", Some "None"); ("name_w", Some "None"); ("name_ds", Some "None");
  ("latex", Some "False"); ("hard_bound", Some "False")];
  s_kwargs := false |}.

(** spreg/error_sp_regimes.py:796-822 *)
Definition sig_GM_Endog_Error_Regimes : signature := {| s_params := [("y", None); ("x", None); ("yend", None); ("q", None);
  ("regimes", None); ("w", None); ("cores", Some "False"); ("vm", Some "False"); ("constant_regi", Some "'many'");
  ("cols2regi", Some "'all'"); ("regime_err_sep", Some "False"); ("regime_lag_sep", Some "False"); ("slx_lags", Some "0");
  ("name_y", Some "None"); ("name_x", Some "None"); ("name_yend", Some "None"); ("name_q", Some "None"); ("name_w", Some "None");
  ("name_ds", Some "None"); ("name_regimes", Some "None"); ("summ", Some "True"); ("add_lag", Some "False");
  ("latex", Some "False")];
  s_kwargs := false |}.

(** spreg/error_sp.py:953-974 *)
Definition sig_GM_Combo : signature := {| s_params := [("y", None); ("x", None); ("yend", Some "None"); ("q", Some "None");
  ("w", Some "None"); ("w_lags", Some "1"); ("slx_lags", Some "0"); ("slx_vars", Some "'All'"); ("lag_q", Some "True");
  ("vm", Some "False"); ("name_y", Some "None"); ("name_x", Some "None"); ("name_yend", Some "None"); ("name_q", Some "None");
  ("name_w", Some "None"); ("name_ds", Some "None"); ("latex", Some "False"); ("hard_bound", Some "False")];
  s_kwargs := false |}.

(** spreg/error_sp_regimes.py:1472-1497 *)
Definition sig_GM_Combo_Regimes : signature := {| s_params := [("y", None); ("x", None); ("regimes", None);
  ("yend", Some "None"); ("q", Some "None"); ("w", Some "None"); ("slx_lags", Some "0"); ("w_lags", Some "1");
  ("lag_q", Some "True"); ("cores", Some "False"); ("constant_regi", Some "'many'"); ("cols2regi", Some "'all'");
  ("regime_err_sep", Some "False"); ("regime_lag_sep", Some "False"); ("vm", Some "False"); ("name_y", Some "None");
  ("name_x", Some "None"); ("name_yend", Some "None"); ("name_q", Some "None"); ("name_w", Some "None");
  ("name_ds", Some "None"); ("name_regimes", Some "None"); ("latex", Some "False")];
  s_kwargs := false |}.

(** spreg/error_sp_het.py:356-374 *)
Definition sig_GM_Error_Het : signature := {| s_params := [("y", None); ("x", None); ("w", None); ("slx_lags", Some "0");
  ("slx_vars", Some "'All'"); ("max_iter", Some "1"); ("epsilon", Some "1e-05"); ("step1c", Some "False"); ("vm", Some "False");
  ("name_y", Some "None"); ("name_x", Some "None"); ("name_w", Some "None"); ("name_ds", Some "None"); ("latex", Some "False");
  ("hard_bound", Some "False")];
  s_kwargs := false |}.

(** spreg/error_sp_het_regimes.py:306-331 *)
Definition sig_GM_Error_Het_Regimes : signature := {| s_params := [("y", None); ("x", None); ("regimes", None); ("w", None);
  ("max_iter", Some "1"); ("epsilon", Some "1e-05"); ("step1c", Some "False"); ("constant_regi", Some "'many'");
  ("cols2regi", Some "'all'"); ("regime_err_sep", Some "False"); ("regime_lag_sep", Some "False"); ("slx_lags", Some "0");
  ("slx_vars", Some "'all'"); ("cores", Some "False"); ("vm", Some "False"); ("name_y", Some "None"); ("name_x", Some "None");
  ("name_w", Some "None"); ("name_ds", Some "None"); ("name_regimes", Some "None"); ("latex", Some "False");
  ("hard_bound", Some "False")];
  s_kwargs := false |}.

(** spreg/error_sp_het.py:884-907 *)
Definition sig_GM_Endog_Error_Het : signature := {| s_params := [("y", None); ("x", None); ("yend", None); ("q", None);
  ("w", None); ("slx_lags", Some "0"); ("slx_vars", Some "'All'"); ("max_iter", Some "1"); ("epsilon", Some "1e-05");
  ("step1c", Some "False"); ("inv_method", Some "'power_exp'"); ("vm", Some "False"); ("name_y", Some "None");
  ("name_x", Some "None"); ("name_yend", Some "None"); ("name_q", Some "None"); ("name_w", Some "None");
  ("name_ds", Some "None"); ("latex", Some "False"); ("hard_bound", Some "False")];
  s_kwargs := false |}.

(** spreg/error_sp_het_regimes.py:913-944 *)
Definition sig_GM_Endog_Error_Het_Regimes : signature := {| s_params := [("y", None); ("x", None); ("yend", None); ("q", None);
  ("regimes", None); ("w", None); ("max_iter", Some "1"); ("epsilon", Some "1e-05"); ("step1c", Some "False");
  ("constant_regi", Some "'many'"); ("cols2regi", Some "'all'"); ("regime_err_sep", Some "False");
  ("regime_lag_sep", Some "False"); ("slx_lags", Some "0"); ("inv_method", Some "'power_exp'"); ("cores", Some "False");
  ("vm", Some "False"); ("name_y", Some "None"); ("name_x", Some "None"); ("name_yend", Some "None"); ("name_q", Some "None");
  ("name_w", Some "None"); ("name_ds", Some "None"); ("name_regimes", Some "None"); ("summ", Some "True");
  ("add_lag", Some "False"); ("latex", Some "False"); ("hard_bound", Some "False")];
  s_kwargs := false |}.

(** spreg/error_sp_het.py:1395-1420 *)
Definition sig_GM_Combo_Het : signature := {| s_params := [("y", None); ("x", None); ("yend", Some "None"); ("q", Some "None");
  ("w", Some "None"); ("w_lags", Some "1"); ("slx_lags", Some "0"); ("slx_vars", Some "'All'"); ("lag_q", Some "True");
  ("max_iter", Some "1"); ("epsilon", Some "1e-05"); ("step1c", Some "False"); ("inv_method", Some "'power_exp'");
  ("vm", Some "False"); ("name_y", Some "None"); ("name_x", Some "None"); ("name_yend", Some "None"); ("name_q", Some "None");
  ("name_w", Some "None"); ("name_ds", Some "None"); ("latex", Some "False"); ("hard_bound", Some "False")];
  s_kwargs := false |}.

(** spreg/error_sp_het_regimes.py:1686-1716 *)
Definition sig_GM_Combo_Het_Regimes : signature := {| s_params := [("y", None); ("x", None); ("regimes", None);
  ("yend", Some "None"); ("q", Some "None"); ("w", Some "None"); ("slx_lags", Some "0"); ("w_lags", Some "1");
  ("lag_q", Some "True"); ("max_iter", Some "1"); ("epsilon", Some "1e-05"); ("step1c", Some "False"); ("cores", Some "False");
  ("inv_method", Some "'power_exp'"); ("constant_regi", Some "'many'"); ("cols2regi", Some "'all'");
  ("regime_err_sep", Some "False"); ("regime_lag_sep", Some "False"); ("vm", Some "False"); ("name_y", Some "None");
  ("name_x", Some "None"); ("name_yend", Some "None"); ("name_q", Some "None"); ("name_w", Some "None");
  ("name_ds", Some "None"); ("name_regimes", Some "None"); ("latex", Some "False"); ("hard_bound", Some "False")];
  s_kwargs := false |}.

(** spreg/error_sp_hom.py:352-369 *)
Definition sig_GM_Error_Hom : signature := {| s_params := [("y", None); ("x", None); ("w", None); ("slx_lags", Some "0");
  ("slx_vars", Some "'All'"); ("max_iter", Some "1"); ("epsilon", Some "1e-05"); ("A1", Some "'hom_sc'"); ("vm", Some "False");
  ("name_y", Some "None"); ("name_x", Some "None"); ("name_w", Some "None"); ("name_ds", Some "None"); ("latex", Some "False");
  ("hard_bound", Some "False")];
  s_kwargs := false |}.

(** spreg/error_sp_hom_regimes.py:317-342 *)
Definition sig_GM_Error_Hom_Regimes : signature := {| s_params := [("y", None); ("x", None); ("regimes", None); ("w", None);
  ("max_iter", Some "1"); ("epsilon", Some "1e-05"); ("A1", Some "'het'"); ("cores", Some "False");
  ("constant_regi", Some "'many'"); ("cols2regi", Some "'all'"); ("regime_err_sep", Some "False");
  ("regime_lag_sep", Some "False"); ("slx_lags", Some "0"); ("slx_vars", Some "'all'"); ("vm", Some "False");
  ("name_y", Some "None"); ("name_x", Some "None"); ("name_w", Some "None"); ("name_ds", Some "None");
  ("name_regimes", Some "None"); ("latex", Some "False"); ("hard_bound", Some "False")];
  s_kwargs := false |}.

(** spreg/error_sp_hom.py:832-853 *)
Definition sig_GM_Endog_Error_Hom : signature := {| s_params := [("y", None); ("x", None); ("yend", None); ("q", None);
  ("w", None); ("slx_lags", Some "0"); ("slx_vars", Some "'All'"); ("max_iter", Some "1"); ("epsilon", Some "1e-05");
  ("A1", Some "'hom_sc'"); ("vm", Some "False"); ("name_y", Some "None"); ("name_x", Some "None"); ("name_yend", Some "None");
  ("name_q", Some "None"); ("name_w", Some "None"); ("name_ds", Some "None"); ("latex", Some "False");
  ("hard_bound", Some "False")];
  s_kwargs := false |}.

(** spreg/error_sp_hom_regimes.py:931-961 *)
Definition sig_GM_Endog_Error_Hom_Regimes : signature := {| s_params := [("y", None); ("x", None); ("yend", None); ("q", None);
  ("regimes", None); ("w", None); ("constant_regi", Some "'many'"); ("cols2regi", Some "'all'");
  ("regime_err_sep", Some "False"); ("regime_lag_sep", Some "False"); ("slx_lags", Some "0"); ("max_iter", Some "1");
  ("epsilon", Some "1e-05"); ("A1", Some "'het'"); ("cores", Some "False"); ("vm", Some "False"); ("name_y", Some "None");
  ("name_x", Some "None"); ("name_yend", Some "None"); ("name_q", Some "None"); ("name_w", Some "None");
  ("name_ds", Some "None"); ("name_regimes", Some "None"); ("summ", Some "True"); ("add_lag", Some "False");
  ("latex", Some "False"); ("hard_bound", Some "False")];
  s_kwargs := false |}.

(** spreg/error_sp_hom.py:1344-1367 *)
Definition sig_GM_Combo_Hom : signature := {| s_params := [("y", None); ("x", None); ("yend", Some "None"); ("q", Some "None");
  ("w", Some "None"); ("w_lags", Some "1"); ("slx_lags", Some "0"); ("slx_vars", Some "'All'"); ("lag_q", Some "True");
  ("max_iter", Some "1"); ("epsilon", Some "1e-05"); ("A1", Some "'hom_sc'"); ("vm", Some "False"); ("name_y", Some "None");
  ("name_x", Some "None"); ("name_yend", Some "None"); ("name_q", Some "None"); ("name_w", Some "None");
  ("name_ds", Some "None"); ("latex", Some "False"); ("hard_bound", Some "False")];
  s_kwargs := false |}.

(** spreg/error_sp_hom_regimes.py:1686-1716 *)
Definition sig_GM_Combo_Hom_Regimes : signature := {| s_params := [("y", None); ("x", None); ("regimes", None);
  ("yend", Some "None"); ("q", Some "None"); ("w", Some "None"); ("slx_lags", Some "0"); ("w_lags", Some "1");
  ("lag_q", Some "True"); ("cores", Some "False"); ("max_iter", Some "1"); ("epsilon", Some "1e-05"); ("A1", Some "'het'");
  ("constant_regi", Some "'many'"); ("cols2regi", Some "'all'"); ("regime_err_sep", Some "False");
  ("regime_lag_sep", Some "False"); ("vm", Some "False"); ("name_y", Some "None"); ("name_x", Some "None");
  ("name_yend", Some "None"); ("name_q", Some "None"); ("name_w", Some "None"); ("name_ds", Some "None");
  ("name_regimes", Some "None"); ("latex", Some "False"); ("hard_bound", Some "False")];
  s_kwargs := false |}.

(** spreg/ols.py:466-490 *)
Definition fwd_OLS : list (string * string) := [("y", "y"); ("x", "x"); ("regimes", "regimes"); ("w", "w"); ("robust", "robust");
  ("gwk", "gwk"); ("slx_lags", "slx_lags"); ("sig2n_k", "sig2n_k"); ("nonspat_diag", "nonspat_diag"); ("spat_diag", "spat_diag");
  ("moran", "moran"); ("white_test", "white_test"); ("vm", "vm"); ("name_y", "name_y"); ("name_x", "name_x");
  ("name_w", "name_w"); ("name_gwk", "name_gwk"); ("name_ds", "name_ds"); ("latex", "latex")].

(** spreg/twosls.py:482-507 *)
Definition fwd_TSLS : list (string * string) := [("y", "y"); ("x", "x"); ("yend", "yend"); ("q", "q"); ("regimes", "regimes");
  ("w", "w"); ("robust", "robust"); ("gwk", "gwk"); ("slx_lags", "slx_lags"); ("sig2n_k", "sig2n_k"); ("spat_diag", "spat_diag");
  ("vm", "vm"); ("name_y", "name_y"); ("name_x", "name_x"); ("name_yend", "name_yend"); ("name_q", "name_q");
  ("name_w", "name_w"); ("name_gwk", "name_gwk"); ("name_ds", "name_ds"); ("latex", "latex")].

(** spreg/twosls_sp.py:539-568 *)
Definition fwd_GM_Lag : list (string * string) := [("y", "y"); ("x", "x"); ("regimes", "regimes"); ("yend", "yend"); ("q", "q");
  ("w", "w"); ("w_lags", "w_lags"); ("slx_lags", "slx_lags"); ("lag_q", "lag_q"); ("robust", "robust"); ("gwk", "gwk");
  ("sig2n_k", "sig2n_k"); ("spat_diag", "spat_diag"); ("spat_impacts", "spat_impacts"); ("vm", "vm"); ("name_y", "name_y");
  ("name_x", "name_x"); ("name_yend", "name_yend"); ("name_q", "name_q"); ("name_w", "name_w"); ("name_gwk", "name_gwk");
  ("name_ds", "name_ds"); ("latex", "latex"); ("hard_bound", "hard_bound")].

(** spreg/ml_lag.py:620-640 *)
Definition fwd_ML_Lag : list (string * string) := [("y", "y"); ("x", "x"); ("regimes", "regimes"); ("w", "w");
  ("slx_lags", "slx_lags"); ("method", "method"); ("epsilon", "epsilon"); ("spat_impacts", "spat_impacts"); ("vm", "vm");
  ("spat_diag", "spat_diag"); ("name_y", "name_y"); ("name_x", "name_x"); ("name_w", "name_w"); ("name_ds", "name_ds");
  ("latex", "latex")].

(** spreg/ml_error.py:493-511 *)
Definition fwd_ML_Error : list (string * string) := [("y", "y"); ("x", "x"); ("regimes", "regimes"); ("w", "w");
  ("slx_lags", "slx_lags"); ("method", "method"); ("epsilon", "epsilon"); ("vm", "vm"); ("name_y", "name_y");
  ("name_x", "name_x"); ("name_w", "name_w"); ("name_ds", "name_ds"); ("latex", "latex")].

(** spreg/error_sp.py:1324-1330 *)
Definition fwd_GMM_Error : list (string * string) := [("y", "y"); ("x", "x"); ("regimes", "regimes"); ("w", "w");
  ("yend", "yend"); ("q", "q"); ("estimator", "estimator"); ("add_wy", "add_wy"); ("slx_lags", "slx_lags"); ("vm", "vm");
  ("name_y", "name_y"); ("name_x", "name_x"); ("name_w", "name_w"); ("name_yend", "name_yend"); ("name_q", "name_q");
  ("name_ds", "name_ds"); ("latex", "latex")].

(** ** The classes with a parameter regimes *)
Inductive wrapper := WOLS | WTSLS | WGM_Lag | WML_Lag | WML_Error.

Definition w_sig (c : wrapper) : signature :=
  match c with WOLS => sig_OLS | WTSLS => sig_TSLS | WGM_Lag => sig_GM_Lag | WML_Lag => sig_ML_Lag | WML_Error => sig_ML_Error end.
Definition w_regimes (c : wrapper) : signature :=
  match c with WOLS => sig_OLS_Regimes | WTSLS => sig_TSLS_Regimes | WGM_Lag => sig_GM_Lag_Regimes
  | WML_Lag => sig_ML_Lag_Regimes | WML_Error => sig_ML_Error_Regimes end.
Definition w_fwd (c : wrapper) : list (string * string) :=
  match c with WOLS => fwd_OLS | WTSLS => fwd_TSLS | WGM_Lag => fwd_GM_Lag | WML_Lag => fwd_ML_Lag | WML_Error => fwd_ML_Error end.

(** spreg/ols.py:466-490 (and the four others): with regimes the class becomes the regimes class, whose __init__ is called.  The
    result: the call whose body runs. *)
Definition call {V} (c : wrapper) (kw : list (string * value V)) : res (bound V) :=
  bind (bind_call (w_sig c) kw) (fun b =>
    if is_none (arg b "regimes") then Ok b else bind_call (w_regimes c) (forward (w_fwd c) true b)).

(** ** The wrappers of the GM spatial error models *)
Inductive target := GM_Error | GM_Endog_Error | GM_Combo | GM_Error_Het | GM_Endog_Error_Het | GM_Combo_Het
  | GM_Error_Hom | GM_Endog_Error_Hom | GM_Combo_Hom.

Definition t_sig (t : target) : signature :=
  match t with GM_Error => sig_GM_Error | GM_Endog_Error => sig_GM_Endog_Error | GM_Combo => sig_GM_Combo
  | GM_Error_Het => sig_GM_Error_Het | GM_Endog_Error_Het => sig_GM_Endog_Error_Het | GM_Combo_Het => sig_GM_Combo_Het
  | GM_Error_Hom => sig_GM_Error_Hom | GM_Endog_Error_Hom => sig_GM_Endog_Error_Hom | GM_Combo_Hom => sig_GM_Combo_Hom end.
Definition t_sig_regimes (t : target) : signature :=
  match t with GM_Error => sig_GM_Error_Regimes | GM_Endog_Error => sig_GM_Endog_Error_Regimes | GM_Combo => sig_GM_Combo_Regimes
  | GM_Error_Het => sig_GM_Error_Het_Regimes | GM_Endog_Error_Het => sig_GM_Endog_Error_Het_Regimes | GM_Combo_Het => sig_GM_Combo_Het_Regimes
  | GM_Error_Hom => sig_GM_Error_Hom_Regimes | GM_Endog_Error_Hom => sig_GM_Endog_Error_Hom_Regimes | GM_Combo_Hom => sig_GM_Combo_Hom_Regimes end.

(** The tree of spreg/error_sp.py:1332-1377 and spreg/error_sp_regimes.py:1913-1971: the class, whether **kwargs is passed on, and
    whether it is the last branch (unknown estimator) *)
Definition gmm_tree {V} (b : bound V) : target * bool * bool :=
  let pick (e n c : target) :=
    if (is_none (arg b "yend") && negb (truthy (arg b "add_wy")))%bool then (e, true, false)
    else if (negb (is_none (arg b "yend")) && negb (truthy (arg b "add_wy")))%bool then (n, true, false)
    else if truthy (arg b "add_wy") then (c, true, false) else (e, false, false) in
  if is_lit (arg b "estimator") "'het'" then pick GM_Error_Het GM_Endog_Error_Het GM_Combo_Het
  else if is_lit (arg b "estimator") "'hom'" then pick GM_Error_Hom GM_Endog_Error_Hom GM_Combo_Hom
  else if is_lit (arg b "estimator") "'kp98'" then pick GM_Error GM_Endog_Error GM_Combo
  else (GM_Error_Het, false, true).

Definition same (l : list string) : list (string * string) := map (fun p => (p, p)) l.
Definition is_error (t : target) : bool := match t with GM_Error | GM_Error_Het | GM_Error_Hom => true | _ => false end.
Definition is_combo (t : target) : bool := match t with GM_Combo | GM_Combo_Het | GM_Combo_Hom => true | _ => false end.

(** The arguments passed in error_sp.py:1334-1377; slx_vars is missing in the last branch (1376) *)
Definition gmm_fwd (t : target) (last : bool) : list (string * string) :=
  same (["y"; "x"] ++ (if is_error t then [] else ["yend"; "q"]) ++ ["w"; "slx_lags"] ++ (if last then [] else ["slx_vars"])
        ++ ["vm"; "name_y"; "name_x"] ++ (if is_error t then [] else ["name_yend"; "name_q"]) ++ ["name_w"; "name_ds"; "latex"; "hard_bound"]).

(** ... and in error_sp_regimes.py:1915-1971 *)
Definition gmm_fwd_regimes (t : target) : list (string * string) :=
  same (["y"; "x"; "regimes"] ++ (if is_error t then [] else ["yend"; "q"]) ++ ["w"; "slx_lags"; "vm"; "name_y"; "name_x"; "constant_regi"; "cols2regi"; "regime_err_sep"]
        ++ (if is_combo t then ["regime_lag_sep"] else []) ++ (if is_error t then [] else ["name_yend"; "name_q"])
        ++ ["name_w"; "name_regimes"; "name_ds"; "latex"]).

(** spreg/error_sp_regimes.py:1908-1971 *)
Definition call_gmm_regimes {V} (kw : list (string * value V)) : res (target * bound V) :=
  bind (bind_call sig_GMM_Error_Regimes kw) (fun b =>
    let '(t, ex, last) := gmm_tree b in
    bind (bind_call (t_sig_regimes t) (forward (gmm_fwd_regimes t) ex b)) (fun b' => Ok (t, b'))).

(** spreg/error_sp.py:1320-1377.  The flag: whether the class with regimes runs. *)
Definition call_gmm {V} (kw : list (string * value V)) : res (target * bool * bound V) :=
  bind (bind_call sig_GMM_Error kw) (fun b =>
    if is_none (arg b "regimes")
    then let '(t, ex, last) := gmm_tree b in
         bind (bind_call (t_sig t) (forward (gmm_fwd t last) ex b)) (fun b' => Ok (t, false, b'))
    else bind (call_gmm_regimes (forward fwd_GMM_Error true b)) (fun '(t, b') => Ok (t, true, b'))).
