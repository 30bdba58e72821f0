(** Spatial lag model with regimes: how GM_Lag_Regimes (regime_lag_sep=False) prepares variables, flags and names.
    spreg/twosls_sp_regimes.py:500-600 and, for what TSLS_Regimes does with them, spreg/twosls_regimes.py:357-438.
    Columns as in LagsModel; [x] is x_constant (the constant already removed), names of the user are given as non-empty lists or None.
    Simplifications: the HAC switches (lines 490-500, 543-549), check_regimes (numbers of observations) and check_constant's second run are left out;
    only the lower and upper case ASCII letters are lowered by lower(). *)
From Verif Require Import PyBase LagsModel NamesModel RegimesModel.
Open Scope string_scope.
Open Scope list_scope.
Open Scope nat_scope.

(** slx_vars as the user gives it: a string or a list of booleans *)
Inductive slxarg := SStr (s : string) | SMask (m : list bool).

Definition lower_ascii (c : ascii) : ascii :=
  let n := nat_of_ascii c in if (65 <=? n) && (n <=? 90) then ascii_of_nat (n + 32) else c.
Fixpoint lower (s : string) : string := match s with EmptyString => EmptyString | String c t => String (lower_ascii c) (lower t) end.

(** iterating slx_vars in compress / zip: the characters of a string are all true *)
Definition selectors (v : slxarg) : list bool := match v with SStr s => repeat true (String.length s) | SMask m => m end.
(** spreg/utils.py:709-716 how set_endog sees it *)
Definition to_slxv (v : slxarg) : slxv := match v with SStr s => if String.eqb (lower s) "all" then SlxAll else SlxStr | SMask m => SlxMask m end.
(** spreg/user_output.py:161-194 set_name_spatial_lags(names, w_lags, slx_vars): the comparison slx_vars != "all" is case sensitive *)
Definition set_name_spatial_lags_v (names : list string) (w_lags : nat) (v : slxarg) : list string :=
  match v with
  | SStr s => if String.eqb s "all" then set_name_spatial_lags names w_lags else set_name_spatial_lags (compress names (selectors v)) w_lags
  | SMask m => set_name_spatial_lags (compress names m) w_lags
  end.
(** spreg/twosls_sp_regimes.py:520-521 [next(iter_slx) if keep else name for name, keep in zip(name_x, slx_vars)] *)
Fixpoint q_temp (names : list string) (keep : list bool) (it : list string) : res (list string) :=
  match names, keep with
  | n :: ns, k :: ks =>
      if k then match it with
                | [] => Err "StopIteration"
                | i :: it' => bind (q_temp ns ks it') (fun r => Ok (i :: r))
                end
      else bind (q_temp ns ks it) (fun r => Ok (n :: r))
  | _, _ => Ok []
  end.

(** flags[-n:] *)
Definition last_flags (n : nat) (l : list bool) : list bool := if Nat.eqb n 0 then l else skipn (List.length l - n) l.

(** names of one call of Regimes_Frame.__init__: spreg/regimes.py:219-273 with [n] columns, names non-empty *)
Definition frame_names (n : nat) (constant : const_regi) (c : c2r) (yend : bool) (names regimes_set : list string) : res (list string) :=
  let flags := match c with C2All => repeat true n | C2List l => if yend then last_flags n l else firstn n l end in
  bind (match constant with CNone => Ok flags | COne => Ok (false :: flags) | CMany => Ok (true :: flags) | COther => Err "Exception" end)
       (fun c1 => bind (set_name_x_regimes names constant c1 regimes_set) (fun p => Ok (fst p))).

Section Glr.
Context {C : Type} (lag : C -> C).

(** what the estimator is called with: columns, names before they are repeated per regime, flags, and the names of the estimates *)
Record glr := { g_x : list C; g_yend : list C; g_q : list C; g_nx : list string; g_nyend : list string; g_nq : list string;
                g_flags : list bool; g_names : list string; g_qnames : list string }.

(** spreg/twosls_regimes.py:357-438: the checks and frames of TSLS_Regimes, regime_err_sep=False *)
Definition tsls_regimes_frames (x yend q : list C) (flags : c2r) (constant : const_regi) (nx nyend nq regimes_set : list string) : res glr :=
  bind (check_cols2regi constant flags (List.length x) (Some (List.length yend)) false) (fun fl =>
  bind (frame_names (List.length q) CNone C2All false nq regimes_set) (fun qn =>
  bind (frame_names (List.length x) constant (C2List fl) false nx regimes_set) (fun xn =>
  bind (frame_names (List.length yend) CNone (C2List fl) true nyend regimes_set) (fun yn =>
    Ok {| g_x := x; g_yend := yend; g_q := q; g_nx := nx; g_nyend := nyend; g_nq := nq; g_flags := fl; g_names := xn ++ yn; g_qnames := qn |})))).

Definition gm_lag_regimes (y : C) (x : list C) (yend q : option (list C)) (w_lags slx_lags : nat) (slx_vars : slxarg) (lag_q : bool)
    (constant : const_regi) (cols2regi : c2r) (regimes_set : list string) (name_y : string) (name_x name_yend name_q : option (list string)) : res glr :=
  (* 505-508 *)
  let nx := set_name_x name_x (List.length x) true in
  let nye := set_name_yend name_yend (option_map (@List.length C) yend) in
  let nq := set_name_q name_q (option_map (@List.length C) q) 0 in
  if 0 <? slx_lags then
    (* 516-531 *)
    bind (set_endog lag y x yend q w_lags lag_q slx_lags (to_slxv slx_vars)) (fun '(yend2, q2, wx) =>
    let x1 := x ++ match wx with Some lx => lx | None => [] end in
    let name_slx := set_name_spatial_lags_v nx slx_lags slx_vars in
    bind (q_temp nx (selectors slx_vars) name_slx) (fun name_q_temp =>
    bind (set_name_q_sp name_q_temp w_lags nq lag_q true) (fun sp =>
    bind (check_cols2regi constant cols2regi (List.length x1) (Some (List.length yend2)) false) (fun c0 =>
    let c1 := match cols2regi with C2All => removelast c0 | C2List _ => c0 end in
    (* 563-564, 595-617 *)
    tsls_regimes_frames x1 yend2 q2 (C2List (c1 ++ [false])) constant (nx ++ name_slx) (nye ++ [set_name_yend_sp name_y]) (nq ++ sp) regimes_set))))
  else
    (* 533-536 *)
    bind (set_name_q_sp nx w_lags nq lag_q true) (fun sp =>
    bind (check_cols2regi constant cols2regi (List.length x) (option_map (@List.length C) yend) false) (fun c0 =>
    (* 563-564, 593-617 *)
    bind (set_endog lag y x yend q w_lags lag_q 0 SlxAll) (fun '(yend2, q2, _) =>
    tsls_regimes_frames x yend2 q2 (C2List (c0 ++ [false])) constant nx (nye ++ [set_name_yend_sp name_y]) (nq ++ sp) regimes_set))).
End Glr.
