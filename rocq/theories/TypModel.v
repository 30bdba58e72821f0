(** The type of every coefficient in reg.output (column var_type) of the spatial lag and spatial Durbin models, and the
    coefficients that the common factor test of the summary compares.  spreg/output.py, ml_lag.py, ml_lag_regimes.py,
    twosls_sp.py, twosls_sp_regimes.py, regimes.py.

    Modelled: the columns var_type and regime of reg.output, row by row, when the summary is written, and the rows that
    _spat_diag_out selects.  Not modelled: the numbers (the test itself is C63), w, robust options, the Anselin-Kelejian
    test.  A regime whose identifier prints as "_Global" is left out: the tag "_Global" is [None]. *)
From Verif Require Import PyBase RegimesModel OutModel.
Open Scope list_scope.
Open Scope nat_scope.

Inductive vtype := TO | TX | TWX | TYend | TRho.

Definition vtype_eqb (a b : vtype) : bool :=
  match a, b with TO, TO | TX, TX | TWX, TWX | TYend, TYend | TRho, TRho => true | _, _ => false end.

(** l[-k:]; for k = 0 this is the whole list *)
Definition lastn {A} (k : nat) (l : list A) : list A := if Nat.eqb k 0 then l else skipn (List.length l - k) l.

Section Types.
Context {R : Type} (reqb : R -> R -> bool).

(** A row of reg.output: its type and the regime column, None for "_Global" *)
Record trow := { t_type : vtype; t_reg : option R }.

Definition oreqb (a b : option R) : bool :=
  match a, b with Some x, Some y => reqb x y | None, None => true | _, _ => false end.

(** spreg/regimes.py:471-497 set_name_x_regimes, the lists xtype_full and r_list (one flag per column) *)
Definition frame_types (types : list vtype) (flags : list bool) (regs : list R) : list trow :=
  flat_map (fun r => map (fun t => {| t_type := t; t_reg := Some r |}) (compress types flags)) regs
  ++ map (fun t => {| t_type := t; t_reg := None |}) (compress types (map negb flags)).

(** spreg/regimes.py:219-239 Regimes_Frame: the types of x with its constant, and the flags with the constant's flag *)
Definition x_types (constant : const_regi) (k : nat) : list vtype :=
  match constant with CNone => [] | _ => [TO] end ++ repeat TX k.
Definition x_flags (constant : const_regi) (flags : list bool) : list bool :=
  match constant with COne => [false] | CMany => [true] | _ => [] end ++ flags.

(** reg.output.loc[idx, 'var_type'] = 'wx' *)
Definition set_wx (r : trow) : trow := {| t_type := TWX; t_reg := t_reg r |}.
Definition relabel (idx : list nat) (rows : list trow) : list trow :=
  map (fun '(i, r) => if existsb (Nat.eqb i) idx then set_wx r else r) (combine (seq 0 (List.length rows)) rows).

(** reg.output[(regime == str(m)) & var_type.isin(['x','o'])], the last [f n] of whose n rows become 'wx':
    spreg/ml_lag_regimes.py:452-454, twosls_sp_regimes.py:645-647 *)
Definition is_xo (m : R) (r : trow) : bool :=
  (oreqb (t_reg r) (Some m) && (vtype_eqb (t_type r) TX || vtype_eqb (t_type r) TO))%bool.
Definition wx_step (f : nat -> nat) (rows : list trow) (m : R) : list trow :=
  let idx := where_ (is_xo m) rows in relabel (lastn (f (List.length idx)) idx) rows.

(** spreg/ml_lag_regimes.py:383, 386-395, 439-457 ML_Lag_Regimes with regime_lag_sep = False or something fixed.  [flags]: one per column of x, lags
    included (cols2regi without the flag of the spatial lag, which is False); [kwx]: number of columns that flex_wx added. *)
Definition ml_regimes_types (constant : const_regi) (flags : list bool) (kwx : nat) (regs : list R) : list trow :=
  let cols2regi := flags ++ [false] in
  let rows := frame_types (x_types constant (List.length flags)) (x_flags constant flags) regs
              ++ [{| t_type := TRho; t_reg := None |}] in
  let fixed := List.length (filter negb (removelast (lastn (kwx + 1) cols2regi))) in
  let k := kwx - fixed in
  let rows := if Nat.ltb 0 k then fold_left (wx_step (fun _ => k)) regs rows else rows in
  if Nat.ltb 0 fixed then relabel (removelast (lastn (fixed + 1) (seq 0 (List.length rows)))) rows else rows.

(** spreg/twosls_regimes.py:418-434 and twosls_sp_regimes.py:637, 643-647 GM_Lag_Regimes with one equation.  [flags]: one per column of x,
    lags included; [yflags]: one per endogenous variable, the lag of y last. *)
Definition gm_regimes_types (constant : const_regi) (flags yflags : list bool) (slx_lags : nat) (regs : list R) : list trow :=
  let rows := frame_types (x_types constant (List.length flags)) (x_flags constant flags) regs
              ++ frame_types (repeat TYend (List.length yflags)) yflags regs in
  let rows := removelast rows ++ match rev rows with r :: _ => [{| t_type := TRho; t_reg := t_reg r |}] | [] => [] end in
  if Nat.ltb 0 slx_lags then fold_left (wx_step (fun n => (n - 1) / (slx_lags + 1) * slx_lags)) regs rows else rows.

(** One equation without regimes, and one equation per regime: the column regime holds one value [e].  A list of types whose
    length is not the number of names raises ValueError. *)
Definition column (e : R) (types : list vtype) (nnames : nat) : res (list trow) :=
  if Nat.eqb (List.length types) nnames then Ok (map (fun t => {| t_type := t; t_reg := Some e |}) types) else Err "ValueError".

(** spreg/ml_lag.py:649-660, 668-676; kx variables, kw of them lagged, nnames names with the constant and the lag of y *)
Definition ml_types (e : R) (kx kw slx_lags nnames : nat) : res (list trow) :=
  column e (if Nat.ltb 0 slx_lags then [TO] ++ repeat TX kx ++ repeat TWX (kw * slx_lags) ++ [TRho]
            else [TO] ++ repeat TX (nnames - 1 - 1) ++ [TRho]) nnames.

(** spreg/twosls_sp.py:583-597, 620-652; ny additional endogenous variables *)
Definition gm_types (e : R) (kx kw slx_lags ny nnames : nat) : res (list trow) :=
  column e (if Nat.ltb 0 slx_lags then [TO] ++ repeat TX kx ++ repeat TWX (kw * slx_lags) ++ repeat TYend ny ++ [TRho]
            else [TO] ++ repeat TX (nnames - (ny + 1) - 1) ++ repeat TYend ny ++ [TRho]) nnames.

(** spreg/ml_lag_regimes.py:608-615; nnames = len(results[r].name_x), which ends with the lag of y *)
Definition ml_multi_types (e : R) (slx_lags nnames : nat) : res (list trow) :=
  let kx := (nnames - 1) / (slx_lags + 1) in
  column e (if Nat.ltb 0 slx_lags then [TO] ++ repeat TX kx ++ repeat TWX (kx * slx_lags) ++ [TRho]
            else [TO] ++ repeat TX (nnames - 2) ++ [TRho]) nnames.

(** spreg/twosls_sp_regimes.py:855-862; kz = len(name_x) (constant, variables, lags), ny + 1 = kstar = len(name_yend) *)
Definition gm_multi_types (e : R) (slx_lags kz ny : nat) : res (list trow) :=
  let kx := (kz + (ny + 1) - (ny + 1) - 1) / (slx_lags + 1) in
  column e (if Nat.ltb 0 slx_lags then [TO] ++ repeat TX kx ++ repeat TWX (kx * slx_lags) ++ repeat TYend ny ++ [TRho]
            else [TO] ++ repeat TX (kz - 1) ++ repeat TYend ny ++ [TRho]) (kz + (ny + 1)).

(** ** The common factor test: spreg/output.py:285-308 *)
(** The rows of beta, those of gamma and those of the covariance matrix *)
Definition comfac_idx (rows : list trow) : list nat * list nat * list nat :=
  let wx := where_ (fun r => (vtype_eqb (t_type r) TWX && negb (oreqb (t_reg r) None))%bool) rows in
  let x := flat_map (fun m => where_ (fun r => (oreqb (t_reg r) m && vtype_eqb (t_type r) TX)%bool) rows)
             (uniq oreqb (map t_reg rows)) in
  (x, wx, x ++ wx ++ where_ (fun r => vtype_eqb (t_type r) TRho) rows).

(** The test is done for one lag order, without further endogenous variables, when the object has no attribute slx_vars that
    is a list; comfac_test (spreg/diagnostics_sp.py:994-1001) raises ValueError when the numbers of rows differ (rho * beta + gamma
    or the product with vm, which has as many rows as selected).  None: no test. *)
Definition summary_comfac (slx_lags : nat) (slx_vars_list : bool) (rows : list trow) : res (option (list nat * list nat * list nat)) :=
  if (existsb (fun r => vtype_eqb (t_type r) TRho) rows && Nat.eqb slx_lags 1
      && negb (existsb (fun r => vtype_eqb (t_type r) TYend) rows) && negb slx_vars_list)%bool
  then let '(x, wx, v) := comfac_idx rows in
       if Nat.eqb (List.length x) (List.length wx) then Ok (Some (x, wx, v)) else Err "ValueError"
  else Ok None.
End Types.
