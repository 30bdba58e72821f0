(** The tables of a regression summary: the coefficient table (output, out_part_middle) and the table of Chow tests
    (_summary_chow).  spreg/output.py.

    Modelled: which name, coefficient, standard error, statistic and probability each printed row shows, the order of the
    rows, the exceptions, and the table left in reg.output.  Not modelled: the formatting of the numbers, the title and the
    diagnostics above and below the table, the LaTeX variant (the same rows in the same order). *)
From Verif Require Import PyBase RegimesModel.
Open Scope string_scope.
Open Scope list_scope.
Open Scope nat_scope.

(** ** The coefficient table *)
Section Table.
Context {F R : Type} (leb eqb : R -> R -> bool).
(** [R] is the type of the identifiers of equations and regimes, [leb] their order in Python. *)

(** A row of the data frame reg.output.  [r_lab] is its index label (the classes build the frame with the default labels
    0, 1, 2, ... or with ignore_index=True); the last three fields are the columns that output_start creates, filled with
    None: spreg/output.py:35-41. *)
Record orow := { r_lab : nat; r_name : string; r_type : string; r_regime : R; r_eq : R;
                 r_coef : option F; r_se : option F; r_zt : option (F * F) }.

(** What out_part_middle reads from a regression object: betas, std_err and z_stat (t_stat when there is no z_stat), the
    last with its probability.  spreg/output.py:115-120 *)
Record fit := { f_betas : list F; f_se : list F; f_zt : list (F * F) }.

(** pandas.DataFrame.update for one row: a missing value in the other frame leaves the cell unchanged. *)
Definition upd {A} (old new : option A) : option A := match new with Some _ => new | None => old end.

Fixpoint index_of (l : nat) (ls : list nat) : option nat :=
  match ls with [] => None | a :: t => if Nat.eqb a l then Some 0 else option_map S (index_of l t) end.

(** spreg/output.py:115-122.  coefs has one row per coefficient; std_err is aligned by position (a longer one is cut, a
    shorter one leaves missing values); the concatenation with z_stat is an outer join, so that it has as many rows as the
    longer of the two; its index is then replaced by the labels of the rows of the equation [m] (ValueError when the lengths
    differ), and update() writes the values in the rows with these labels. *)
Definition fill (rows : list orow) (m : R) (f : fit) : res (list orow) :=
  let labs := map r_lab (filter (fun r => eqb (r_eq r) m) rows) in
  let k := Nat.max (List.length (f_betas f)) (List.length (f_zt f)) in
  if Nat.eqb (List.length labs) k then
    Ok (map (fun r =>
          match index_of (r_lab r) labs with
          | Some i => {| r_lab := r_lab r; r_name := r_name r; r_type := r_type r; r_regime := r_regime r; r_eq := r_eq r;
                         r_coef := upd (r_coef r) (nth_error (f_betas f) i);
                         r_se := upd (r_se r) (if Nat.ltb i (List.length (f_betas f)) then nth_error (f_se f) i else None);
                         r_zt := upd (r_zt r) (nth_error (f_zt f) i) |}
          | None => r end) rows)
  else Err "ValueError".

(** np.lexsort((index, regime)): by regime, then by label.  spreg/output.py:136, 150 *)
Definition row_le (a b : orow) : bool :=
  if leb (r_regime a) (r_regime b) then
    if leb (r_regime b) (r_regime a) then Nat.leb (r_lab a) (r_lab b) else true
  else false.

(** A printed row: with the inference, or (the TypeError branch) with the coefficient only. *)
Inductive line := LFull (name : string) (c s z p : F) | LCoef (name : string) (c : F).

(** spreg/output.py:150-165: %12.5f of a missing value raises TypeError; in the except branch the same error would not be
    caught. *)
Definition show_row (r : orow) : res line :=
  match r_coef r, r_se r, r_zt r with
  | Some c, Some s, Some (z, p) => Ok (LFull (r_name r) c s z p)
  | Some c, _, _ => Ok (LCoef (r_name r) c)
  | None, _, _ => Err "TypeError"
  end.

(** spreg/output.py:107-166 out_part_middle, the table part *)
Definition out_part_middle (rows : list orow) (m : R) (f : fit) : res (list orow * list line) :=
  bind (fill rows m f) (fun rows' =>
  bind (mapM show_row (isort row_le (filter (fun r => eqb (r_eq r) m) rows'))) (fun ls =>
    Ok (rows', ls))).

(** pandas unique(): the values in order of appearance *)
Fixpoint uniq (l : list R) : list R :=
  match l with [] => [] | a :: t => a :: filter (fun b => negb (eqb a b)) (uniq t) end.

(** spreg/output.py:19-28 output, the loop on the equations.  [multi] gives reg.multi[eq]; when it fails (there is no
    attribute multi) the object itself is used, with the first equation of the frame. *)
Definition out_step (first : option R) (multi : R -> option fit) (self : fit)
    (st : res (list orow * list (list line))) (e : R) : res (list orow * list (list line)) :=
  bind st (fun '(rows, txt) =>
    match multi e with
    | Some f => bind (out_part_middle rows e f) (fun '(rows', ls) => Ok (rows', txt ++ [ls]))
    | None => match first with
              | Some m => bind (out_part_middle rows m self) (fun '(rows', ls) => Ok (rows', txt ++ [ls]))
              | None => Err "IndexError"
              end
    end).

(** reg.output.sort_values(by=['equation', 'regime']): a stable sort.  spreg/output.py:32 *)
Definition final_le (a b : orow) : bool :=
  if leb (r_eq a) (r_eq b) then
    if leb (r_eq b) (r_eq a) then leb (r_regime a) (r_regime b) else true
  else false.

(** spreg/output.py:19-33 output: the printed tables and the frame left in reg.output (with its hidden columns kept here) *)
Definition output (rows : list orow) (multi : R -> option fit) (self : fit) : res (list (list line) * list orow) :=
  let eqs := uniq (map r_eq rows) in
  bind (fold_left (out_step (nth_error eqs 0) multi self) eqs (Ok (rows, []))) (fun '(rows', txt) =>
    Ok (txt, isort final_le rows')).
End Table.

(** The frame built by the classes with one equation: default labels, equation 0 (e.g. spreg/ols.py:532-534,
    spreg/ols_regimes.py:501-505).  [regs] is the column regime. *)
Definition frame1 {F R} (e : R) (names types : list string) (regs : list R) : list (@orow F R) :=
  map (fun '(i, (nm, (ty, rg))) => {| r_lab := i; r_name := nm; r_type := ty; r_regime := rg; r_eq := e;
                                      r_coef := None; r_se := None; r_zt := None |})
      (combine (seq 0 (List.length names)) (combine names (combine types regs))).

(** The frame built by the classes that estimate one model per regime: one block per regime r, whose rows have regime r and
    equation r, concatenated with ignore_index=True (e.g. spreg/ols_regimes.py:632-664).  A block is the identifier with the
    names and the types of its variables. *)
Definition frame_multi {F R} (blocks : list (R * list (string * string))) : list (@orow F R) :=
  map (fun '(i, (r, (nm, ty))) => {| r_lab := i; r_name := nm; r_type := ty; r_regime := r; r_eq := r;
                                     r_coef := None; r_se := None; r_zt := None |})
      (combine (seq 0 (List.length (flat_map snd blocks)))
               (flat_map (fun b => map (fun v => (fst b, v)) (snd b)) blocks)).

(** ** The table of Chow tests *)
Section Chow.
Context {F : Type}.

(** A row of reg.output_chow: the variable, the degrees of freedom, value and probability; a missing entry is None (NaN) *)
Record crow := { c_name : option string; c_df : option nat; c_val : option (F * F) }.

(** spreg/output.py:240-249.  [name_x_r], [attr] (reg.cols2regi) and [constant] (reg.constant_regi) are attributes that the
    classes set; [nlambda] counts the rows of reg.output whose type is 'lambda'. *)
Definition names_chow (name_x_r : list string) (attr : c2r) (constant : const_regi) (nlambda : nat) : res (list string) :=
  let vars := tl name_x_r in
  bind (match attr with
        | C2All => Ok vars
        | C2List m => if (negb (Nat.eqb (List.length m) 0) && forallb is_true_ m)%bool then Ok vars
                      else take_idx vars (where_ is_true_ m)
        end) (fun ns =>
  let ns := match constant with CMany => "CONSTANT" :: ns | _ => ns end in
  Ok (if Nat.ltb 1 nlambda then ns ++ ["lambda"] else ns)).

(** spreg/output.py:252-258: the names with the degrees of freedom, side by side with the array of tests (an outer join on
    the position), followed by the global test. *)
Definition chow_frame (ns : list string) (kr nr : nat) (regi : list (F * F)) (joint : F * F) : list crow :=
  map (fun i => {| c_name := nth_error ns i;
                   c_df := option_map (fun _ => nr - 1) (nth_error ns i);
                   c_val := nth_error regi i |})
      (seq 0 (Nat.max (List.length ns) (List.length regi)))
  ++ [{| c_name := Some "Global test"; c_df := Some (kr * (nr - 1)); c_val := Some joint |}].

(** spreg/output.py:225-267 _summary_chow: the table; "%2d" of a missing number of degrees of freedom raises ValueError. *)
Definition chow_table (name_x_r : list string) (attr : c2r) (constant : const_regi) (nlambda kr nr : nat)
    (regi : list (F * F)) (joint : F * F) : res (list crow) :=
  bind (names_chow name_x_r attr constant nlambda) (fun ns =>
    let t := chow_frame ns kr nr regi joint in
    if forallb (fun r => match c_df r with Some _ => true | None => false end) t then Ok t else Err "ValueError").

(** spreg/output.py:187-191 and 213-217: the table is added to the summary inside try: ... except: pass *)
Definition chow_text (t : res (list crow)) : option (list crow) := match t with Ok l => Some l | Err _ => None end.
End Chow.

(** The attributes that each class with regimes has set when the summary is written, for the models with one equation.
    [nx], [ny]: names of the exogenous and the additional endogenous variables (with spatially lagged x among the first),
    [wy]: the name of the spatial lag; returns name_x_r, cols2regi and the flags of the variables nx ++ ny (++ wy) that
    Regimes_Frame receives. *)
Inductive est := OLS_R | TSLS_R | GM_Lag_R | ML_Lag_R | GM_Error_R | GM_Endog_R | GM_Combo_R | ML_Error_R.

Definition has_yend (e : est) : bool := match e with TSLS_R | GM_Lag_R | GM_Endog_R | GM_Combo_R => true | _ => false end.
Definition has_lag (e : est) : bool := match e with GM_Lag_R | ML_Lag_R | GM_Combo_R => true | _ => false end.

Definition chow_attrs (e : est) (constant : const_regi) (c : c2r) (nx ny : list string) (wy : string) (sep : bool)
  : res (list string * c2r * list bool) :=
  let kx := List.length nx in
  let ky := Some (List.length ny) in
  match e with
  (* spreg/ols_regimes.py:452-465, 497-499 *)
  | OLS_R => bind (check_cols2regi constant c kx None false) (fun m => Ok ("CONSTANT" :: nx, c, m))
  (* spreg/twosls_regimes.py:367-382, 418-434 *)
  | TSLS_R => bind (check_cols2regi constant c kx ky false) (fun m => Ok ("CONSTANT" :: nx ++ ny, c, m))
  (* spreg/twosls_sp_regimes.py:531-536, 550-562, 570-605: the list is extended in place, then passed to TSLS_Regimes *)
  | GM_Lag_R => bind (check_cols2regi constant c kx ky false) (fun m =>
                  let m := m ++ [sep] in
                  bind (check_cols2regi constant (C2List m) kx (Some (List.length ny + 1)) false) (fun m' =>
                    Ok ("CONSTANT" :: nx ++ ny ++ [wy], C2List m, m')))
  (* spreg/ml_lag_regimes.py:356-366, 393, 421-429 (regime_lag_sep=False) *)
  | ML_Lag_R => bind (check_cols2regi constant c kx None false) (fun m =>
                  let m := m ++ [false] in Ok ("CONSTANT" :: nx ++ [wy], C2List m, m))
  (* spreg/error_sp_regimes.py:313-325, 342-351; error_sp_het_regimes.py:335-357, error_sp_hom_regimes.py:346-369 *)
  | GM_Error_R => bind (check_cols2regi constant c kx None true) (fun m => Ok ("CONSTANT" :: nx, c, tl m))
  (* spreg/error_sp_regimes.py:838-854, 890-908; error_sp_het_regimes.py:949-974, error_sp_hom_regimes.py:966-991 *)
  | GM_Endog_R => bind (check_cols2regi constant c kx ky true) (fun m => Ok ("CONSTANT" :: nx ++ ny, c, tl m))
  (* spreg/error_sp_regimes.py:1531, 1547-1570 (regime_lag_sep=False), then GM_Endog_Error_Regimes *)
  | GM_Combo_R => bind (check_cols2regi constant c kx ky false) (fun m =>
                    let m := m ++ [false] in
                    bind (check_cols2regi constant (C2List m) kx (Some (List.length ny + 1)) true) (fun m' =>
                      Ok ("CONSTANT" :: nx ++ ny ++ [wy], C2List m, tl m')))
  (* spreg/ml_error_regimes.py:328-331, 364-372: the attribute is the list that starts with the flag of the constant *)
  | ML_Error_R => bind (check_cols2regi constant c kx None true) (fun m => Ok ("CONSTANT" :: nx, C2List m, tl m))
  end.

(** The attributes when one model per regime is estimated (every coefficient varies, constant_regi = 'many'): name_x_r (after
    check_const_regi, no variable removed), the number nlambda of rows of type 'lambda' and kr; [m] is reg.cols2regi.
    spreg/ols_regimes.py:572, 613; twosls_regimes.py:498, 548; twosls_sp_regimes.py:769-772; ml_lag_regimes.py:502, 549-552;
    error_sp_regimes.py:401, 439, 1000, 1048; ml_error_regimes.py:418, 460; error_sp_het_regimes.py:478, 524, 1177, 1235;
    error_sp_hom_regimes.py:490, 536, 1172, 1228.  [vm_lambda]: the covariance matrix includes lambda (ML, het and hom). *)
Definition chow_attrs_multi (e : est) (vm_lambda : bool) (nx ny : list string) (wy : string) (nr : nat)
  : list string * nat * nat :=
  let names := "CONSTANT" :: nx ++ (if has_yend e then ny else []) ++ (if has_lag e then [wy] else []) in
  match e with
  | OLS_R | TSLS_R | GM_Lag_R | ML_Lag_R => (names, 0, List.length names)
  | _ => (names, nr, List.length names + if vm_lambda then 1 else 0)
  end.
