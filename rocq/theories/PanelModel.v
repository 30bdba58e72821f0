(** Panel data: spreg/panel_utils.py and the non-spatial estimators of spreg/panel.py. *)
From Coq Require Import Strings.String Strings.Ascii.
From mathcomp Require Import all_ssreflect all_algebra.
From Verif Require Import LinRegModel Kron.
Set Implicit Arguments.
Unset Strict Implicit.
Unset Printing Implicit Defensive.
Import Order.TTheory GRing.Theory Num.Theory.
Local Open Scope ring_scope.

(** * Wide and long format.  An array is the list of its columns, a column the list of its entries. *)
Inductive perr := PRows | PReshape | PNamesX.
Inductive pres (A : Type) := POk (a : A) | PErr (e : perr).
Arguments PErr {A} e.
Inductive pname := PStr (s : string) | PList (l : seq string).
(** str.isdigit on one character, ASCII only *)
Definition is_digit (c : ascii) : bool := let m := nat_of_ascii c in (47 < m)%N && (m < 58)%N.
(** "".join([i for i in s if not i.isdigit()]) *)
Fixpoint no_digits (s : string) : string :=
  match s with EmptyString => EmptyString | String c s' => if is_digit c then no_digits s' else String c (no_digits s') end.

Record panel (A : Type) := Panel { p_y : seq A; p_x : seq (seq A); p_namey : option pname; p_namex : option (seq string); p_T : nat }.

Section CheckPanel.
Variable A : Type.
(** spreg/panel_utils.py:81-97: reshape(order="F") of a block of columns is their concatenation *)
Definition wide_block (T : nat) (xcols : seq (seq A)) (i : nat) : seq A := flatten (take T (drop (T * i) xcols)).
(** spreg/panel_utils.py:110-117 *)
Definition fix_name_y (name_y : option pname) : option pname :=
  match name_y with
  | Some (PList (a :: _ :: _)) => Some (PStr (no_digits a))
  | Some (PList [:: a]) => Some (PStr a)
  | _ => name_y
  end.
(** spreg/panel_utils.py:118-129 *)
Definition fix_name_x (k T : nat) (name_x : option (seq string)) : pres (option (seq string)) :=
  match name_x with
  | None => POk None
  | Some nil => POk (Some nil)
  | Some l =>
    if (size l != k * T)%N && (size l != k) then PErr PNamesX
    else if (k < size l)%N then POk (Some [seq no_digits (nth ""%string l (i * T)) | i <- iota 0 k]) else POk name_x
  end.
(** spreg/panel_utils.py:44-131 check_panel for numeric arrays; [wn]: w.n, [nrow]: the rows of y and of x *)
Definition check_panel (wn nrow : nat) (ycols xcols : seq (seq A)) (name_y : option pname) (name_x : option (seq string)) : pres (panel A) :=
  if (nrow %% wn != 0)%N then PErr PRows else
  let out k T bigy bigx :=
    match fix_name_x k T name_x with PErr e => PErr e | POk nx => POk (Panel bigy bigx (fix_name_y name_y) nx T) end in
  if (1 < size ycols)%N then
    let T := size ycols in
    let k := (size xcols %/ T)%N in
    if (size xcols < T)%N then PErr PReshape
    else out k T (flatten ycols) (map (wide_block T xcols) (iota 0 k))
  else out (size xcols) (nrow %/ wn)%N (head [::] ycols) xcols.
End CheckPanel.
(** spreg/panel_utils.py:15-28: prepare_panel removes the constant columns of x before check_panel (user_output.py check_constant, just_rem) *)
Definition is_const (A : eqType) (c : seq A) : bool := if c is a :: r then all (eq_op a) r else true.
Definition rem_const (A : eqType) (xcols : seq (seq A)) (name_x : option (seq string)) : seq (seq A) * option (seq string) :=
  let keep := [seq ~~ is_const c | c <- xcols] in (mask keep xcols, omap (mask keep) name_x).
Definition prepare (A : eqType) wn nrow (ycols xcols : seq (seq A)) name_y name_x : pres (panel A) :=
  let: (xc, nx) := rem_const xcols name_x in check_panel wn nrow ycols xc name_y nx.

(** * Estimators.  Row t * n + i of a long panel is unit i in period t (Kron.v). *)
Section Est.
Variables (R : rcfType) (T n : nat).
(** y_mat.mean(axis=0), y_mat = bigy.reshape((T, N)): spreg/panel.py:342-346 and, for each column, x_mat *)
Definition unit_mean k (a : 'M[R]_(T * n, k)) : 'M[R]_(n, k) := \matrix_(i, c) ((\sum_t a (pix t i) c) / T%:R).
(** np.tile(mean, T) *)
Definition tile k (m : 'M[R]_(n, k)) : 'M[R]_(T * n, k) := \matrix_(r, c) m (pu r) c.
(** spreg/panel_utils.py:133-161 demean_panel *)
Definition demean_panel k (phi : R) (a : 'M[R]_(T * n, k)) : 'M[R]_(T * n, k) :=
  kron (1%:M - ((1 - phi) * (1 / T%:R)) *: (const_mx 1 *m (const_mx 1 : 'M[R]_(T, 1))^T)) 1%:M *m a.

Record panel_fe k := PanelFE { fe_betas : 'cV[R]_k; fe_predy : 'cV[R]_(T * n); fe_u : 'cV[R]_(T * n); fe_sig2 : R; fe_vm : 'M[R]_k;
  fe_effects : 'cV[R]_n; fe_mu : 'cV[R]_n }.
(** spreg/panel.py:325-395 PanelFE after prepare_panel.  [cast]: assignment of a float into np.zeros_like(bigx), the identity for an array
    of floats and truncation for an array of integers. *)
Definition base_panel_fe k (cast : R -> R) (y : 'cV[R]_(T * n)) (x : 'M[R]_(T * n, k)) : option (panel_fe k) :=
  let dem_y := y - tile (unit_mean y) in
  let dem_x := map_mx cast (x - tile (unit_mean x)) in
  if base_ols dem_y dem_x RobNone None false is Some o then
    if la_inv (x^T *m x) is Some _ then
      let betas := o_betas o in
      let predy := x *m betas in
      let u := y - predy in
      let ssr := ((o_u o)^T *m o_u o) 0 0 in
      let sig2 := ssr / (T * n - n)%:R in
      Some (PanelFE betas predy u sig2 (sig2 *: o_xtxi o) (unit_mean y - unit_mean x *m betas) (unit_mean u))
    else None
  else None.

Record panel_re k := PanelRE { re_betas : 'cV[R]_k; re_predy : 'cV[R]_(T * n); re_u : 'cV[R]_(T * n); re_sig2 : R; re_vm : 'M[R]_k;
  re_se2 : R; re_smu2 : R; re_theta : R }.
(** spreg/panel.py:565-574: the idiosyncratic variance from the within regression on the columns that vary over time *)
Definition re_sigma2_eps k (valid : 'I_k -> bool) (y : 'cV[R]_(T * n)) (x : 'M[R]_(T * n, k)) : option R :=
  let y_dem := y - tile (unit_mean y) in
  let x_dem := x - tile (unit_mean x) in
  let slim := \matrix_(r < T * n, c < #|[pred c | valid c]|) x_dem r (enum_val c) in
  let df := (T * n - n - #|[pred c | valid c]|)%:R in
  if #|[pred c | valid c]| == 0%N then Some ((y_dem^T *m y_dem) 0 0 / df)
  else if la_inv (slim^T *m slim) is Some xi then
    let e := y_dem - slim *m (xi *m (slim^T *m y_dem)) in Some ((e^T *m e) 0 0 / df)
  else None.
(** spreg/panel.py:587-590: between regression; [solve] is np.linalg.solve, or the pseudo-inverse when it raises *)
Definition re_sigma2_b k (solve : 'M[R]_k -> 'cV[R]_k -> 'cV[R]_k) (y : 'cV[R]_(T * n)) (x : 'M[R]_(T * n, k)) : R :=
  let xm := unit_mean x in let ym := unit_mean y in
  let e := ym - xm *m solve (xm^T *m xm) (xm^T *m ym) in (e^T *m e) 0 0 / (n - k)%:R.
(** spreg/panel.py:530-620 PanelRE after prepare_panel, without the Hausman test (HausModel.v); [valid]: var_check > 1e-12 *)
Definition base_panel_re k valid solve (y : 'cV[R]_(T * n)) (x : 'M[R]_(T * n, k)) : option (panel_re k) :=
  if re_sigma2_eps valid y x is Some se2 then
    let smu := re_sigma2_b solve y x - se2 / T%:R in
    let smu2 := if smu < 0 then 0 else smu in
    let theta := 1 - Num.sqrt (se2 / (se2 + T%:R * smu2)) in
    let y_star := y - theta *: tile (unit_mean y) in
    let x_star := x - theta *: tile (unit_mean x) in
    if base_ols y_star x_star RobNone None false is Some o then
      Some (PanelRE (o_betas o) (x *m o_betas o) (y - x *m o_betas o) (o_sig2 o) (o_sig2 o *: o_xtxi o) se2 smu2 theta)
    else None
  else None.
End Est.
