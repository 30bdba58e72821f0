(** Variable naming: spreg/user_output.py. *)
From Verif Require Import PyBase LagsModel.
Open Scope string_scope.
Open Scope list_scope.
Open Scope nat_scope.

(** "if not name_x": None and [] are both falsy. *)
Definition truthy (l : option (list string)) : option (list string) :=
  match l with Some (a :: r) => Some (a :: r) | _ => None end.

(** spreg/user_output.py:63-89 set_name_x; [ncols] is x.shape[1].
    range(x.shape[1] - 1 + int(constant)): a negative argument is an empty range, as nat subtraction. *)
Definition set_name_x (name_x : option (list string)) (ncols : nat) (constant : bool) : list string :=
  let base := match truthy name_x with
              | None => map (fun i => "var_" ++ py_str (i + 1))%string
                            (seq 0 (ncols + (if constant then 1 else 0) - 1))
              | Some l => l
              end in
  if constant then base else "CONSTANT" :: base.

(** spreg/user_output.py:92-112 set_name_yend; [yend] = None or the number of columns. *)
Definition set_name_yend (name_yend : option (list string)) (yend : option nat) : list string :=
  match yend with
  | None => []
  | Some k => match truthy name_yend with
              | None => map (fun i => "endogenous_" ++ py_str (i + 1))%string (seq 0 k)
              | Some l => l
              end
  end.

(** spreg/user_output.py:115-142 set_name_q. *)
Definition set_name_q (name_q : option (list string)) (q : option nat) (q_lags : nat) : list string :=
  match q with
  | Some k => match truthy name_q with
              | None => map (fun i => "instrument_" ++ py_str (i + 1))%string (seq 0 k)
              | Some l => l
              end
  | None => if 0 <? q_lags
            then match truthy name_q with
                 | None => map (fun i => "lag_" ++ py_str (i + 1))%string (seq 0 q_lags)
                 | Some l => l
                 end
            else []
  end.

(** spreg/user_output.py:145-158 set_name_yend_sp *)
Definition set_name_yend_sp (name_y : string) : string := ("W_" ++ name_y)%string.

(** Python dict str -> int *)
Definition dict := list (string * nat).
Fixpoint dget (d : dict) (k : string) : option nat :=
  match d with
  | [] => None
  | (k', v) :: r => if String.eqb k k' then Some v else dget r k
  end.
Definition dset (d : dict) (k : string) (v : nat) : dict := (k, v) :: d.

Definition mem_str (s : string) (l : list string) : bool := existsb (String.eqb s) l.

(** spreg/user_output.py:196-242 set_name_q_sp.  First loop: name_count. *)
Definition count_init_step (d : dict) (name : string) : dict :=
  if startswith "W_" name
  then match dget d (drop2 name) with None => dset d (drop2 name) 2 | Some _ => d end
  else dset d name 2.

(** one pass of the inner loop body; state = (name_count, existing_names, sp_inst_names) *)
Definition q_sp_state := (dict * list string * list string)%type.

Definition q_sp_step (s : res q_sp_state) (name : string) : res q_sp_state :=
  bind s (fun '(d, existing, out) =>
    if startswith "W_" name then
      match dget d (drop2 name) with
      | None => Err "KeyError"
      | Some c =>
          let lag_name := ("W" ++ py_str c ++ "_" ++ drop2 name)%string in
          Ok (dset d (drop2 name) (c + 1), lag_name :: existing, out ++ [lag_name])
      end
    else
      if negb (mem_str ("W_" ++ name)%string existing) then
        let lag_name := ("W_" ++ name)%string in
        Ok (d, lag_name :: existing, out ++ [lag_name])
      else
        match dget d name with
        | None => Err "KeyError"
        | Some c =>
            let lag_name := ("W" ++ py_str c ++ "_" ++ name)%string in
            Ok (dset d name (c + 1), lag_name :: existing, out ++ [lag_name])
        end).

Fixpoint q_sp_rounds (n : nat) (names : list string) (s : res q_sp_state) : res q_sp_state :=
  match n with
  | O => s
  | S m => q_sp_rounds m names (fold_left q_sp_step names s)
  end.

Definition set_name_q_sp (name_x : list string) (w_lags : nat) (name_q : list string) (lag_q force_all : bool)
  : res (list string) :=
  let names0 := if force_all then name_x else tl name_x in
  let names := if lag_q then names0 ++ name_q else names0 in
  bind (q_sp_rounds w_lags names (Ok (fold_left count_init_step names [], names, [])))
       (fun '(_, _, out) => Ok out).

(** spreg/user_output.py:245-263 set_name_h *)
Definition set_name_h (name_x name_q : list string) : list string := name_x ++ name_q.

(** Instruments of the spatial 2SLS estimator and the names it reports for them, for a design [x] (columns,
    constant first) with names [name_x] already set:
    spreg/twosls_sp.py:188-205 (BaseGM_Lag: columns via set_endog on x[:,1:]) and
    spreg/twosls_sp.py:583-651 (GM_Lag: name_x with SLX names appended, name_q, name_x0).
    The same lines occur in spreg/error_sp.py:1040-1062 (GM_Combo).
    Returns (instrument columns, instrument names, regressor columns, regressor names).
    [slx_vars] a Mask uses compress as in the code; a mask of wrong length raises (l. 585). *)
Section GMLag.
Context {C : Type} (lag : C -> C).

Definition last_n {A} (n : nat) (l : list A) : list A := skipn (List.length l - n) l.   (* l[-n:], n > 0 *)

Definition gm_lag_instruments (y : C) (x : list C) (name_x : list string)
    (yend q : option (list C)) (name_q : option (list string))
    (w_lags : nat) (lag_q : bool) (slx_lags : nat) (slx_vars : slxv)
  : res (list C * list string * list C * list string) :=
  let kx := List.length name_x - 1 in
  bind (if 0 <? slx_lags then
          match slx_vars with
          | SlxMask m => if Nat.eqb (List.length m) (List.length x - 1)
                         then Ok (name_x ++ set_name_spatial_lags (compress (tl name_x) m) slx_lags)
                         else Err "Exception"
          | _ => Ok (name_x ++ set_name_spatial_lags (tl name_x) slx_lags)
          end
        else Ok name_x)
  (fun name_x1 =>
  bind (set_endog lag y (tl x) yend q w_lags lag_q slx_lags slx_vars)
  (fun '(_, q2, wx) =>
    let x1 := match wx with Some lx => x ++ lx | None => x end in
    let nq := set_name_q name_q (option_map (@List.length C) q) 0 in
    let name_x0 :=
      if 0 <? slx_lags then
        match slx_vars with
        | SlxMask m =>
            let wkx := List.length (filter (fun b => b) m) in
            match name_x1 with c :: _ => [c] | [] => [] end
              ++ compress (tl name_x1) (map negb m)
              ++ (if 0 <? wkx then last_n wkx name_x1 else name_x1)      (* l[-0:] is the whole list *)
        | _ => match name_x1 with c :: _ => [c] | [] => [] end
                 ++ (if 0 <? kx then last_n kx name_x1 else name_x1)
        end
      else name_x1 in
    bind (set_name_q_sp name_x0 w_lags nq lag_q false)
         (fun sp => Ok (q2, nq ++ sp, x1, name_x1)))).
End GMLag.
