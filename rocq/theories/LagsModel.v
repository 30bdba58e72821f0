(** Spatial lags of regressors and the labels spreg gives them.

    Columns: every function below treats a numpy matrix as the list of its columns, over an arbitrary
    column type [C]; [lag c] stands for the product of the weights matrix with one column.  This is exact for
    lag_spatial / spdot because a matrix product acts column by column, and np.hstack is list append. *)
From Verif Require Import PyBase.
Open Scope string_scope.
Open Scope list_scope.
Open Scope nat_scope.

(** slx_vars argument: the string "all"/"All" (compared case-insensitively in set_endog), any other
    string, or a list of booleans. *)
Inductive slxv := SlxAll | SlxStr | SlxMask (m : list bool).

Section Lags.
Context {C : Type} (lag : C -> C).

(** libpysal lag_spatial(w, x) applied column by column. *)
Definition lag_spatial (x : list C) : list C := map lag x.

(** spreg/utils.py:471-505 get_lags — the loop [for i in range(w_lags - 1)].
    (panel=True only replaces W by kron(I_T, W), i.e. another [lag].) *)
Fixpoint get_lags_loop (n : nat) (cur acc : list C) : list C :=
  match n with
  | O => acc
  | S m => let cur' := lag_spatial cur in get_lags_loop m cur' (acc ++ cur')
  end.

Definition get_lags (x : list C) (w_lags : nat) : list C :=
  let l := lag_spatial x in get_lags_loop (w_lags - 1) l l.

(** spreg/utils.py:507-542 get_lags_split: first loop. Returns (last lag, rs_l). *)
Fixpoint split_low (n : nat) (cur acc : list C) : list C * list C :=
  match n with
  | O => (cur, acc)
  | S m => let cur' := lag_spatial cur in split_low m cur' (acc ++ cur')
  end.

(** second loop: rs_h starts as None and is set to the first lag when i = 0. *)
Fixpoint split_high (n : nat) (i : nat) (cur : list C) (acc : option (list C)) : option (list C) :=
  match n with
  | O => acc
  | S m => let cur' := lag_spatial cur in
           let acc' := match i, acc with
                       | O, _ => Some cur'
                       | S _, Some h => Some (h ++ cur')
                       | S _, None => None
                       end in
           split_high m (S i) cur' acc'
  end.

Definition get_lags_split (x : list C) (max_lags split_at : nat) : res (list C * list C) :=
  let l := lag_spatial x in
  if (0 <? split_at) && (split_at <? max_lags) then
    let '(cur, low) := split_low (split_at - 1) l l in
    match split_high (max_lags - split_at) 0 cur None with
    | Some high => Ok (low, high)
    | None => Err "TypeError"
    end
  else Err "ValueError".

(** spreg/utils.py:680-720 set_endog.  [yend]/[q] = None model Python None.
    Result: (endogenous columns, instrument columns, SLX columns when slx_lags > 0). *)
Definition set_endog (y : C) (x : list C) (yend : option (list C)) (q : option (list C))
    (w_lags : nat) (lag_q : bool) (slx_lags : nat) (slx_vars : slxv)
  : res (list C * list C * option (list C)) :=
  let yl := lag y in
  bind
    (match yend with
     | Some ye =>
         match q with
         | None => Err "TypeError"                         (* sphstack(None, ...) *)
         | Some q0 =>
             bind (if 0 <? slx_lags
                   then bind (get_lags_split x (slx_lags + 1) slx_lags) (fun p => Ok (Some (fst p), snd p))
                   else Ok (None, x))
                  (fun '(lag_x, lag_xq) =>
                     let lag_vars := if lag_q then lag_xq ++ q0 else lag_xq in
                     Ok (ye ++ [yl], q0 ++ get_lags lag_vars w_lags, lag_x))
         end
     | None =>
         bind (if 0 <? slx_lags
               then bind (get_lags_split x (slx_lags + w_lags) slx_lags) (fun p => Ok (Some (fst p), snd p))
               else Ok (None, get_lags x w_lags))
              (fun '(lag_x, lag_xq) => Ok ([yl], lag_xq, lag_x))
     end)
    (fun '(yend2, q2, lag_x) =>
       match lag_x with
       | None => Ok (yend2, q2, None)
       | Some lx =>
           match slx_vars with
           | SlxAll => Ok (yend2, q2, Some lx)
           | SlxStr => Err "ValueError"
           | SlxMask m =>
               if Nat.eqb (List.length m) (List.length x)
               then bind (np_mask lx m) (fun lx' => Ok (yend2, q2, Some lx'))
               else Err "Exception"
           end
       end).

(** spreg/utils.py:723-746 set_endog_sparse: the instrument loop
    [for i in range(w_lags - 1): q = sphstack(q, w @ q)]. *)
Fixpoint sparse_loop (n : nat) (acc : list C) : list C :=
  match n with
  | O => acc
  | S m => sparse_loop m (acc ++ lag_spatial acc)
  end.

Definition set_endog_sparse (y : C) (x : list C) (yend q : option (list C)) (w_lags : nat) (lag_q : bool)
  : res (list C * list C) :=
  let yl := lag y in
  match yend with
  | Some ye =>
      match q with
      | None => Err "TypeError"
      | Some q0 =>
          let lag_vars := if lag_q then x ++ q0 else x in
          Ok (ye ++ [yl], q0 ++ sparse_loop (w_lags - 1) (lag_spatial lag_vars))
      end
  | None => Ok ([yl], sparse_loop (w_lags - 1) (lag_spatial x))
  end.

(** spreg/user_output.py:161-195 set_name_spatial_lags with slx_vars = "all" (the only value used by flex_wx). *)
Fixpoint name_lags_loop (n i : nat) (names acc : list string) : list string :=
  match n with
  | O => acc
  | S m => name_lags_loop m (S i) names (acc ++ map (fun s => "W" ++ py_str (i + 2) ++ "_" ++ s)%string names)
  end.

Definition set_name_spatial_lags (names : list string) (w_lags : nat) : list string :=
  name_lags_loop (w_lags - 1) 0 names (map (fun s => "W_" ++ s)%string names).

(** the [additional > 0] branch: lag_names2 with n_i = max(w_lags,1) *)
Fixpoint name_lags2_loop (n j n_i : nat) (names acc : list string) : list string :=
  match n with
  | O => acc
  | S m => name_lags2_loop m (S j) n_i names
             (acc ++ map (fun s => "W" ++ py_str (j + n_i + 1) ++ "_" ++ s)%string names)
  end.

Definition set_name_spatial_lags_add (names : list string) (w_lags additional : nat)
  : list string * list string :=
  (set_name_spatial_lags names w_lags,
   name_lags2_loop additional 0 (1 + (w_lags - 1)) names []).

(** spreg/user_output.py:945-1016 flex_wx.  [x] and [name_x] include the constant when [constant]. *)
Definition flex_wx (x : list C) (name_x : list string) (constant : bool) (slx_lags : nat) (slx_vars : slxv)
    (q_lags : nat) : res (list C * list string * option (list C * list string)) :=
  let xwork := if constant then tl x else x in
  let xnamework := if constant then tl name_x else name_x in
  bind
    (match slx_vars with
     | SlxMask m =>
         if Nat.eqb (List.length m) (List.length xnamework) then
           let qv := map negb m in
           bind (if 0 <? q_lags
                 then if existsb (fun b => b) qv
                      then bind (np_mask xwork qv) (fun qw => Ok (Some (qw, compress xnamework qv)))
                      else Ok None
                 else Ok None)
                (fun qopt => bind (np_mask xwork m) (fun xw => Ok (xw, compress xnamework m, qopt)))
         else Err "Exception"
     | _ => Ok (xwork, xnamework, None)
     end)
    (fun '(xw, xn, qopt) =>
       if 0 <? q_lags then
         bind (get_lags_split xw (slx_lags + q_lags) slx_lags)
              (fun '(lagx, lag_xq) =>
                 let '(xlagname, qlagname) := set_name_spatial_lags_add xn slx_lags q_lags in
                 let '(bigq, qlagname2) :=
                   match qopt with
                   | Some (qw, qn) => (lag_xq ++ get_lags qw q_lags, set_name_spatial_lags qn q_lags)
                   | None => (lag_xq, [])
                   end in
                 Ok (x ++ lagx, name_x ++ xlagname, Some (bigq, qlagname2 ++ qlagname)))
       else
         Ok (x ++ get_lags xw slx_lags, name_x ++ set_name_spatial_lags xn slx_lags, None)).
End Lags.
