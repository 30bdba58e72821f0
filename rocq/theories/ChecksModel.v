(** Input validation: spreg/user_output.py. *)
From Verif Require Import PyBase.
From Coq Require Export QArith.
Open Scope string_scope.
Open Scope list_scope.
Open Scope nat_scope.

(** An argument of check_arrays: None, a numeric array (numpy, csr, or pandas after to_numpy) with its shape and
    whether every entry is finite, or some other object. *)
Inductive arg := ANone | AArr (shape : list nat) (finite : bool) | AOther.

(** spreg/user_output.py:422-443 check_arrays, loop body: appends the number of rows. *)
Definition check_arrays_step (rows : res (list nat)) (a : arg) : res (list nat) :=
  bind rows (fun rs =>
    match a with
    | ANone => Ok rs                                                     (* continue *)
    | AOther => Err "not an array"
    | AArr shape finite =>
        if 2 <? List.length shape then Err "more than two dimensions"
        else match (match shape with [d] => [d; 1] | s => s end) with
             | r :: c :: _ => if r <? c then Err "more columns than rows"
                              else if negb finite then Err "missing/NaN values"
                              else Ok (rs ++ [r])
             | _ => Err "IndexError"                                      (* zero-dimensional array: shape[0] *)
             end
    end).

(** len(set(rows)) > 1 *)
Definition all_equal (rs : list nat) : bool :=
  match rs with [] => true | r :: t => forallb (Nat.eqb r) t end.

Definition check_arrays (args : list arg) : res nat :=
  bind (fold_left check_arrays_step args (Ok []))
       (fun rows => if negb (all_equal rows) then Err "arrays not all of same length"
                    else match rows with r :: _ => Ok r | [] => Err "IndexError" end).

(** spreg/user_output.py:365-384 check_numeric_bool: dtype kind and finiteness. *)
Inductive dtype := DBool | DNum | DOther.
Definition check_numeric_bool (d : dtype) (finite : bool) : res unit :=
  match d with
  | DBool => Err "ValueError: boolean"
  | DOther => Err "ValueError: non-numeric"
  | DNum => if finite then Ok tt else Err "ValueError: NaN"
  end.

(** spreg/user_output.py:447-520 check_y on an ndarray (or pandas after to_numpy) of the given shape. *)
Definition check_y (shape : list nat) (d : dtype) (finite : bool) (n : nat) : res (list nat) :=
  if 2 <? List.length shape then Err "more than two dimensions"
  else bind (match shape with
             | [r] => if Nat.eqb r n then Ok [n; 1] else Err "y must be a single column"   (* reshape(n,1) *)
             | s => Ok s
             end)
            (fun s => match s with
                      | [r; c] => if Nat.eqb r n && Nat.eqb c 1
                                  then bind (check_numeric_bool d finite) (fun _ => Ok s)
                                  else Err "y must be a single column"
                      | _ => Err "y must be a single column"
                      end).

(** spreg/user_output.py:780-815 check_reg_list (after conversion to a list) and 817-838 check_regimes.
    1.0*N/len(reg_set) < K+1 is N < (K+1)*len(reg_set). *)
Definition check_reg_list {A} (regimes : list A) (n : nat) : res (list A) :=
  if Nat.eqb (List.length regimes) n then Ok regimes else Err "regimes must have n observations".

Definition check_regimes (nr N K : nat) : res unit :=
  if nr <? 2 then Err "At least 2 regimes are needed"
  else if N <? (K + 1) * nr then Err "There aren't enough observations" else Ok tt.

(** spreg/user_output.py:549-628 check_weights on a pysal W (Graph / ndarray / sparse inputs are converted to one
    first).  [wdiag] is the diagonal of w.sparse. *)
Record wobj := { w_kernel : bool; w_n : nat; w_diag : list Q }.

Definition check_weights (w : option wobj) (nrow : nat) (w_required time : bool) (slx_lags : nat) (allow_wk : bool)
  : res (option wobj) :=
  if w_required || (match w with Some _ => true | None => false end) || (0 <? slx_lags) then
    match w with
    | None => Err "A weights matrix w must be provided"
    | Some w0 =>
        bind (if Nat.eqb slx_lags 1 && w_kernel w0 && allow_wk
              then Ok {| w_kernel := false; w_n := w_n w0; w_diag := map (fun _ => 0%Q) (w_diag w0) |}  (* fill_diagonal returns a plain W *)
              else if (1 <? slx_lags) && w_kernel w0 then Err "Higher orders not supported"
              else if w_kernel w0 && (Nat.eqb slx_lags 0 || negb allow_wk) then Err "Kernel weights not allowed"
              else Ok w0)
             (fun w1 =>
                if negb (Nat.eqb (w_n w1) nrow) && negb time then Err "y must have n rows"
                else if forallb (fun d => Qeq_bool d 0) (w_diag w1)      (* diag.min() != 0 or diag.max() != 0 *)
                     then Ok (Some w1) else Err "All entries on diagonal must equal 0.")
    end
  else Ok w.

(** str.lower() on ASCII text *)
Definition lower_char (c : ascii) : ascii :=
  let n := nat_of_ascii c in if (65 <=? n) && (n <=? 90) then ascii_of_nat (n + 32) else c.
Fixpoint lower (s : string) : string :=
  match s with EmptyString => "" | String c r => String (lower_char c) (lower r) end.

(** spreg/user_output.py:631-704 check_robust.  [wk] = Some k for a libpysal Kernel object (diagonal and the weight
    list of every observation), None for anything else.  [robust] = None or "" is falsy. *)
Record kern := { k_diag : list Q; k_weights : list (list Q) }.

Definition Qltb (a b : Q) : bool := negb (Qle_bool b a).

(** vmin = min(vals); vmax = max(vals): min([]) raises; "vmin < 0" is "some value < 0". *)
Fixpoint check_kernel_rows (rows : list (list Q)) : res unit :=
  match rows with
  | [] => Ok tt
  | vals :: rest =>
      match vals with
      | [] => Err "ValueError"
      | _ => if existsb (fun v => Qltb v 0) vals then Err "must be >= 0"
             else if existsb (fun v => Qltb 1 v) vals then Err "must be less than 1"
             else check_kernel_rows rest
      end
  end.

Definition check_robust (robust : option string) (wk : option kern) : res unit :=
  match robust with
  | None => Ok tt
  | Some s =>
      if String.eqb s "" then Ok tt
      else if String.eqb (lower s) "hac" then
        match wk with
        | None => Err "HAC requires a Kernel"
        | Some k =>
            match k_diag k with
            | [] => Err "ValueError"
            | d => if existsb (fun v => Qltb v 1) d then Err "diagonal must equal 1"
                   else if existsb (fun v => Qltb 1 v) d then Err "diagonal must equal 1"
                   else check_kernel_rows (k_weights k)
            end
        end
      else if String.eqb (lower s) "white" || String.eqb (lower s) "ogmm" then Ok tt
      else Err "invalid value passed to robust"
  end.

(** spreg/user_output.py:749-778 check_spat_diag. Returns (flag, a warning was issued). *)
Definition check_spat_diag (spat_diag : bool) (w_is_kernel : bool) (robust : option string) (slx_lags : option nat)
  : res (bool * bool) :=
  let hac := match robust with Some s => String.eqb s "hac" | None => false end in
  let '(sd, warn) := if hac && spat_diag then (false, true) else (spat_diag, false) in
  if sd && w_is_kernel then
    match slx_lags with
    | None => Err "TypeError"                                             (* None > 0 *)
    | Some k => if 0 <? k then Ok (false, true) else Ok (sd, warn)
    end
  else Ok (sd, warn).

(** spreg/user_output.py:841-865 check_regi_args: whether a warning is returned. *)
Definition check_regi_args (constant_regi cols2regi : string) (regime_err_sep err_flag : bool) : bool :=
  negb (String.eqb constant_regi "many") || negb (String.eqb cols2regi "all") || negb (Bool.eqb regime_err_sep err_flag).

(** check_constant.  A heap of Python lists makes aliasing visible: a name list is a reference into [heap]. *)
Definition heap := list (list string).
Definition ref := nat.
Definition deref (h : heap) (r : ref) : list string := nth r h [].
(** COPY.copy(list): fresh object *)
Definition py_copy (h : heap) (r : ref) : heap * ref := (h ++ [deref h r], List.length h).
(** r[:] = v *)
Fixpoint py_assign (h : heap) (r : ref) (v : list string) : heap :=
  match h, r with
  | [], _ => []
  | _ :: t, O => v :: t
  | a :: t, S k => a :: py_assign t k v
  end.

(** np.ptp of a column: max - min. The entries are exact numbers (Z). ValueError on an empty column. *)
Definition ptp (c : list Z) : res Z :=
  match c with
  | [] => Err "ValueError"
  | a :: t => Ok (fold_left Z.max t a - fold_left Z.min t a)%Z
  end.

Fixpoint map_res {A B} (f : A -> res B) (l : list A) : res (list B) :=
  match l with
  | [] => Ok []
  | a :: t => bind (f a) (fun b => bind (map_res f t) (fun bs => Ok (b :: bs)))
  end.

(** [keep_x[i] for i in np.nonzero(mask)[0]] *)
Fixpoint nonzero_from (i : nat) (m : list bool) : list nat :=
  match m with [] => [] | b :: t => if b then i :: nonzero_from (S i) t else nonzero_from (S i) t end.
Definition nonzero := nonzero_from 0.
Definition pick (l : list string) (idx : list nat) : res (list string) :=
  map_res (fun i => match nth_error l i with Some s => Ok s | None => Err "IndexError" end) idx.

(** spreg/user_output.py:868-943 check_constant, dense 2-d x given as its columns; [nrows] = x.shape[0].
    Result: new heap, columns, reference of the returned name list, removed names/count (the warning). *)
Definition check_constant (h : heap) (nrows : nat) (x : list (list Z)) (name_x : option ref) (just_rem : bool)
  : res (heap * list (list Z) * option ref * nat) :=
  bind (map_res ptp x) (fun diffs =>
  let '(h1, keep) := match name_x with
                     | Some r => let '(h', r') := py_copy h r in (h', Some r')
                     | None => (h, None)
                     end in
  let const := map (fun d => Z.eqb d 0) diffs in
  let x1 := compress x (map negb const) in
  let nconst := List.length (filter (fun b => b) const) in
  bind (if 0 <? nconst then
          match keep with
          | Some r => match deref h1 r with
                      | [] => Ok h1                                         (* empty list is falsy *)
                      | names => bind (pick names (nonzero const)) (fun _ =>
                                 bind (pick names (nonzero (map (fun d => (0 <? d)%Z) diffs)))
                                      (fun ks => Ok (py_assign h1 r ks)))
                      end
          | None => Ok h1
          end
        else Ok h1)
  (fun h2 =>
     let x2 := if just_rem then x1 else repeat 1%Z nrows :: x1 in
     Ok (h2, x2, keep, nconst))).
