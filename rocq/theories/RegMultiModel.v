(** Separate estimation by regime and assembly of the combined result.
    spreg/ols_regimes.py:542-681 (_ols_regimes_multi); the same loop in error_sp_regimes.py:470-490 and 1085-1105,
    error_sp_het_regimes.py:553-575, error_sp_hom_regimes.py:566-585, ml_error_regimes.py:490-510, ml_lag_regimes.py:580-600,
    twosls_regimes.py:585-605, twosls_sp_regimes.py:816-840.  The per-regime estimator is an argument: its result per regime. *)
From Verif Require Import PyBase RegimesModel.
Open Scope string_scope.
Open Scope list_scope.
Open Scope nat_scope.

Section Multi.
Context {F : Type} (f0 : F).

(** numpy a[lo:hi] = v on the first axis: bounds are clipped, v must have as many rows as the slice or one row (broadcast) *)
Definition set_slice {A} (a : list A) (lo hi : nat) (v : list A) : res (list A) :=
  let hi' := Nat.min hi (List.length a) in
  let lo' := Nat.min lo hi' in
  let m := hi' - lo' in
  if Nat.eqb (List.length v) m then Ok (firstn lo' a ++ v ++ skipn hi' a)
  else match v with
       | [x] => Ok (firstn lo' a ++ repeat x m ++ skipn hi' a)
       | _ => Err "ValueError"
       end.

(** numpy a[idx] = v *)
Fixpoint set_nth {A} (i : nat) (x : A) (l : list A) : list A :=
  match l, i with
  | [], _ => []
  | _ :: t, O => x :: t
  | y :: t, S k => y :: set_nth k x t
  end.
Definition scatter_ {A} (a : list A) (idx : list nat) (v : list A) : list A :=
  fold_left (fun acc p => set_nth (fst p) (snd p) acc) (combine idx v) a.
Definition set_idx {A} (a : list A) (idx : list nat) (v : list A) : res (list A) :=
  if forallb (fun i => i <? List.length a) idx
  then if Nat.eqb (List.length v) (List.length idx) then Ok (scatter_ a idx v)
       else match v with
            | [x] => Ok (scatter_ a idx (repeat x (List.length idx)))
            | _ => Err "ValueError"
            end
  else Err "IndexError".

(** vm[lo:hi, lo:hi] = block *)
Definition set_block (a : list (list F)) (lo hi : nat) (v : list (list F)) : res (list (list F)) :=
  let rows := firstn (hi - lo) (skipn lo a) in
  if Nat.eqb (List.length v) (List.length rows) then
    bind (mapM (fun p => set_slice (fst p) lo hi (snd p)) (combine rows v)) (fun new => set_slice a lo hi new)
  else Err "ValueError".

(** the attributes of a regime result used by the loop *)
Record rres := { r_betas : list F; r_vm : list (list F); r_u : list F; r_predy : list F; r_name_y : string; r_name_x : list string }.
Record mres := { m_betas : list F; m_vm : list (list F); m_u : list F; m_predy : list F; m_name_y : list string; m_name_x : list string }.

(** [] += "abc" extends the list by the characters of the string *)
Fixpoint chars (s : string) : list string := match s with EmptyString => [] | String c t => String c EmptyString :: chars t end.

(** spreg/ols_regimes.py:632-660: one pass of the loop *)
Definition multi_step {R} (kb kv : nat) (ids : R -> list nat) (results : R -> rres) (st : nat * mres) (r : R) : res (nat * mres) :=
  let '(counter, m) := st in
  let q := results r in
  bind (set_block (m_vm m) (counter * kv) (S counter * kv) (r_vm q)) (fun vm =>
  bind (set_slice (m_betas m) (counter * kb) (S counter * kb) (r_betas q)) (fun betas =>
  bind (set_idx (m_u m) (ids r) (r_u q)) (fun u =>
  bind (set_idx (m_predy m) (ids r) (r_predy q)) (fun predy =>
    Ok (S counter, {| m_betas := betas; m_vm := vm; m_u := u; m_predy := predy;
                      m_name_y := m_name_y m ++ chars (r_name_y q); m_name_x := m_name_x m ++ r_name_x q |}))))).

Fixpoint foldM {A B} (f : B -> A -> res B) (l : list A) (b : B) : res B :=
  match l with [] => Ok b | a :: t => bind (f b a) (foldM f t) end.

(** spreg/ols_regimes.py:604-664: kb rows of betas and kv rows of vm per regime (kb = kv for OLS, 2SLS, HET, HOM, ML;
    kb = kv + 1 for GM_Error_Regimes). *)
Definition regimes_multi {R} (n kb kv : nat) (regimes_set : list R) (ids : R -> list nat) (results : R -> rres) : res mres :=
  let nr := List.length regimes_set in
  bind (foldM (multi_step kb kv ids results) regimes_set
     (0, {| m_betas := repeat f0 (nr * kb); m_vm := repeat (repeat f0 (nr * kv)) (nr * kv);
            m_u := repeat f0 n; m_predy := repeat f0 n; m_name_y := []; m_name_x := [] |}))
  (fun p => Ok (snd p)).
End Multi.

(** spreg/regimes.py:673-690 check_const_regi.  The design is kept by columns; [ids r] the positions of regime r.
    np.ptp over no row raises. *)
Section Const.
Context {F R : Type} (feq : forall a b : F, {a = b} + {a <> b}).
Definition const_on (col : list F) (idx : list nat) : res bool :=
  bind (take_idx col idx) (fun v => match v with
                                    | [] => Err "ValueError"
                                    | a :: t => Ok (forallb (fun b => if feq a b then true else false) t)
                                    end).
Definition const_step (ids : R -> list nat) (st : list string * list (list F)) (r : R) : res (list string * list (list F)) :=
  let '(keep, cols) := st in
  bind (mapM (fun c => const_on c (ids r)) cols) (fun mask =>
  bind (take_idx keep (where_ is_true_ mask)) (fun const_x =>
    Ok (filter (fun e => if in_dec string_dec e const_x then false else true) keep, compress cols (map negb mask)))).
Definition check_const_regi (ids : R -> list nat) (regimes_set : list R) (names : list string) (cols : list (list F))
  : res (list string * list (list F)) := foldM (const_step ids) regimes_set (names, cols).
End Const.
