(** Regimes: design matrices, names, restriction matrices, weights subsets.  spreg/regimes.py.
    Matrices are lists of rows; [F] is the type of numbers, with a commutative ring structure supplied by the theorems.
    Regime identifiers have an arbitrary type with decidable equality. *)
From Verif Require Import PyBase.
Open Scope string_scope.
Open Scope list_scope.
Open Scope nat_scope.

(** positions of the entries satisfying p: np.where(mask)[0] *)
Fixpoint where_from {A} (p : A -> bool) (i : nat) (l : list A) : list nat :=
  match l with [] => [] | a :: t => if p a then i :: where_from p (S i) t else where_from p (S i) t end.
Definition where_ {A} (p : A -> bool) (l : list A) : list nat := where_from p 0 l.

(** l[idx] for a list of positions; IndexError when one is out of range *)
Fixpoint take_idx {A} (l : list A) (idx : list nat) : res (list A) :=
  match idx with
  | [] => Ok []
  | i :: t => match nth_error l i with
              | Some a => bind (take_idx l t) (fun r => Ok (a :: r))
              | None => Err "IndexError"
              end
  end.

Fixpoint mapM {A B} (f : A -> res B) (l : list A) : res (list B) :=
  match l with
  | [] => Ok []
  | a :: t => bind (f a) (fun b => bind (mapM f t) (fun bs => Ok (b :: bs)))
  end.

Definition maxl (l : list nat) : nat := fold_right Nat.max 0 l.

Inductive const_regi := CNone | COne | CMany | COther.       (* constant_regi: False, 'one', 'many', anything else *)
Inductive c2r := C2All | C2List (m : list bool).              (* cols2regi: 'all' or a list *)

Definition is_true_ (b : bool) := b.
Definition is_false_ (b : bool) := negb b.

Section Regimes.
Context {F : Type} (f0 f1 : F) (fadd fmul : F -> F -> F).
Context {ID : Type} (ideq : forall a b : ID, {a = b} + {a <> b}).

Definition idb (a b : ID) : bool := if ideq a b then true else false.
Definition fsum (l : list F) : F := fold_right fadd f0 l.

(** one row of scipy's csr_matrix((data, indices, indptr)) made dense: duplicates are summed *)
Definition csr_cell (idx : list nat) (data : list F) (j : nat) : F :=
  fsum (map snd (filter (fun p => Nat.eqb (fst p) j) (combine idx data))).
Definition csr_row (ncols : nat) (idx : list nat) (data : list F) : list F :=
  map (csr_cell idx data) (seq 0 ncols).

(** spreg/regimes.py:610-643 x2xsp.  x has rows of [k] entries.  The flattened data/indices arrays with
    indptr = 0,k,2k,.. are kept row by row.  The number of columns is inferred by scipy from the largest index;
    with no index at all scipy raises. *)
Definition row_map (k : nat) (regimes_set : list ID) (r : ID) : res (list nat) :=
  if in_dec ideq r regimes_set
  then Ok (where_ (idb r) (flat_map (fun s => repeat s k) regimes_set))
  else Err "KeyError".

Definition x2xsp (k : nat) (x : list (list F)) (regimes regimes_set : list ID) : res (list (list F)) :=
  bind (mapM (row_map k regimes_set) regimes) (fun indices =>
    match List.concat indices with
    | [] => Err "ValueError"
    | _ => let ncols := S (maxl (List.concat indices)) in
           Ok (map (fun p => csr_row ncols (fst p) (snd p)) (combine indices x))
    end).

(** spreg/regimes.py:383-438 regimeX_setup; k = x.shape[1]. *)
Definition hcat (a b : list (list F)) : list (list F) := map (fun p => fst p ++ snd p) (combine a b).

Definition regimeX_setup (k : nat) (x : list (list F)) (regimes : list ID) (cols2regi : list bool)
    (regimes_set : list ID) : res (list (list F)) :=
  match cols2regi with
  | [] => Err "ValueError"                                   (* empty x2xsp *)
  | _ =>
    if forallb is_true_ cols2regi then x2xsp k x regimes regimes_set
    else if forallb is_false_ cols2regi then Ok x
    else
      bind (mapM (fun row => take_idx row (where_ is_false_ cols2regi)) x) (fun not_regi =>
      bind (mapM (fun row => take_idx row (where_ is_true_ cols2regi)) x) (fun regi_subset =>
      bind (x2xsp (List.length (where_ is_true_ cols2regi)) regi_subset regimes regimes_set) (fun xs =>
      Ok (hcat xs not_regi))))
  end.

(** spreg/regimes.py:646-670 check_cols2regi; kx, kyend = numbers of columns (kyend = None when yend is None). *)
Definition check_cols2regi (constant : const_regi) (cols2regi : c2r) (kx : nat) (kyend : option nat) (add_cons : bool)
  : res (list bool) :=
  bind (if add_cons then match constant with
                         | CMany => Ok [true]
                         | COne => Ok [false]
                         | _ => Err "UnboundLocalError"       (* regi_cons never assigned *)
                         end
        else Ok [])
       (fun regi_cons =>
          let tot_k := match kyend with Some k => kx + k | None => kx end in
          let c := match cols2regi with C2All => regi_cons ++ repeat true tot_k | C2List l => regi_cons ++ l end in
          if Nat.eqb (List.length c - (if add_cons then 1 else 0)) tot_k then Ok c else Err "Exception").
End Regimes.

(** Names: regime identifiers printed with str() are strings here.
    spreg/regimes.py:441-497 set_name_x_regimes (the name part; r_list is the regime tag of each coefficient). *)
Definition set_name_x_regimes (name_x : list string) (constant : const_regi) (cols2regi : list bool)
    (regimes_set : list string) : res (list string * list string) :=
  let has_c := match constant with CNone => false | _ => true end in
  let k := List.length cols2regi - (if has_c then 1 else 0) in
  let name0 := match name_x with [] => map (fun i => "var_" ++ py_str (i + 1))%string (seq 0 k) | l => l end in
  let names := if has_c then "CONSTANT" :: name0 else name0 in
  bind (take_idx names (where_ is_true_ cols2regi)) (fun vars_regi =>
  bind (take_idx names (where_ is_false_ cols2regi)) (fun vars_glob =>
    Ok (flat_map (fun r => map (fun v => r ++ "_" ++ v)%string vars_regi) regimes_set
          ++ map (fun v => "_Global_" ++ v)%string vars_glob,
        flat_map (fun r => map (fun _ => r) vars_regi) regimes_set ++ map (fun _ => "_Global") vars_glob))).

(** spreg/regimes.py:219-273 Regimes_Frame.__init__ for the exogenous call (yend=False) with names:
    returns x, names, kr, kf, kryd, nr.  regimes_set is the set computed by _get_regimes_set. *)
Section Frame.
Context {F : Type} (f0 f1 : F) (fadd : F -> F -> F).

Record frame := { fr_x : list (list F); fr_names : list string; fr_rlist : list string;
                  fr_kr : nat; fr_kf : nat; fr_kryd : nat; fr_nr : nat }.

Definition regimes_frame (k : nat) (x : list (list F)) (regimes regimes_set : list string) (constant : const_regi)
    (cols2regi : c2r) (names : list string) : res frame :=
  let c0 := match cols2regi with C2All => repeat true k | C2List l => firstn k l end in
  bind (match constant with
        | CNone => Ok (x, c0, k)
        | COne => Ok (map (cons f1) x, false :: c0, S k)
        | CMany => Ok (map (cons f1) x, true :: c0, S k)
        | COther => Err "Exception"
        end)
  (fun '(x1, c1, k1) =>
   bind (regimeX_setup f0 fadd string_dec k1 x1 regimes c1 regimes_set) (fun xs =>
   bind (set_name_x_regimes names constant c1 regimes_set) (fun '(nm, rl) =>
     let kr := List.length (where_ is_true_ c1) in
     Ok {| fr_x := xs; fr_names := nm; fr_rlist := rl; fr_kr := kr; fr_kf := List.length c1 - kr; fr_kryd := 0;
           fr_nr := List.length (nodup string_dec regimes) |}))).
End Frame.

(** spreg/regimes.py:339-381 buildR1var: rows of an integer matrix. IndexError when a write falls outside. *)
Definition buildR1var (vari kr kf kryd nr : nat) : res (list (list Z)) :=
  let ncols := kr * nr in
  let nrows := nr - 1 in
  let krexog := kr - kryd in
  let '(kr_j, cbeg) := if vari <? krexog then (krexog, vari) else (kryd, krexog * (nr - 1) + vari) in
  if (cbeg <? ncols) || Nat.eqb nrows 0 then
    bind (mapM (fun j => let cneg := kr_j + cbeg + j * kr_j in
                         if cneg <? ncols
                         then Ok (map (fun c => if Nat.eqb c cneg then (-1)%Z else if Nat.eqb c cbeg then 1%Z else 0%Z)
                                      (seq 0 ncols) ++ repeat 0%Z kf)
                         else Err "IndexError")
               (seq 0 nrows)) (fun r => Ok r)
  else Err "IndexError".

(** spreg/regimes.py:310-336 buildR and the r_global of _chow_run (96-122): the stacked blocks; np.vstack of nothing raises. *)
Definition chow_global (kr kf kryd nr : nat) : res (list (list Z)) :=
  match kr with
  | O => Err "ValueError"
  | _ => bind (mapM (fun v => buildR1var v kr kf kryd nr) (seq 0 kr)) (fun bl => Ok (List.concat bl))
  end.

(** spreg/regimes.py:97-105, start of _chow_run: the coefficients that have no variance are dropped.
    nv = vm.shape[0].  Returns the betas used and the adjusted kf. *)
Definition chow_betas {F} (kr kf nr nv : nat) (betas : list F) : res (list F * nat) :=
  if Nat.eqb (List.length betas) nv then Ok (betas, kf)
  else if 0 <? kf then Ok (firstn nv betas, kf - (List.length betas - nv))
  else bind (take_idx betas (flat_map (fun i => seq (i * (kr + 1)) kr) (seq 0 nr))) (fun b => Ok (b, kf)).

(** spreg/regimes.py:693-701 _get_regimes_set.  Identifiers that are ints or strings: sorted distinct values;
    a sort by insertion, [leb] the order of the identifiers. *)
Section Sort.
Context {A : Type} (leb : A -> A -> bool) (dec : forall a b : A, {a = b} + {a <> b}).
Fixpoint insert (a : A) (l : list A) : list A :=
  match l with [] => [a] | b :: t => if leb a b then a :: b :: t else b :: insert a t end.
Definition isort (l : list A) : list A := fold_right insert [] l.
Definition get_regimes_set (regimes : list A) : list A := isort (nodup dec regimes).
End Sort.

(** The float case.  Any finite list of floats has a common denominator D > 0, so a float identifier is an integer z
    standing for z/D; int(f) truncates towards zero; the identifier is integral when D divides z. *)
Definition trunc_den (D z : Z) : Z := (Z.quot z D * D)%Z.
Definition get_regimes_set_float (D : Z) (regimes : list Z) : list Z :=
  let s := nodup Z.eq_dec regimes in
  let s1 := nodup Z.eq_dec (map (trunc_den D) s) in
  isort Z.leb (if Nat.eqb (List.length s1) (List.length s) then s1 else s).

(** Product of an integer restriction row with a coefficient vector (np.dot(r, betas), spreg/regimes.py:301). *)
Section RowDot.
Context {F : Type} (f0 : F) (fadd : F -> F -> F) (fopp : F -> F).
Definition zscale (z : Z) (b : F) : F :=
  match z with Z0 => f0 | Zpos p => Pos.iter (fadd b) f0 p | Zneg p => fopp (Pos.iter (fadd b) f0 p) end.
Definition row_dot (row : list Z) (beta : list F) : F :=
  fold_right fadd f0 (map (fun p => zscale (fst p) (snd p)) (combine row beta)).
End RowDot.
