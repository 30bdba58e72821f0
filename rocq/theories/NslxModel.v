(** spreg/nslx.py and spreg/utils.py:make_wnslx, over the real numbers.  None stands for nan or an infinity. *)
From Coq Require Import Reals.
From mathcomp Require Import all_ssreflect all_algebra.
From Verif Require Import Rinst LinRegModel.
Set Implicit Arguments.
Unset Strict Implicit.
Unset Printing Implicit Defensive.
Import Order.TTheory GRing.Theory Num.Theory.
Local Open Scope ring_scope.

Inductive transf := TPower | TExp.
Inductive nerr := NBadDims | NIndex | NMismatch | NShape | NSingular.
Inductive nres (A : Type) := NOk (a : A) | NErr (e : nerr).
Arguments NErr {A} e.

(** numpy.log and power on one stored number *)
Definition np_ln (v : R) : option R := if 0 < v then Some (ln v) else None.
Definition np_pow (v a : R) : option R := if 0 < v then Some (Rpower v a) else if (v == 0) && (0 < a) then Some 0 else None.
Definition omul (a b : option R) : option R := if a is Some u then if b is Some v then Some (u * v) else None else None.
Definition oadd (a b : option R) : option R := if a is Some u then if b is Some v then Some (u + v) else None else None.

(** spreg/nslx.py:494-552 _nltransform, on one stored weight v; scipy drops products that are exactly zero, which does not change any sum *)
Definition nltransform (a v : R) (tr : transf) (grad : bool) : option R :=
  match tr, grad with
  | TExp, false => Some (exp (- (v * a)))
  | TExp, true => omap (fun z => - z) (omul (Some (exp (- (v * a)))) (omul (np_ln (v * a)) (Some v)))
  | TPower, false => np_pow v a
  | TPower, true => omul (np_pow v a) (np_ln v)
  end.

(** a sparse n by n array: the stored entries of each row.  Its shape, when built by coo_array without one, is one more than the largest
    row and column that occur (spreg/utils.py:945) *)
Definition spw (n : nat) := 'I_n -> seq ('I_n * R).
Definition nrows n (w : spw n) : nat := (\max_i (if nilp (w i) then 0 else (i : nat).+1))%N.
Definition ncols n (w : spw n) : nat := (\max_i foldr (fun e m => maxn (e.1 : 'I_n).+1 m) 0 (w i))%N.
Definition square n (w : spw n) : bool := (nrows w == n) && (ncols w == n).

Section Nlmod.
Variables (n h : nat) (xw : 'M[R]_(n, h)).
(** walpha @ xw[:, c], row i *)
Definition sprow (w : spw n) (tr : transf) (grad : bool) (a : R) (c : 'I_h) (i : 'I_n) : option R :=
  foldr (fun e s => oadd (omul (nltransform a e.2 tr grad) (Some (xw e.1 c))) s) (Some 0) (w i).
(** spreg/nslx.py:439-491 nlmod: entry (i, c); w and transform are paired after the length check *)
Definition nl_weights (ws : seq (spw n * transf)) (c : nat) : option (spw n * transf) :=
  if size ws is 1 then ohead ws else ohead (drop c ws).
Definition nl_entry (ws : seq (spw n * transf)) (grad : bool) (alpha : 'cV[R]_h) (i : 'I_n) (c : 'I_h) : option R :=
  if nl_weights ws c is Some (w, tr) then sprow w tr grad (alpha c 0) c i else None.
(** the call succeeds when there is one set of weights or one for each column, all of shape n by n *)
Definition nl_ok (ws : seq (spw n * transf)) : bool :=
  ((size ws == 1%N) || (1 < size ws)%N && (h <= size ws)%N) && all (fun p : spw n * transf => square p.1) (take h ws).
End Nlmod.

Section Nslx.
Variables (n k h : nat) (y : 'cV[R]_n) (x : 'M[R]_(n, k)) (xw : 'M[R]_(n, h)) (ws : seq (spw n * transf)).
(** spreg/nslx.py:118-123 and 425-431: x b + the sum over the columns of wx *)
Definition nslx_pred (b : 'cV[R]_k) (alpha : 'cV[R]_h) (i : 'I_n) : option R :=
  oadd (Some ((x *m b) i 0)) (foldr (fun c s => oadd (nl_entry xw ws false alpha i c) s) (Some 0) (enum 'I_h)).
(** spreg/nslx.py:395-436 nslxobj *)
Definition nslxobj (b : 'cV[R]_k) (alpha : 'cV[R]_h) : option R :=
  foldr (fun i s => oadd (omap (fun p => (y i 0 - p) ^+ 2) (nslx_pred b alpha i)) s) (Some 0) (enum 'I_n).

Record nslx := Nslx { ns_predy : 'I_n -> option R; ns_u : 'I_n -> option R; ns_utu : R; ns_sig2 : R; ns_vm : option 'M[R]_(k + h) }.
(** all the entries, when all are finite *)
Definition nl_wax (alpha : 'cV[R]_h) : option 'M[R]_(n, h) :=
  if [forall i, [forall c, nl_entry xw ws true alpha i c : bool]] then Some (\matrix_(i, c) odflt 0 (nl_entry xw ws true alpha i c)) else None.
(** spreg/nslx.py:74-143 BaseNSLX with var_flag=1.  minimize is an oracle: the parameters and the value it returns.
    Not modelled: var_flag=0 (the inverse Hessian of the optimiser) and the starting values. *)
Definition base_nslx (b : 'cV[R]_k) (alpha : 'cV[R]_h) (fval : R) : nres nslx :=
  if ~~ nl_ok h ws then NErr NBadDims else
  let predy := nslx_pred b alpha in
  let u i := omap (fun p => y i 0 - p) (predy i) in
  let sig2 := fval / n%:R in
  if la_inv (x^T *m x) is Some xtxi then
    match nl_wax alpha with
    | None => NOk (Nslx predy u fval sig2 None)
    | Some wax =>
      if la_inv (wax^T *m wax) is Some waxi then NOk (Nslx predy u fval sig2 (Some (sig2 *: block_mx xtxi 0 0 waxi))) else NErr NSingular
    end
  else NErr NSingular.
End Nslx.

(** spreg/utils.py:871-951 make_wnslx.  [query i]: the k + 1 answers of KDTree for point i, nearest first, None for a missing neighbour
    (distance inf, id n).  [bounded]: distance_upper_bound is finite.  With an infinite bound and fewer than k other points the code
    builds infinite distances; the model raises NShape. *)
Definition wn_row n (tr : transf) (bounded : bool) (ans : seq (option (R * 'I_n))) : option (seq ('I_n * R)) :=
  let ans := behead ans in
  if bounded then
    let dis := map (fun e => if e is Some (d, _) then d else 0) ans in
    let mx := foldr Num.max 0 dis in
    Some (pmap (fun e => if e is Some (d, j) then Some (j, if tr is TPower then - (d / mx) + 1 else d / mx) else None) ans)
  else if all isSome ans then
    let full := pmap id ans in
    let mx := last 0 (map fst full) in
    Some (map (fun e => (e.2, if tr is TPower then - (e.1 / mx) + 1 else e.1 / mx)) full)
  else None.
Definition make_wnslx n (tr : transf) (bounded : bool) (query : 'I_n -> seq (option (R * 'I_n))) : option (spw n) :=
  if [forall i, wn_row tr bounded (query i) : bool] then Some (fun i => odflt [::] (wn_row tr bounded (query i))) else None.

(** spreg/nslx.py:331-358: the columns that are lagged, the parameters that are used and their names.  [params]: first letters of the
    transformations with the parameters; [mask] None: slx_vars is not a list. *)
From Coq Require Import Strings.String.
Section Names.
Variables (P : Type) (letter : P -> string).
Definition nslx_setup (xnames : seq string) (mask : option (seq bool)) (params : seq P) : nres (seq P * seq string) :=
  let g := size params in
  let step := match mask with
    | None => NOk (params, xnames)
    | Some m =>
      let xn := seq.mask m xnames in
      if (1 < g)%N then
        if g == size m then NOk (seq.mask m params, xn)
        else if g != size xn then NErr NMismatch else NOk (params, xn)
      else NOk (params, xn)
    end in
  match step with
  | NErr e => NErr e
  | NOk (ps, xn) =>
    if g == 1%N then
      if ps is p :: _ then NOk (ps, [seq append "W" (append (letter p) (append "_" j)) | j <- xn]) else NErr NIndex
    else if (1 < size ps)%N then
      if size ps != size xn then NErr NBadDims
      else NOk (ps, [seq append "W" (append (letter p.1) (append "_" p.2)) | p <- zip ps xn])
    else NOk (ps, xn)
  end.
End Names.
