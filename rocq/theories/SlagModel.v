(** Spatial lag SUR by instrumental variables: spreg/sur_lag.py:206-500 SURlagIV without regimes, dictionaries given (not data frames).
    A matrix is the list of its columns; a dictionary with keys 0, 1, ... is a list.  V: a column; lag: the product with w.sparse.
    w is given.  The caller's dictionaries are changed in place: their contents after the call are part of the outcome. *)
From mathcomp Require Import all_ssreflect all_algebra.
From Coq Require Import String.
From Verif Require Import LinRegModel DiagModel SurModel Sur3Model.
Set Implicit Arguments.
Unset Strict Implicit.
Unset Printing Implicit Defensive.

Section Slag.
Variables (V : Type) (v0 : V) (lag : V -> V) (str : nat -> string).
Notation mx := (seq V).
Notation dict A := (seq A).
Notation cat2 := String.append.
(** truth value of a dictionary or None *)
Definition truthy A (d : option (dict A)) : bool := if d is Some l then (size l != 0)%N else false.
(** spreg/sur_lag.py:259-260, 270-276: default names of the dependent and exogenous variables *)
Definition name_y (names : option (dict string)) (r : nat) : string :=
  if names is Some d then nth EmptyString d r else cat2 "dep_var_" (str r.+1).
Definition numbered (pre : string) (k r : nat) : seq string := [seq cat2 pre (cat2 (str i.+1) (cat2 "_" (str r.+1))) | i <- iota 0 k].
Definition name_x (names : option (dict (seq string))) (x : mx) (r : nat) : seq string :=
  if names is Some d then nth [::] d r else cat2 "Constant_" (str r.+1) :: numbered "var_" (size x).-1 r.
(** spreg/sur_lag.py:481-500 _get_spatial_lag *)
Definition get_spatial_lag (n_eq : nat) (y : dict V) (yend : option (dict mx)) : dict mx :=
  if yend is Some d then [seq rcons (nth [::] d r) (lag (nth v0 y r)) | r <- iota 0 n_eq]
  else [seq [:: lag (nth v0 y r)] | r <- iota 0 n_eq].
Definition spatial_lag_names (n_eq : nat) (ny : nat -> string) (yend : option (dict mx)) (names : dict (seq string)) : dict (seq string) :=
  if yend is Some _ then [seq rcons (nth [::] names r) (cat2 "W_" (ny r)) | r <- iota 0 n_eq]
  else [seq [:: cat2 "W_" (ny r)] | r <- iota 0 n_eq].
(** spreg/sur_lag.py:386-395 and 401-409: for i in range(1, w_lags): work = WS @ work; big = hstack((big, work)); the names get another "W" in front *)
Fixpoint lag_loop (m : nat) (work big : mx) : mx := if m is m'.+1 then let work' := map lag work in lag_loop m' work' (big ++ work') else big.
Fixpoint name_loop (m : nat) (work big : seq string) : seq string :=
  if m is m'.+1 then let work' := map (cat2 "W") work in name_loop m' work' (big ++ work') else big.
Definition lags (w_lags : nat) (x : mx) : mx := let work := map lag x in lag_loop w_lags.-1 work work.
Definition lag_names (w_lags : nat) (x : seq string) : seq string := let work := map (cat2 "W_") x in name_loop w_lags.-1 work work.
Record slag_out := SlagOut { s_X : dict mx; s_yend : dict mx; s_q : dict mx; s_nx : dict (seq string); s_nyend : dict (seq string); s_nq : dict (seq string) }.
(** outcome of the constructor before estimation (None: an exception), and the caller's bigyend and bigq afterwards *)
Record slag_res := SlagRes { r_out : option slag_out; r_yend : option (dict mx); r_q : option (dict mx) }.
Definition surlag (y : dict V) (X : dict mx) (yend q : option (dict mx)) (w_lags : nat) (lag_q : bool)
    (name_bigy : option (dict string)) (name_bigX name_bigyend name_bigq : option (dict (seq string))) : slag_res :=
  let n_eq := size y in
  let rs := iota 0 n_eq in
  (* 255-256 *)
  if truthy yend && ~~ truthy q then SlagRes None yend q else
  let ny := name_y name_bigy in
  let nx := [seq name_x name_bigX (nth [::] X r) r | r <- rs] in
  (* 277-284: the names of endogenous variables are built whether or not they were given *)
  let nyend := if yend is Some d then [seq numbered "end_" (size (nth [::] d r)) r | r <- rs] else odflt [::] name_bigyend in
  (* 285-292 *)
  let nq := if q is Some d then [seq numbered "inst_" (size (nth [::] d r)) r | r <- rs] else odflt [::] name_bigq in
  (* 363-366 *)
  let yend1 := get_spatial_lag n_eq y yend in
  let nyend1 := spatial_lag_names n_eq ny yend nyend in
  let after_yend := if yend is Some _ then Some yend1 else None in
  (* 367-425; w_lags = 1 is the same loop without passes *)
  if (w_lags == 0)%N then SlagRes None after_yend q else
  let bigwx r := lags w_lags (behead (nth [::] X r)) in
  let wxnames r := lag_names w_lags (behead (nth [::] nx r)) in
  let q1 r :=
    if q is Some d then
      if truthy q then
        let qr := nth [::] d r in if lag_q then qr ++ bigwx r ++ lags w_lags qr else qr ++ bigwx r
      else bigwx r
    else bigwx r in
  let nq1 r :=
    if q is Some d then
      if truthy q then
        let nqr := nth [::] nq r in if lag_q then nqr ++ wxnames r ++ lag_names w_lags nqr else nqr ++ wxnames r
      else wxnames r
    else wxnames r in
  let q2 := map q1 rs in
  let after_q := if truthy q then Some q2 else q in
  SlagRes (Some (SlagOut X yend1 q2 nx nyend1 (map nq1 rs))) after_yend after_q.
End Slag.

(** spreg/sur_lag.py:427-429: BaseThreeSLS on the dictionaries *)
Definition slag_estimate (R : realFieldType) n (y : seq 'cV[R]_n) (o : slag_out 'cV[R]_n) :=
  base_3sls (fun r : 'I_(size y) => of_cols (nth [::] (s_X o) r)) (fun r => of_cols (nth [::] (s_yend o) r)) (fun r => of_cols (nth [::] (s_q o) r))
    (fun r => nth 0%R y r).
