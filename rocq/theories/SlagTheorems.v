(** C90: instruments, names and arguments of the spatial lag SUR. *)
From mathcomp Require Import all_ssreflect all_algebra.
From Coq Require Import String.
From Verif Require Import LinRegModel LinRegProofs DiagModel DiagProofs SurModel Sur3Model SlagModel.
Set Implicit Arguments.
Unset Strict Implicit.
Unset Printing Implicit Defensive.

Section Lists.
Variables (V : Type) (v0 : V) (lag : V -> V) (str : nat -> string).
Notation sur_lag := (surlag v0 lag str).
Notation cat2 := String.append.
(** spec: the lags of order 1 to m of the columns x, one order after the other *)
Definition lag_orders (m : nat) (x : seq V) : seq V := flatten [seq [seq iter o lag c | c <- x] | o <- iota 1 m].
(** spec: the name of the lag of order o: o times W, underscore, name *)
Definition wname (o : nat) (s : string) : string := cat2 (iter o (cat2 "W") "_"%string) s.
Definition lag_order_names (m : nat) (x : seq string) : seq string := flatten [seq [seq wname o s | s <- x] | o <- iota 1 m].
Lemma lag_loopE m o x big : lag_loop lag m [seq iter o lag c | c <- x] big = big ++ flatten [seq [seq iter p lag c | c <- x] | p <- iota o.+1 m].
Proof.
elim: m o big => [|m IH] o big /=; first by rewrite cats0.
have -> : [seq lag c | c <- [seq iter o lag c | c <- x]] = [seq iter o.+1 lag c | c <- x] by rewrite -map_comp.
by rewrite IH catA.
Qed.
Lemma lagsE m x : (0 < m)%N -> lags lag m x = lag_orders m x.
Proof.
by case: m => // m _; rewrite /lags /lag_orders /= -[map lag x]/([seq iter 1 lag c | c <- x]) (lag_loopE m 1).
Qed.
Lemma name_loopE m o x big : name_loop m [seq wname o s | s <- x] big = big ++ flatten [seq [seq wname p s | s <- x] | p <- iota o.+1 m].
Proof.
elim: m o big => [|m IH] o big /=; first by rewrite cats0.
have -> : [seq cat2 "W" s | s <- [seq wname o s | s <- x]] = [seq wname o.+1 s | s <- x] by rewrite -map_comp.
by rewrite IH catA.
Qed.
Lemma lag_namesE m x : (0 < m)%N -> lag_names m x = lag_order_names m x.
Proof.
by case: m => // m _; rewrite /lag_names /lag_order_names /= -[map (cat2 "W_") x]/([seq wname 1 s | s <- x]) (name_loopE m 1).
Qed.
Lemma size_orders m x : size (lag_orders m x) = (m * size x)%N.
Proof.
rewrite /lag_orders size_flatten /shape -map_comp (eq_map (f2 := fun=> size x)) => [|o]; last by rewrite /= size_map.
by elim: m 1%N => //= m IH o; rewrite IH mulSn.
Qed.
Lemma size_order_names m x : size (lag_order_names m x) = (m * size x)%N.
Proof.
rewrite /lag_order_names size_flatten /shape -map_comp (eq_map (f2 := fun=> size x)) => [|o]; last by rewrite /= size_map.
by elim: m 1%N => //= m IH o; rewrite IH mulSn.
Qed.
Lemma orders0 m : lag_orders m [::] = [::].
Proof. by apply: size0nil; rewrite size_orders muln0. Qed.
Lemma order_names0 m : lag_order_names m [::] = [::].
Proof. by apply: size0nil; rewrite size_order_names muln0. Qed.
(** What equation r is estimated with: the exogenous variables given; the endogenous ones given and, last, the lag of y; as instruments the q
    given, the lags of order 1 to w_lags of the exogenous variables without the constant, and (lag_q) of q *)
Theorem C90_equation y X yend q w_lags lag_q ny nX nye nq o :
  r_out (sur_lag y X yend q w_lags lag_q ny nX nye nq) = Some o ->
  (0 < w_lags)%N /\ forall r, (r < size y)%N ->
  let given d := if d is Some l then nth [::] l r else [::] in
  [/\ nth [::] (s_X o) r = nth [::] X r,
      nth [::] (s_yend o) r = given yend ++ [:: lag (nth v0 y r)] &
      nth [::] (s_q o) r = given q ++ lag_orders w_lags (behead (nth [::] X r)) ++ (if lag_q then lag_orders w_lags (given q) else [::])].
Proof.
rewrite /surlag; case: ifP => // _; case: (w_lags == 0)%N (lt0n w_lags) => //= m0 [<-]; split=> // r ry /=.
have nr : nth 0%N (iota 0 (size y)) r = r by rewrite nth_iota.
have sr : (r < size (iota 0 (size y)))%N by rewrite size_iota.
split=> //.
  by rewrite /get_spatial_lag; case: yend => [d|]; rewrite (nth_map 0%N) // nr ?cats1.
rewrite (nth_map 0%N) // nr !lagsE //; case: q => [d|] /=.
  case: ifP => [d0|]; first by case: lag_q; rewrite ?lagsE ?cats0.
  by move/negbFE/eqP/size0nil=> ->; rewrite nth_nil /= orders0; case: lag_q; rewrite ?cats0.
by rewrite orders0; case: lag_q; rewrite ?cats0.
Qed.
(** One name per column, in the same order: the exogenous names given or built, the lag named after y last, the lags named W_x, WW_x, ... *)
Theorem C90_names y X yend q w_lags lag_q ny nX nye nq o :
  (forall r, (r < size y)%N -> if nX is Some d then size (nth [::] d r) = size (nth [::] X r) else (0 < size (nth [::] X r))%N) ->
  r_out (sur_lag y X yend q w_lags lag_q ny nX nye nq) = Some o -> forall r, (r < size y)%N ->
  [/\ size (nth [::] (s_nx o) r) = size (nth [::] (s_X o) r), size (nth [::] (s_nyend o) r) = size (nth [::] (s_yend o) r),
      size (nth [::] (s_nq o) r) = size (nth [::] (s_q o) r),
      last EmptyString (nth [::] (s_nyend o) r) = cat2 "W_" (name_y str ny r) &
      exists given, nth [::] (s_nq o) r = given ++ lag_order_names w_lags (behead (nth [::] (s_nx o) r)) ++
        (if lag_q then lag_order_names w_lags given else [::]) /\ size given = size (if q is Some l then nth [::] l r else [::])].
Proof.
move=> HX H r ry; have [m0 /(_ r ry) [eX eY eQ]] := C90_equation H; rewrite eX eY eQ; clear eX eY eQ.
move: H; rewrite /surlag; case: ifP => // _; rewrite (negbTE (_ : w_lags != 0)%N) -?lt0n //= => -[<-] /=.
have nr : nth 0%N (iota 0 (size y)) r = r by rewrite nth_iota.
have sr : (r < size (iota 0 (size y)))%N by rewrite size_iota.
rewrite !(nth_map 0%N _ _ sr) !nr.
have sx : size (name_x str nX (nth [::] X r) r) = size (nth [::] X r).
  by move: (HX r ry); rewrite /name_x; case: nX {HX} => [d -> //|x0]; rewrite /= size_map size_iota prednK.
have nxr : nth [::] [seq name_x str nX (nth [::] X r0) r0 | r0 <- iota 0 (size y)] r = name_x str nX (nth [::] X r) r.
  by rewrite (nth_map 0%N _ _ sr) nr.
set given := if q is Some d then numbered str "inst_" (size (nth [::] d r)) r else [::].
have sg : size given = size (if q is Some l then nth [::] l r else [::]) by rewrite /given; case: (q) => // d; rewrite size_map size_iota.
set G := (X in size X = size (_ ++ lag_orders _ _ ++ _)).
have GE : G = given ++ lag_order_names w_lags (behead (name_x str nX (nth [::] X r) r)) ++ (if lag_q then lag_order_names w_lags given else [::]).
  rewrite /G /given; case: (q) => [d|]; last first.
    by rewrite nxr lag_namesE // order_names0; case: (lag_q); rewrite ?cats0.
  have nqr : nth [::] [seq numbered str "inst_" (size (nth [::] d r0)) r0 | r0 <- iota 0 (size y)] r = numbered str "inst_" (size (nth [::] d r)) r.
    by rewrite (nth_map 0%N) // nr.
  rewrite nqr nxr !lag_namesE // /truthy; case: ifP => [_|]; first by case: (lag_q); rewrite ?cats0.
  by move/negbFE/eqP/size0nil=> ->; rewrite nth_nil /= order_names0; case: (lag_q); rewrite ?cats0.
split=> //.
- rewrite size_cat addn1 /spatial_lag_names; case: (yend) => [d|]; rewrite (nth_map 0%N) // nr // size_rcons (nth_map 0%N) // nr.
  by rewrite size_map size_iota.
- rewrite GE !size_cat size_orders size_order_names !size_behead sx sg; congr (_ + (_ + _))%N.
  by case: (lag_q) => //; rewrite size_orders size_order_names sg.
- by rewrite /spatial_lag_names; case: (yend) => [d|]; rewrite (nth_map 0%N) // nr // last_rcons.
- by exists given.
Qed.
(** Names given for the endogenous variables and the instruments are not used *)
Theorem C90_given_names_ignored y X yend q w_lags lag_q ny nX nye nq nye' nq' :
  r_out (sur_lag y X yend q w_lags lag_q ny nX nye nq) = r_out (sur_lag y X yend q w_lags lag_q ny nX nye' nq').
Proof.
rewrite /surlag; case: ifP => // _; case: ifP => // _; congr (Some _); congr SlagOut.
  by rewrite /spatial_lag_names; case: yend.
by case: q.
Qed.
(** The caller's dictionaries of endogenous variables and instruments are overwritten with what the equations are estimated with ... *)
Theorem C90_arguments y X yend q w_lags lag_q ny nX nye nq o (res := sur_lag y X yend q w_lags lag_q ny nX nye nq) :
  r_out res = Some o -> (if yend is Some _ then r_yend res = Some (s_yend o) else r_yend res = None) /\
  (if truthy q then r_q res = Some (s_q o) else r_q res = q).
Proof.
rewrite /res /surlag; case: (truthy yend && ~~ truthy q) => //; case: (w_lags == 0)%N => //= -[<-] /=; split; first by case: (yend).
by case: (truthy q).
Qed.
(** ... so they are not what they were before the call *)
Theorem C90_arguments_changed_refuted y X d q w_lags lag_q ny nX nye nq o (res := sur_lag y X (Some d) q w_lags lag_q ny nX nye nq) :
  (0 < size y)%N -> r_out res = Some o -> r_yend res <> Some d.
Proof.
move=> y0 H; have [-> _] := C90_arguments H; case=> E.
have [_ /(_ 0%N y0) [_ + _]] := C90_equation H; rewrite E => /(congr1 size); rewrite size_cat /= addn1 => /eqP; by rewrite -{1}[size _]addn0 -addn1 eqn_add2l.
Qed.
(** A lag order of zero raises, after the lag of y has been added to the caller's endogenous variables *)
Theorem C90_failed_call y X d q lag_q ny nX nye nq r (res := sur_lag y X (Some d) q 0 lag_q ny nX nye nq) : (0 < size d)%N -> truthy q -> (r < size y)%N ->
  r_out res = None /\ exists d', r_yend res = Some d' /\ nth [::] d' r = nth [::] d r ++ [:: lag (nth v0 y r)].
Proof.
move=> d0 tq ry; rewrite /res /surlag tq andbF /=; split=> //; eexists; split; first by [].
by rewrite (nth_map 0%N) ?size_iota // nth_iota // cats1.
Qed.
End Lists.

Section Second.
Import GRing.Theory.
Local Open Scope ring_scope.
Variables (R : realFieldType) (n : nat) (W : 'M[R]_n) (str : nat -> string).
Notation sur_lag := (surlag (0 : 'cV[R]_n) (fun c => W *m c) str).
Lemma dup_cols (z : seq 'cV[R]_n) i j : (i < j)%N -> (j < size z)%N -> nth 0 z i = nth 0 z j -> exists2 c : 'cV[R]_(size z), c != 0 & of_cols z *m c = 0.
Proof.
move=> ij jz E; have iz := ltn_trans ij jz; exists (delta_mx (Ordinal iz) 0 - delta_mx (Ordinal jz) 0).
  apply/eqP => /matrixP /(_ (Ordinal iz) 0); rewrite !mxE !eqxx /= (_ : (Ordinal iz == Ordinal jz) = false) ?subr0 => [/eqP|]; first by rewrite oner_eq0.
  by apply/negbTE; rewrite -val_eqE /= ltn_eqF.
rewrite mulmxBr -!colE; apply/matrixP => a b; by rewrite !mxE /= E subrr.
Qed.
Lemma none_H (y : seq 'cV[R]_n) (o : slag_out 'cV[R]_n) (r : 'I_(size y)) (c : 'cV[R]_(size (nth [::] (s_q o) r))) : c != 0 -> of_cols (nth [::] (s_q o) r) *m c = 0 -> slag_estimate y o = None.
Proof.
move=> c0 H; rewrite /slag_estimate /base_3sls; case: ifP => // /forallP /(_ r) /gram_unit U.
have := U (col_mx 0 c); rewrite /bigH mul_row_col mulmx0 add0r => /(_ H) /eqP; rewrite col_mx_eq0 (negbTE c0) andbF //.
Qed.
Lemma none_Z (y : seq 'cV[R]_n) (o : slag_out 'cV[R]_n) (r : 'I_(size y)) (c : 'cV[R]_(size (nth [::] (s_yend o) r))) : c != 0 -> of_cols (nth [::] (s_yend o) r) *m c = 0 -> slag_estimate y o = None.
Proof.
move=> c0 H; rewrite /slag_estimate /base_3sls; case: ifP => // _; rewrite /sur_ols; case: ifP => // /forallP /(_ r) /gram_unit U.
have := U (col_mx 0 c); rewrite /bigZhat mul_row_col mulmx0 add0r -!mulmxA H !mulmx0 => /(_ erefl) /eqP; rewrite col_mx_eq0 (negbTE c0) andbF //.
Qed.
(** Calling the constructor again with the same dictionaries: the lag of y is now there twice, and the estimation fails *)
Theorem C90_second_call y X d q m lq ny nX nye nq o o' m' lq' ny' nX' nye' nq' (res := sur_lag y X (Some d) q m lq ny nX nye nq) : (0 < size y)%N ->
  r_out res = Some o -> r_out (sur_lag y X (r_yend res) (r_q res) m' lq' ny' nX' nye' nq') = Some o' -> slag_estimate y o' = None.
Proof.
move=> y0 H H'; have [rY _] := C90_arguments H; rewrite rY in H'.
have [_ /(_ 0%N y0) [_ E _]] := C90_equation H; have [_ /(_ 0%N y0) [_ E' _]] := C90_equation H'; rewrite /= in E E'; rewrite E in E'.
have [||c c0 cz] := @dup_cols (nth [::] (s_yend o') 0) (size (nth [::] d 0)) (size (nth [::] d 0)).+1 (ltnSn _).
- by rewrite E' !size_cat /= !addn1 ltnS.
- by rewrite E' -catA !nth_cat ltnn subnn (ltnNge _.+1) leqnSn /= subSnn.
exact: (@none_Z y o' (Ordinal y0) c).
Qed.
(** The same with instruments only, when the first equation has a regressor besides the constant *)
Theorem C90_second_call_q y X q m lq ny nX nye nq o o' m' lq' ny' nX' nye' nq' (res := sur_lag y X None q m lq ny nX nye nq) : (0 < size y)%N ->
  truthy q -> (1 < size (nth [::] X 0))%N ->
  r_out res = Some o -> r_out (sur_lag y X None (r_q res) m' lq' ny' nX' nye' nq') = Some o' -> slag_estimate y o' = None.
Proof.
move=> y0 tq x1 H H'; have [_ rQ] := C90_arguments H; rewrite tq in rQ; rewrite rQ in H'.
have [m0 /(_ 0%N y0) [_ _ E]] := C90_equation H; have [m0' /(_ 0%N y0) [_ _ E']] := C90_equation H'; rewrite /= in E E'; rewrite E in E'.
set e := (if q is Some l then _ else _) in E E'.
have [x [xs X0]] : exists x xs, behead (nth [::] X 0) = x :: xs by case: (nth [::] X 0) x1 => [|a [|b l]] // _; exists b, l.
have L k : (0 < k)%N -> exists l, lag_orders (fun c => W *m c) k (behead (nth [::] X 0)) = W *m x :: l.
  by case: k => // k _; rewrite X0 /lag_orders /=; eexists.
have [l1 L1] := L _ m0; have [l2 L2] := L _ m0'; rewrite L1 L2 in E'.
set tail1 := (if lq then _ else _) in E'; set tail2 := (if lq' then _ else _) in E'.
have [|||c c0 cz] := @dup_cols (nth [::] (s_q o') 0) (size e) (size (e ++ (W *m x :: l1) ++ tail1)).
- by rewrite size_cat /= -[X in (X < _)%N]addn0 ltn_add2l.
- by rewrite E' [X in (_ < X)%N]size_cat -[X in (X < _)%N]addn0 ltn_add2l.
- by rewrite E' !nth_cat size_cat /= -[X in (X < _)%N]addn0 ltn_add2l /= !ltnn !subnn.
exact: (@none_H y o' (Ordinal y0) c).
Qed.
End Second.

(** Concrete case: two equations, columns 10, 11, ... and lags 10 more *)
Theorem C90_witness (str := fun k : nat => match k with 0 => "0" | 1 => "1" | 2 => "2" | 3 => "3" | _ => "many" end%string)
    (res := surlag 0%N (fun c => c + 100)%N str [:: 1; 2]%N [:: [:: 10; 11]; [:: 20; 21; 22]]%N (Some [:: [:: 31]; [:: 32]]%N) (Some [:: [:: 41]; [:: 42; 43]]%N)
      2 true None None None None) :
  (exists o, [/\ r_out res = Some o, s_yend o = [:: [:: 31; 101]; [:: 32; 102]]%N,
      s_q o = [:: [:: 41; 111; 211; 141; 241]; [:: 42; 43; 121; 122; 221; 222; 142; 143; 242; 243]]%N,
      nth [::] (s_nyend o) 0 = [:: "end_1_1"; "W_dep_var_1"]%string &
      nth [::] (s_nq o) 0 = [:: "inst_1_1"; "W_var_1_1"; "WW_var_1_1"; "W_inst_1_1"; "WW_inst_1_1"]%string]) /\
  (r_yend res = Some [:: [:: 31; 101]; [:: 32; 102]]%N).
Proof. by split=> //; eexists. Qed.
