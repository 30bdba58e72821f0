(** C48, C49, C71: data generation. *)
From Coq Require Import Strings.String.
From mathcomp Require Import all_ssreflect all_algebra.
From Verif Require Import LinRegModel LinRegProofs FilterModel FilterProofs FilterTheorems DgpModel.
Set Implicit Arguments.
Unset Strict Implicit.
Unset Printing Implicit Defensive.
Import Order.TTheory GRing.Theory Num.Theory.
Local Open Scope ring_scope.

Section C48.
Variables (R : rcfType) (thr : R) (mx n : nat) (W : 'M[R]_n).
Implicit Types (u xb wxg : 'cV[R]_n) (rho lam : R).
Notation Wn := (Wts W).
Notation V := (@Vec R n).
(** ** Specification *)
(** error processes: e = lam W e + u and e = u + lam W u *)
Definition error_process (model : string) lam u (e : 'cV[R]_n) : Prop :=
  (model = "sar"%string /\ e = lam *: (W *m e) + u) \/ (model = "ma"%string /\ e = u + lam *: (W *m u)).
(** y = rho W y + mean + error *)
Definition structural rho (mean e y : 'cV[R]_n) : Prop := y = rho *: (W *m y) + mean + e.
(** 0-1 coding of a latent variable: above its mean or not *)
Definition binary_of (y z : 'cV[R]_n) : Prop := forall i, z i 0 = if (\sum_j y j 0) / n%:R < y i 0 then 1 else 0.

Lemma as_nK (v : 'cV[R]_n) : as_n n (V v) = v. Proof. by rewrite /as_n conform_mx_id. Qed.
Lemma addK (a b : 'cV[R]_n) : np_add (V a) (V b) = DOk (V (a + b)).
Proof. by rewrite /np_add /= eqxx as_nK. Qed.
Lemma lagK (v : 'cV[R]_n) : lag_v Wn (V v) = DOk (V (W *m v)).
Proof. by rewrite /lag_v /= eqxx as_nK. Qed.
Lemma solveK rho (v y : 'cV[R]_n) : (1%:M - rho *: W) *m y = v <-> y = rho *: (W *m y) + v.
Proof. by rewrite mulmxBl mul1mx -scalemxAl; split=> [<-|E]; [rewrite addrC subrK|rewrite {1}E addrAC subrr add0r]. Qed.
Lemma inv_true rho (v : 'cV[R]_n) : inverse_prod thr mx Wn (V v) rho "true_inv" =
  if 1%:M - rho *: W \in unitmx then DOk (V (invmx (1%:M - rho *: W) *m v)) else DRaise.
Proof. by rewrite /inverse_prod /= eqxx as_nK /true_inv_prod /la_inv; case: ifP. Qed.
Lemma inv_trueP rho (v : 'cV[R]_n) r : inverse_prod thr mx Wn (V v) rho "true_inv" = DOk r -> exists2 y, r = V y & y = rho *: (W *m y) + v.
Proof.
rewrite inv_true; case: ifP => // U [<-]; eexists; first reflexivity.
by apply/solveK; rewrite mulmxA mulmxV // mul1mx.
Qed.
Lemma maK lam u : ma_err Wn (V u) lam = DOk (V (u + lam *: (W *m u))).
Proof. by rewrite /ma_err lagK /= addK. Qed.
Lemma errP lam u model r : err_model thr mx Wn (V u) lam model "true_inv" = DOk r -> exists2 e, r = V e & error_process model lam u e.
Proof.
rewrite /err_model; case: (String.eqb_spec model "sar") => [->|_].
- by move/inv_trueP => [e -> E]; exists e => //; left.
- case: (String.eqb_spec model "ma") => [->|//].
  by rewrite maK => - [<-]; eexists; [reflexivity|right].
Qed.
Lemma bind_ok A B (r : dres A) (f : A -> dres B) b : dbind r f = DOk b -> exists2 a, r = DOk a & f a = DOk b.
Proof. by case: r => //= a H; exists a. Qed.
Lemma binK ybin (r : dres (vec R)) z : bin_if ybin r = DOk z -> exists2 y, r = DOk y & z = if ybin then make_bin y else y.
Proof. by rewrite /bin_if; case: r => //= y [<-]; exists y. Qed.
Lemma make_binP (y : 'cV[R]_n) : exists2 z, make_bin (V y) = V z & binary_of y z.
Proof. by eexists; [reflexivity|move=> i; rewrite mxE]. Qed.
(** what the functions with ybin return: the variable itself, or its 0-1 coding *)
Definition outcome_of (ybin : bool) (y z : 'cV[R]_n) : Prop := if ybin then binary_of y z else z = y.
Lemma outP ybin y : exists2 z, (if ybin then make_bin (V y) else V y) = V z & outcome_of ybin y z.
Proof. by case: ybin; [have [z -> H] := make_binP y; exists z|exists y]. Qed.
Lemma out_intro ybin y z : z = (if ybin then make_bin (V y) else V y) -> exists2 z', z = V z' & outcome_of ybin y z'.
Proof. by move=> ->; apply: outP. Qed.

(** ** Theorems: with the exact inverse, what is returned satisfies the structural equation *)
Theorem C48_errproc : forall u lam model r, dgp_errproc thr mx (V u) Wn lam model "true_inv" = DOk r ->
  exists2 e, r = V e & error_process model lam u e.
Proof. by move=> u lam model r; rewrite /dgp_errproc /= eqxx /=; apply: errP. Qed.
Theorem C48_ols : forall u xb, dgp_ols (V u) (V xb) = DOk (V (xb + u)).
Proof. by move=> u xb; rewrite /dgp_ols /= eqxx /= addK. Qed.
Theorem C48_slx : forall u xb wxg ybin, exists2 z, dgp_slx (V u) (V xb) (V wxg) ybin = DOk (V z) & outcome_of ybin (xb + wxg + u) z.
Proof.
move=> u xb wxg ybin; rewrite /dgp_slx /= !eqxx /= addK /= addK /=.
by have [z -> O] := outP ybin (xb + wxg + u); exists z.
Qed.
Theorem C48_sperror : forall u xb lam model ybin r, dgp_sperror thr mx (V u) (V xb) Wn lam model "true_inv" ybin = DOk r ->
  exists e z, [/\ r = V z, error_process model lam u e & outcome_of ybin (xb + e) z].
Proof.
move=> u xb lam model ybin r; rewrite /dgp_sperror /= !eqxx /= => /binK [y]; case E: err_model => [||e'] //=; have [e -> He] := errP E.
by rewrite addK => - [<-] /out_intro [z -> Hz]; exists e, z.
Qed.
Theorem C48_slxerror : forall u xb wxg lam model ybin r, dgp_slxerror thr mx (V u) (V xb) (V wxg) Wn lam model "true_inv" ybin = DOk r ->
  exists e z, [/\ r = V z, error_process model lam u e & outcome_of ybin (xb + wxg + e) z].
Proof.
move=> u xb wxg lam model ybin r; rewrite /dgp_slxerror /= !eqxx /= => /binK [y]; case E: err_model => [||e'] //=; have [e -> He] := errP E.
by rewrite addK /= addK => - [<-] /out_intro [z -> Hz]; exists e, z.
Qed.
Theorem C48_lag : forall u xb rho ybin r, dgp_lag thr mx (V u) (V xb) Wn rho "true_inv" ybin = DOk r ->
  exists y z, [/\ r = V z, structural rho xb u y & outcome_of ybin y z].
Proof.
move=> u xb rho ybin r; rewrite /dgp_lag /= !eqxx /= addK /= => /binK [y' /inv_trueP [y -> Hy] /out_intro [z -> Hz]].
by exists y, z; split=> //; rewrite /structural -addrA.
Qed.
Theorem C48_spdurbin : forall u xb wxg rho ybin r, dgp_spdurbin thr mx (V u) (V xb) (V wxg) Wn rho "true_inv" ybin = DOk r ->
  exists y z, [/\ r = V z, structural rho (xb + wxg) u y & outcome_of ybin y z].
Proof.
move=> u xb wxg rho ybin r; rewrite /dgp_spdurbin /= !eqxx /= addK /= addK /= => /binK [y' /inv_trueP [y -> Hy] /out_intro [z -> Hz]].
by exists y, z; split=> //; rewrite /structural -addrA.
Qed.
Theorem C48_lagerr : forall u xb rho lam model ybin r, dgp_lagerr thr mx (V u) (V xb) Wn rho lam model "true_inv" ybin = DOk r ->
  exists e y z, [/\ r = V z, error_process model lam u e, structural rho xb e y & outcome_of ybin y z].
Proof.
move=> u xb rho lam model ybin r; rewrite /dgp_lagerr /= !eqxx /= => /binK [y']; case E: err_model => [||e'] //=; have [e -> He] := errP E.
rewrite addK /= => /inv_trueP [y -> Hy] /out_intro [z -> Hz].
by exists e, y, z; split=> //; rewrite /structural -addrA.
Qed.
Theorem C48_gns : forall u xb wxg rho lam model ybin r, dgp_gns thr mx (V u) (V xb) (V wxg) Wn rho lam model "true_inv" ybin = DOk r ->
  exists e y z, [/\ r = V z, error_process model lam u e, structural rho (xb + wxg) e y & outcome_of ybin y z].
Proof.
move=> u xb wxg rho lam model ybin r; rewrite /dgp_gns /= !eqxx /= => /binK [y']; case E: err_model => [||e'] //=; have [e -> He] := errP E.
rewrite addK /= addK /= => /inv_trueP [y -> Hy] /out_intro [z -> Hz].
by exists e, y, z; split=> //; rewrite /structural -addrA.
Qed.
(** the matrix exponential model: exp(alpha W) y = x b + u *)
Theorem C48_mess : forall (expm : forall m, 'M[R]_m -> 'M[R]_m) log u xb rho,
  (forall A : 'M[R]_n, expm n A *m expm n (- A) = 1%:M) ->
  exists2 y, dgp_mess expm log (V u) (V xb) Wn rho = DOk (V y) & expm n (log (1 - rho) *: W) *m y = xb + u.
Proof.
move=> expm log u xb rho H; rewrite /dgp_mess /= !eqxx /= addK /= as_nK; eexists; first reflexivity.
by rewrite scaleNr mulmxA H mul1mx.
Qed.
(** data are returned whenever the filters are invertible *)
Theorem C48_defined : forall u xb wxg rho lam model ybin, 1%:M - rho *: W \in unitmx -> 1%:M - lam *: W \in unitmx ->
  model = "sar"%string \/ model = "ma"%string ->
  (exists r, dgp_gns thr mx (V u) (V xb) (V wxg) Wn rho lam model "true_inv" ybin = DOk r) /\
  (exists r, dgp_lagerr thr mx (V u) (V xb) Wn rho lam model "true_inv" ybin = DOk r) /\
  (exists r, dgp_sperror thr mx (V u) (V xb) Wn lam model "true_inv" ybin = DOk r) /\
  (exists r, dgp_lag thr mx (V u) (V xb) Wn rho "true_inv" ybin = DOk r) /\
  (exists r, dgp_spdurbin thr mx (V u) (V xb) (V wxg) Wn rho "true_inv" ybin = DOk r).
Proof.
move=> u xb wxg rho lam model ybin Ur Ul M.
have [e E] : exists e, err_model thr mx Wn (V u) lam model "true_inv" = DOk (V e).
  by case: M => ->; rewrite /err_model /= ?inv_true ?Ul ?maK; eexists.
rewrite /dgp_gns /dgp_lagerr /dgp_sperror /dgp_lag /dgp_spdurbin /= !eqxx /= E /= !addK /= !addK /= !inv_true Ur /=.
by do !split; eexists; reflexivity.
Qed.
(** the default power expansion leaves out exactly one term of the series *)
Theorem C48_power_expansion : forall u xb rho r, dgp_lag thr mx (V u) (V xb) Wn rho "power_exp" false = DOk r ->
  exists y m, r = V y /\ y = rho *: (W *m y) + xb + u - term W rho (xb + u) m.+1.
Proof.
move=> u xb rho r; rewrite /dgp_lag /= !eqxx /= addK /= => /binK [y' + ->]; rewrite /inverse_prod /= eqxx as_nK.
case E: power_expansion => [s|//] [<-]; have [m [_ _ H _ _]] := C22_truncated_inverse E; exists s, m; split=> //.
by move/solveK: H; rewrite !addrA.
Qed.
Theorem C48_witness : exists u xb, u = const_mx 1 /\ exists r, dgp_gns thr mx (V u) (V xb) (V xb) Wn 0 0 "sar" "true_inv" true = DOk r.
Proof.
exists (const_mx 1), (const_mx 1); split=> //; have U : 1%:M - 0 *: W \in unitmx by rewrite scale0r subr0 unitmx1.
by have [H _] := C48_defined (const_mx 1) (const_mx 1) (const_mx 1) true U U (or_introl erefl).
Qed.
End C48.

(** * C49: inputs that do not fit *)
Section C49.
Variables (R : rcfType) (thr : R) (mx : nat).
Implicit Types (u xb wxg : vec R) (w : wts R).
Theorem C49_rows : forall u xb wxg w rho lam model im b, (v_n u <> v_n xb \/ v_n xb <> v_n wxg) ->
  (v_n u <> v_n xb -> [/\ dgp_ols u xb = DNone, dgp_probit u xb = DNone, dgp_sperror thr mx u xb w lam model im b = DNone,
     dgp_lag thr mx u xb w rho im b = DNone & dgp_lagerr thr mx u xb w rho lam model im b = DNone]) /\
  [/\ dgp_slx u xb wxg b = DNone, dgp_slxerror thr mx u xb wxg w lam model im b = DNone,
      dgp_spdurbin thr mx u xb wxg w rho im b = DNone & dgp_gns thr mx u xb wxg w rho lam model im b = DNone].
Proof.
move=> u xb wxg w rho lam model im b H; split.
- by move/eqP/negbTE => E; rewrite /dgp_ols /dgp_probit /dgp_sperror /dgp_lag /dgp_lagerr E.
- rewrite /dgp_slx /dgp_slxerror /dgp_spdurbin /dgp_gns; case: eqP => //= E; case: eqP => //= E'; by case: H.
Qed.
(* partial; missing: dgp_spdurbin and dgp_gns (C49_weights_refuted) *)
Theorem C49_weights_partial : forall u xb wxg w rho lam model im b expm log, v_n u = v_n xb -> v_n xb = v_n wxg -> w_n w <> v_n xb ->
  [/\ dgp_errproc thr mx u w lam model im = DNone, dgp_sperror thr mx u xb w lam model im b = DNone,
      dgp_slxerror thr mx u xb wxg w lam model im b = DNone, dgp_lag thr mx u xb w rho im b = DNone &
      dgp_lagerr thr mx u xb w rho lam model im b = DNone /\ dgp_mess expm log u xb w rho = DNone].
Proof.
move=> u xb wxg w rho lam model im b expm log E1 E2 /eqP/negbTE N.
by rewrite /dgp_errproc /dgp_sperror /dgp_slxerror /dgp_lag /dgp_lagerr /dgp_mess E1 -E2 eqxx N.
Qed.
Lemma np_add_n a b c : v_n a = v_n b -> np_add a b = DOk c :> dres (vec R) -> v_n c = v_n a.
Proof. by move=> /eqP E; rewrite /np_add E => - [<-]. Qed.
Lemma np_add_ok (a b : vec R) : v_n a = v_n b -> exists2 c, np_add a b = DOk c & v_n c = v_n a.
Proof. by move=> /eqP E; rewrite /np_add E; eexists; first reflexivity. Qed.
(** the two Durbin type functions do not return None for weights of the wrong dimension: whatever the data, an exception is raised *)
Theorem C49_weights_refuted : forall u xb wxg w rho lam im b, v_n u = v_n xb -> v_n xb = v_n wxg -> w_n w <> v_n xb ->
  dgp_spdurbin thr mx u xb wxg w rho im b = DRaise /\ dgp_gns thr mx u xb wxg w rho lam "sar" im b = DRaise.
Proof.
move=> u xb wxg w rho lam im b E1 E2 /eqP N.
have I v s : v_n v = v_n xb -> inverse_prod thr mx w v s im = DRaise.
  by move=> E; rewrite /inverse_prod E eq_sym (negbTE N); case: ifP => // _; case: ifP.
split.
- rewrite /dgp_spdurbin E1 -E2 eqxx /=.
  have [a -> na] := np_add_ok E2; rewrite /=.
  have [c -> nc] := np_add_ok (etrans na (esym E1)); by rewrite /= I // nc na.
- by rewrite /dgp_gns E1 -E2 eqxx /= /err_model /= I.
Qed.
(** an error model that does not exist gives None, an inversion method that does not exist raises *)
Theorem C49_names : forall u xb w rho lam model im b, v_n u = v_n xb -> w_n w = v_n xb ->
  (model <> "sar"%string -> model <> "ma"%string -> dgp_sperror thr mx u xb w lam model im b = DNone /\ dgp_lagerr thr mx u xb w rho lam model im b = DNone) /\
  (im <> "power_exp"%string -> im <> "true_inv"%string -> dgp_lag thr mx u xb w rho im b = DRaise).
Proof.
move=> u xb w rho lam model im b E1 E2; split=> /String.eqb_neq A /String.eqb_neq B.
- by rewrite /dgp_sperror /dgp_lagerr /err_model E1 E2 eqxx A B.
- rewrite /dgp_lag E1 E2 !eqxx /= /inverse_prod A B /=.
  by have [c -> _] := np_add_ok (esym E1).
Qed.
End C49.

(** * C71: helpers *)
Section C71.
Variables (R : rcfType).
Theorem C71_xb : forall n k (x : 'M[R]_(n, k)) beta,
  (size beta <> k.+1 -> make_xb x beta = DNone) /\
  (size beta = k.+1 -> exists2 v, make_xb x beta = DOk v & forall i, v i 0 = nth 0 beta 0 + \sum_(j < k) x i j * nth 0 beta j.+1).
Proof.
move=> n k x beta; rewrite /make_xb; split=> [/eqP N|E]; first by rewrite eq_sym N.
rewrite E eqxx; eexists; first reflexivity; move=> i; rewrite mxE big_split_ord /= big_ord_recl big_ord0 addr0.
rewrite row_mxEl !mxE mul1r; congr (_ + _); apply: eq_bigr => j _; by rewrite row_mxEr mxE.
Qed.
(** blocks W x, W^2 x, ..., W^o x *)
Theorem C71_wx : forall n k (x : 'M[R]_(n, k)) (W : 'M[R]_n) o, (0 < o)%N ->
  size (make_wx x W o) = o /\ forall j, (j < o)%N -> nth 0 (make_wx x W o) j = iter j.+1 (mulmx W) x.
Proof.
move=> n k x W o o0; rewrite /make_wx.
have H m (z : 'M[R]_(n, k)) : size (wx_more W z m) = m /\ forall j, (j < m)%N -> nth 0 (wx_more W z m) j = iter j.+1 (mulmx W) z.
  elim: m z => [|m IH] z //=; have [-> H] := IH (W *m z); split=> // - [|j] //= jm; by rewrite H // -iterSr.
have [S N] := H (o - 1)%N (W *m x); rewrite /= S; split=> [|[|j] //= jo]; first by rewrite subn1 prednK.
by rewrite N -?iterSr // subn1 -ltnS prednK.
Qed.
(* partial; missing: a single lagged variable (C71_wxg_refuted) *)
Theorem C71_wxg_partial : forall n k (wx : 'M[R]_(n, k)) gamma, (1 < k)%N ->
  (size gamma <> k -> make_wxg wx gamma = DNone) /\
  (size gamma = k -> exists2 v : 'cV[R]_n, make_wxg wx gamma = DOk (existT _ 1%N v) & forall i, v i 0 = \sum_(j < k) wx i j * nth 0 gamma j).
Proof.
move=> n k wx gamma k1; rewrite /make_wxg k1; split=> [/eqP N|E]; first by rewrite eq_sym N.
by rewrite E eqxx; eexists; [reflexivity|move=> i; rewrite mxE; apply: eq_bigr => j _; rewrite mxE].
Qed.
(** one lagged variable: the number of coefficients is not checked, and the result has a column for each of them *)
Theorem C71_wxg_single : forall n (wx : 'M[R]_(n, 1)) gamma,
  exists2 v, make_wxg wx gamma = DOk (existT _ (size gamma) v) & forall i j, v i j = wx i 0 * nth 0 gamma j.
Proof.
move=> n wx gamma; rewrite /make_wxg /=; eexists; first reflexivity.
by move=> i j; rewrite mxE big_ord_recl big_ord0 addr0.
Qed.
Theorem C71_wxg_refuted : forall n (wx : 'M[R]_(n, 1)), exists gamma v, size gamma <> 1%N /\ make_wxg wx gamma = DOk (existT _ 2%N v).
Proof. by move=> n wx; have [v E _] := C71_wxg_single wx [:: 2%:R; 4%:R]; exists [:: 2%:R; 4%:R], v. Qed.
(** heteroskedastic errors: the square is multiplied by v *)
Theorem C71_heterror : forall n (u v : 'cV[R]_n), (forall i, 0 <= v i 0) ->
  exists2 h, make_heterror (Vec u) (Vec v) = DOk (Vec h) & forall i, h i 0 ^+ 2 = v i 0 * u i 0 ^+ 2 /\ (v i 0 = 1 -> h i 0 = u i 0).
Proof.
move=> n u v P; rewrite /make_heterror /= eqxx /=; eexists; first reflexivity.
move=> i; rewrite mxE /as_n conform_mx_id exprMn sqr_sqrtr ?P // mulrC; split=> // ->; by rewrite sqrtr1 mulr1.
Qed.
(** linear multipliers run from vlow to vup in equal steps *)
Theorem C71_vmult_linear : forall n lo up (los ups : seq R) g, (1 < n)%N ->
  exists2 v, make_vmult n "linear" (lo :: los) (up :: ups) g = DOk v &
    [/\ size v = n, nth 0 v 0 = lo, nth 0 v n.-1 = up & forall i, (i < n)%N -> nth 0 v i * (n%:R - 1) = lo * (n%:R - 1 - i%:R) + up * i%:R].
Proof.
move=> n lo up los ups g n1; rewrite /make_vmult /= (gtn_eqF n1); eexists; first reflexivity.
have N i : (i < n)%N -> nth 0 [seq lo + (up - lo) / (n%:R - 1) * j%:R | j <- iota 0 n] i = lo + (up - lo) / (n%:R - 1) * i%:R.
  by move=> li; rewrite (nth_map 0%N) ?size_iota // nth_iota.
have n0 := ltnW n1.
have P : n%:R - 1 != 0 :> R by rewrite subr_eq0 pnatr_eq1 (gtn_eqF n1).
have Q : n.-1%:R = n%:R - 1 :> R by rewrite -[in RHS](prednK n0) -addn1 natrD addrK.
split; rewrite ?size_map ?size_iota ?N ?prednK //.
- by rewrite mulr0 addr0.
- by rewrite Q divfK // addrC subrK.
- by move=> i li; rewrite N // mulrDl [_ / _ * _ * _]mulrAC divfK // mulrBl [lo * (_ - i%:R)]mulrBr -[RHS]addrA [- _ + _]addrC.
Qed.
(** groups: each multiplier is repeated as often as its group has members *)
Theorem C71_vmult_group : forall n (vlow vup : seq R) g,
  (size vup <> size g \/ sumn g <> n -> make_vmult n "group" vlow vup g = DNone) /\
  (size vup = size g -> sumn g = n -> exists2 v, make_vmult n "group" vlow vup g = DOk v &
     size v = n /\ forall j i, (j < size g)%N -> (i < nth 0%N g j)%N -> nth 0 v (sumn (take j g) + i) = nth 0 vup j).
Proof.
move=> n vlow vup g; rewrite /make_vmult /=; split.
  by case=> /eqP/negbTE ->; rewrite ?andbF.
move=> E S; rewrite E S !eqxx /=; eexists; first reflexivity; rewrite -{}S.
elim: g vup E => [|m g IH] [|a vup] //= [/IH [S N]]; split; first by rewrite size_cat size_nseq S.
move=> [|j] i /= jl il; rewrite nth_cat size_nseq.
- by rewrite add0n il nth_nseq il.
- by rewrite -addnA ltnNge leq_addr /= addKn N.
Qed.
End C71.
