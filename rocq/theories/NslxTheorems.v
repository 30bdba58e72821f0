(** C53, C68: the nonlinear SLX model. *)
From Coq Require Import Reals Ring Field Lra.
From mathcomp Require Import all_ssreflect all_algebra.
From Verif Require Import Rinst Mring LinRegModel LinRegProofs LinRegProofs2 ProbitSpec ProbitTheorems2 NslxModel.
Set Implicit Arguments.
Unset Strict Implicit.
Unset Printing Implicit Defensive.
Import Order.TTheory GRing.Theory Num.Theory.
Local Open Scope ring_scope.
Add Field Rf : (@p_ft R_realFieldType).

Lemma exp_pos' (t : R) : 0 < exp t.
Proof. by apply/ltRP; apply: exp_pos. Qed.
Lemma dl_exp (a : R) : derivable_pt_lim exp a (exp a).
Proof. exact: derivable_pt_lim_exp. Qed.
Lemma pow_deriv (v a : R) : derivable_pt_lim (fun t => Rpower v t) a (Rpower v a * ln v).
Proof.
rewrite /Rpower; apply: (dl_ext (dl_comp (dl_mul (dl_id a) (dl_const (ln v) a)) (dl_exp _))) => //.
by rewrite mulr0 addr0 mul1r.
Qed.
Lemma exp_deriv (v a : R) : derivable_pt_lim (fun t => exp (- (v * t))) a (- v * exp (- (v * a))).
Proof.
apply: (dl_ext (dl_comp (dl_opp (dl_mul (dl_const v a) (dl_id a))) (dl_exp _))) => //.
by rewrite mul0r add0r mulr1 mulrC.
Qed.

(** the exponential gradient of the code is the derivative of the transformed weight at exactly one value of the parameter *)
Theorem C53_exponential_iff : forall v a, 0 < v -> 0 < a ->
  (exists2 l, nltransform a v TExp true = Some l & derivable_pt_lim (fun t => odflt 0 (nltransform t v TExp false)) a l) <-> v * a = exp 1.
Proof.
move=> v a v0 a0; have p : 0 < v * a by apply: mulr_gt0.
have G : nltransform a v TExp true = Some (- (exp (- (v * a)) * (ln (v * a) * v))) by rewrite /= /np_ln p.
rewrite G; split.
- move=> [l [<-]] D; have /= E := uniqueness_limite _ _ _ _ D (exp_deriv v a).
  have L : ln (v * a) = 1.
    have nz : exp (- (v * a)) * v != 0 by rewrite mulf_neq0 ?lt0r_neq0 ?exp_pos'.
    apply: (mulfI nz); apply: oppr_inj; clear D G; move: E; move: (exp (- (v * a))) => e; move: (ln (v * a)) => m E.
    by rewrite mulr1 -mulrA [v * m]mulrC E mulNr mulrC.
  by rewrite -L exp_ln //; apply/ltRP.
- move=> E; exists (- (exp (- (v * a)) * (ln (v * a) * v))) => //.
  apply: (dl_ext (exp_deriv v a)) => //; by rewrite E ln_exp mul1r mulNr mulrC.
Qed.

Section Jac.
Variables (n k h : nat) (x : 'M[R]_(n, k)) (xw : 'M[R]_(n, h)).
Implicit Types (w : spw n) (ws : seq (spw n * transf)).

Lemma foldr_oadd (I : Type) (s : seq I) (F : I -> option R) (G : I -> R) : (forall i, F i = Some (G i)) ->
  foldr (fun i r => oadd (F i) r) (Some 0) s = Some (\sum_(i <- s) G i).
Proof. by move=> H; elim: s => [|i s IH]; rewrite ?big_nil //= IH H /= big_cons. Qed.
Lemma foldr_oadd_in (I : eqType) (s : seq I) (F : I -> option R) (G : I -> R) : {in s, forall i, F i = Some (G i)} ->
  foldr (fun i r => oadd (F i) r) (Some 0) s = Some (\sum_(i <- s) G i).
Proof.
elim: s => [|i s IH] H; rewrite ?big_nil //= IH => [|j js]; last by apply: H; rewrite inE js orbT.
by rewrite H ?inE ?eqxx //= big_cons.
Qed.
Lemma foldr_oaddN (I : eqType) (s : seq I) (F : I -> option R) i : i \in s -> F i = None ->
  foldr (fun i r => oadd (F i) r) (Some 0) s = None.
Proof.
elim: s => //= j s IH; rewrite inE => /orP [/eqP <- ->|/IH {}IH N] //; by rewrite IH //; case: (F j).
Qed.

(** every stored weight is positive *)
Definition positive ws := forall p, List.In p ws -> forall i e, List.In e (p.1 i) -> 0 < e.2.
Definition all_power ws := forall p, List.In p ws -> p.2 = TPower.

Lemma weights_in ws c p : nl_weights ws c = Some p -> List.In p ws.
Proof.
have D (s : seq (spw n * transf)) m : ohead (drop m s) = Some p -> List.In p s.
  elim: s m => [|a s IH] [|m] //= H; [by case: H => <-; left|by right; apply: IH H].
rewrite /nl_weights; case: (size ws) => [|[|m]]; [exact: D| |exact: D].
by move=> H; apply: (D ws 0%N); rewrite drop0.
Qed.
Lemma weights_ok ws (c : 'I_h) : nl_ok h ws -> exists p, nl_weights ws c = Some p.
Proof.
case/andP => /orP [/eqP S|/andP [S1 S2]] _; rewrite /nl_weights.
- by case: ws S => [|a [|]] //= _; exists a.
- case: ws S1 S2 => [|a [|b l]] // _ S2; case E: (drop c (a :: b :: l)) => [|p s]; last by exists p.
  by have := size_drop c (a :: b :: l); rewrite E => /esym /eqP; rewrite subn_eq0 leqNgt (leq_trans (ltn_ord c) S2).
Qed.

Section Row.
Variables (w : spw n) (c : 'I_h) (i : 'I_n) (P : forall e, List.In e (w i) -> 0 < e.2).
Lemma sprow_pow a : sprow xw w TPower false a c i = Some (\sum_(e <- w i) Rpower e.2 a * xw e.1 c).
Proof.
rewrite /sprow; move: P; elim: (w i) => [|e s IH] H /=; first by rewrite big_nil.
by rewrite /np_pow H /=; [rewrite IH ?big_cons // => f F; apply: H; right|left].
Qed.
Lemma sprow_powg a : sprow xw w TPower true a c i = Some (\sum_(e <- w i) Rpower e.2 a * ln e.2 * xw e.1 c).
Proof.
rewrite /sprow; move: P; elim: (w i) => [|e s IH] H /=; first by rewrite big_nil.
by rewrite /np_pow /np_ln H /=; [rewrite IH ?big_cons // => f F; apply: H; right|left].
Qed.
End Row.

(** C53, power: for positive weights the gradient matrix is the Jacobian of the predictions *)
(* partial; missing: the exponential transformation (C53_exponential_refuted) and zero weights (C53_power_nan_refuted) *)
Theorem C53_power_partial : forall ws, nl_ok h ws -> positive ws -> all_power ws ->
  forall b alpha, exists2 wax, nl_wax xw ws alpha = Some wax &
  (forall b alpha i, nslx_pred x xw ws b alpha i) /\
  forall (db : 'cV[R]_k) (da : 'cV[R]_h) i,
    derivable_pt_lim (fun t => odflt 0 (nslx_pred x xw ws (b + t *: db) (alpha + t *: da) i)) 0 ((x *m db + wax *m da) i 0).
Proof.
move=> ws OK Pos Pow b alpha.
pose val g (al : 'cV[R]_h) i c := odflt 0 (nl_entry xw ws g al i c).
have EV g al i c : exists2 w : spw n, (forall e, List.In e (w i) -> 0 < e.2) & nl_entry xw ws g al i c = sprow xw w TPower g (al c 0) c i.
  have [[w tr] Ew] := weights_ok c OK; have I := weights_in Ew; exists w; first by move=> e; apply: (Pos _ I i e).
  by rewrite /nl_entry Ew; have /= -> := Pow _ I.
have DEF g al i c : nl_entry xw ws g al i c = Some (val g al i c).
  have [w Pw E] := EV g al i c; rewrite /val; case: g E => E; by rewrite E ?sprow_pow ?sprow_powg.
have PR b' al i : nslx_pred x xw ws b' al i = Some ((x *m b') i 0 + \sum_(c <- enum 'I_h) val false al i c).
  by rewrite /nslx_pred (foldr_oadd _ (G := val false al i)).
exists (\matrix_(i, c) val true alpha i c).
  rewrite /nl_wax; have -> : [forall i, [forall c, nl_entry xw ws true alpha i c : bool]] by apply/forallP => i; apply/forallP => c; rewrite DEF.
  by [].
split=> [b' al i|db da i]; first by rewrite PR.
have DC c : derivable_pt_lim (fun t => val false (alpha + t *: da) i c) 0 (val true alpha i c * da c 0).
  have [w Pw _] := EV true alpha i c.
  have [[w' tr] Ew] := weights_ok c OK; have I := weights_in Ew; have /= T := Pow _ I; subst tr.
  have Pw' := Pos _ I i.
  have S1 al : val false al i c = \sum_(e <- w' i) Rpower e.2 (al c 0) * xw e.1 c by rewrite /val /nl_entry Ew (sprow_pow _ Pw').
  have S2 : val true alpha i c = \sum_(e <- w' i) Rpower e.2 (alpha c 0) * ln e.2 * xw e.1 c by rewrite /val /nl_entry Ew (sprow_powg _ Pw').
  have D := @dl_sum _ (w' i) (fun e t => Rpower e.2 (alpha c 0 + t * da c 0) * xw e.1 c) (fun e => Rpower e.2 (alpha c 0) * ln e.2 * xw e.1 c * da c 0) 0.
  apply: (dl_ext (D _)) => [e|t|].
  - have C := dl_mul (dl_comp (dl_line (alpha c 0) (da c 0) 0) (pow_deriv e.2 _)) (dl_const (xw e.1 c) 0).
    apply: (dl_ext C) => //; rewrite mul0r addr0 mulr0 addr0.
    by move: (Rpower _ _) (ln _) => p l; move: (xw _ _) (da c 0) => u v; mring R_realFieldType.
  - by rewrite S1; apply: eq_bigr => e _; rewrite !mxE.
  - by rewrite S2 mulr_suml.
have DX := dl_line ((x *m b) i 0) ((x *m db) i 0) 0.
have DS := @dl_sum _ (enum 'I_h) (fun c t => val false (alpha + t *: da) i c) (fun c => val true alpha i c * da c 0) 0 DC.
apply: (dl_ext (dl_add DX DS)) => [t|].
- by rewrite PR /= mulmxDr -scalemxAr !mxE.
- rewrite [RHS]mxE; congr (_ + _); rewrite [RHS]mxE big_enum; apply: eq_bigr => c _; by rewrite mxE.
Qed.

(** a stored weight that is zero makes the power gradient nan, whatever the positive parameter *)
Lemma power_zero w c i a e : e \in w i -> e.2 = 0 -> 0 < a -> sprow xw w TPower true a c i = None.
Proof.
move=> I E a0; rewrite /sprow.
apply: (@foldr_oaddN _ (w i) (fun e => omul (nltransform a e.2 TPower true) (Some (xw e.1 c))) e I).
by rewrite /= /np_pow /np_ln E ltxx eqxx a0.
Qed.
End Jac.

(** make_wnslx: distances are not negative and come nearest first *)
Definition nearest_first n (ans : seq (option (R * 'I_n))) : bool :=
  sorted (fun a b : R => a <= b) (0 :: map fst (pmap id (behead ans))).
(** the farthest neighbour of every point gets the power weight zero *)
Lemma wn_last n bounded (ans : seq (option (R * 'I_n))) s : wn_row TPower bounded ans = Some s -> nearest_first ans ->
  (exists d j, Some (d, j) \in behead ans /\ 0 < d) -> exists2 e, e \in s & e.2 = 0.
Proof.
rewrite /wn_row /nearest_first; set l := behead ans; case: bounded.
- move=> [<-] _ [d [j [I d0]]].
  set mx := foldr _ _ _.
  have mp : 0 < mx.
    apply: (lt_le_trans d0); rewrite /mx; clear mx; elim: (l) I => //= e l' IH; rewrite inE => /orP [/eqP <-|/IH H]; first by rewrite le_maxr lexx.
    by rewrite le_maxr H orbT.
  have nz : mx != 0 by rewrite lt0r_neq0.
  have [m [jm [Im Em]]] : exists m jm, Some (m, jm) \in l /\ m = mx.
    have := nz; rewrite /mx; clear I mp nz mx; elim: (l) => [|e l' IH]; first by rewrite eqxx.
    rewrite /= maxEle; case: ifP => _; first by move/IH => [m [jm [Im Em]]]; exists m, jm; rewrite inE Im orbT.
    by case: e => [[m jm]|]; [exists m, jm; rewrite inE eqxx|rewrite eqxx].
  exists (jm, - (m / mx) + 1); last by rewrite /= Em divff // addNr.
  rewrite mem_pmap; apply/mapP; by exists (Some (m, jm)).
- case: ifP => // _ [<-] S [d [j [I d0]]].
  have : (d, j) \in pmap id l by rewrite mem_pmap; apply/mapP; exists (Some (d, j)).
  move: S; set q := pmap id l; move=> S Iq.
  have nz : last 0 (map fst q) != 0.
    apply: lt0r_neq0; apply: (lt_le_trans d0); move: S Iq; rewrite /=; clear; elim: q (0 : R) => //= e q IH z /andP [_ P].
    rewrite inE => /orP [/eqP Ee|H]; last by apply: IH P H.
    move: P; rewrite -Ee /=; clear; elim: q (d) => //= a q IH z /andP [za P]; exact: (le_trans za (IH _ P)).
  case/lastP: q nz {S Iq} => [|q e]; first by rewrite eqxx.
  rewrite map_rcons last_rcons => nz; exists (e.2, - (e.1 / e.1) + 1); last by rewrite /= divff // addNr.
  by rewrite map_rcons mem_rcons inE eqxx.
Qed.
(** so with the power transformation NSLX never reports a covariance matrix, with or without a bandwidth *)
Theorem C53_power_nan_refuted : forall n k h (y : 'cV[R]_n) (x : 'M[R]_(n, k)) (xw : 'M[R]_(n, h.+1)) query bounded w,
  make_wnslx TPower bounded query = Some w -> (forall i, nearest_first (query i)) ->
  (exists i d j, Some (d, j) \in behead (query i) /\ 0 < d) ->
  forall (b : 'cV[R]_k) (alpha : 'cV[R]_h.+1) fval r, (forall c, 0 < alpha c 0) ->
  base_nslx y x xw [:: (w, TPower)] b alpha fval = NOk r -> ns_vm r = None.
Proof.
move=> n k h y x xw query bounded w; rewrite /make_wnslx; case: forallP => // F [Ew] S [i Hi] b alpha fval r apos.
have [e I E] : exists2 e, e \in w i & e.2 = 0.
  have -> : w i = odflt [::] (wn_row TPower bounded (query i)) by rewrite -Ew.
  have := F i; case Er: (wn_row TPower bounded (query i)) => [s|] //= _; exact: (wn_last Er (S i) Hi).
rewrite /base_nslx; case: ifP => // _; case: la_inv => // xtxi.
have -> : nl_wax xw [:: (w, TPower)] alpha = None.
  rewrite /nl_wax; case: forallP => // H; have /forallP /(_ ord0) := H i.
  by rewrite /nl_entry /= (power_zero xw ord0 I E (apos _)).
by case=> <-.
Qed.
