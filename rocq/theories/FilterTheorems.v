(** Property theorems C22 (power expansion), C23 (reduced-form prediction), C24 (filter).  spreg/utils.py:423-777. *)
From mathcomp Require Import all_ssreflect all_algebra.
From Verif Require Import LinRegModel LinRegProofs LinRegProofs3 FilterModel FilterProofs.
Set Implicit Arguments.
Unset Strict Implicit.
Unset Printing Implicit Defensive.
Import Order.TTheory GRing.Theory Num.Theory.
Local Open Scope ring_scope.

(** the i-th term (rho W)^i v of the series, and the value tested before pass i+1 (10^7 before the first) *)
Definition term (R : rcfType) n k (W : 'M[R]_n) (rho : R) (v : 'M[R]_(n, k)) (i : nat) : 'M[R]_(n, k) := iter i (mulmx (rho *: W)) v.
Definition tested (R : rcfType) n k (W : 'M[R]_n) (rho : R) (v : 'M[R]_(n, k)) (i : nat) : R :=
  if i is 0 then 10%:R ^+ 7 else la_norm (term W rho v i).

Lemma tstE (R : rcfType) n k (W : 'M[R]_n) rho (v : 'M[R]_(n, k)) i :
  tst (fun z => rho *: (W *m z)) v (test0 R) i = tested W rho v i.
Proof. case: i => [|i]; [reflexivity|by rewrite /tst /tested /term step_iter]. Qed.

(** C22: what is returned. *)
Theorem C22_truncated_inverse : forall (R : rcfType) n k (W : 'M[R]_n) (v : 'M[R]_(n, k)) (rho threshold : R) max_iterations s,
  power_expansion W v rho threshold max_iterations = Done s ->
  exists m, [/\ (m <= max_iterations)%N,
    s = \sum_(i < m.+1) term W rho v i,
    (1%:M - rho *: W) *m s = v - term W rho v m.+1,
    m = max_iterations \/ tested W rho v m <= threshold
  & forall i, (i < m)%N -> threshold < tested W rho v i /\ tested W rho v i.+1 <= tested W rho v i].
Proof.
move=> R n k W v rho thr mx s; rewrite /power_expansion => /pe_loop_done [m [Hm Hs Hend Hthr Hdec]].
exists m; split => //.
- rewrite Hs big_ord_recl; congr (_ + _); apply: eq_bigr => i _.
  by rewrite lift0 step_iter.
- rewrite Hs -geom_tel; congr (_ *m (_ + _)); apply: eq_bigr => i _; by rewrite step_iter.
- by rewrite -tstE.
- by move=> i Hi; rewrite -!tstE; split; [apply: Hthr|apply: Hdec].
Qed.

(** C22: exactly when it raises: before any tested value falls to the threshold, one increment is larger than the one before
    (the first one: larger than 10^7). *)
Theorem C22_raises_iff : forall (R : rcfType) n k (W : 'M[R]_n) (v : 'M[R]_(n, k)) (rho threshold : R) max_iterations,
  power_expansion W v rho threshold max_iterations = Raised <->
  exists m, [/\ (m < max_iterations)%N, (forall i, (i <= m)%N -> threshold < tested W rho v i),
    (forall i, (i < m)%N -> tested W rho v i.+1 <= tested W rho v i) & tested W rho v m < tested W rho v m.+1].
Proof.
move=> R n k W v rho thr mx; rewrite /power_expansion pe_loop_raised; split; case=> m [H1 H2 H3 H4]; exists m; split => //.
- by move=> i Hi; rewrite -tstE; apply: H2.
- by move=> i Hi; rewrite -!tstE; apply: H3.
- by rewrite -!tstE.
- by move=> i Hi; rewrite tstE; apply: H2.
- by move=> i Hi; rewrite !tstE; apply: H3.
- by rewrite !tstE.
Qed.

(** C22: accuracy: if rho W shrinks norms by a factor c and the loop ended by the threshold, the defect of the returned solution is
    at most c * threshold. *)
Theorem C22_accuracy : forall (R : rcfType) n k (W : 'M[R]_n) (v : 'M[R]_(n, k)) (rho threshold c : R) max_iterations s,
  power_expansion W v rho threshold max_iterations = Done s ->
  (forall z : 'M[R]_(n, k), la_norm (rho *: W *m z) <= c * la_norm z) -> 0 <= c ->
  threshold < 10%:R ^+ 7 ->
  (exists m, (m < max_iterations)%N /\ tested W rho v m <= threshold) ->
  la_norm (v - (1%:M - rho *: W) *m s) <= c * threshold.
Proof.
move=> R n k W v rho thr c mx s H Hc c0 Ht [m' [Hm' Hle]].
have [m [Hm _ Hs Hend Hbef]] := C22_truncated_inverse H.
have Hm2 : (m <= m')%N by rewrite leqNgt; apply/negP => /Hbef [+ _]; rewrite ltNge Hle.
have Hend' : tested W rho v m <= thr.
  case: Hend => // Em; by move: (leq_ltn_trans Hm2 Hm'); rewrite Em ltnn.
have Hm0 : (0 < m)%N by case: (m) Hend' => //=; rewrite leNgt Ht.
rewrite Hs opprB addrCA subrr addr0 /term iterS; apply: le_trans (Hc _) _.
apply: ler_wpmul2l => //; move: Hend'; by case: (m) Hm0.
Qed.

(** C22: the transposed variant. *)
Theorem C22_truncated_inverse_post : forall (R : rcfType) n k (W : 'M[R]_n) (v : 'M[R]_(n, k)) (rho threshold : R) max_iterations s,
  power_expansion_post W v rho threshold max_iterations = Done s ->
  exists m, (m <= max_iterations)%N /\ s *m (1%:M - rho *: W) = v^T - iter m.+1 (fun z => z *m (rho *: W)) v^T.
Proof.
move=> R n k W v rho thr mx s; rewrite /power_expansion_post => /pe_loop_done [m [Hm -> _ _ _]]; exists m; split => //.
have E i : iter i (fun z => rho *: (z *m W)) v^T = iter i (fun z => z *m (rho *: W)) v^T.
  by elim: i => //= i ->; rewrite -scalemxAr.
elim: m {Hm} => [|m IH].
- by rewrite big_ord0 addr0 mulmxBr mulmx1.
- rewrite big_ord_recr /= addrA mulmxDl IH /= mulmxBr mulmx1 !E.
  by rewrite -!scalemxAr addrA subrK.
Qed.

(** C22: the exact method: it raises exactly on singular I - rho W, and otherwise solves the system. *)
Theorem C22_true_inverse : forall (R : rcfType) n k (W : 'M[R]_n) (v : 'M[R]_(n, k)) (rho : R),
  (forall s, true_inv_prod W v rho = Done s -> (1%:M - rho *: W) *m s = v) /\
  (true_inv_prod W v rho = Raised <-> (1%:M - rho *: W) \notin unitmx) /\
  (forall s threshold mx t, true_inv_prod W v rho = Done s -> power_expansion W v rho threshold mx = Done t ->
     exists m, s - t = invmx (1%:M - rho *: W) *m term W rho v m.+1).
Proof.
move=> R n k W v rho; rewrite /true_inv_prod; split; last split.
- move=> s; case E: la_inv => [M|//] [<-]; have [U ->] := la_invP E; by rewrite mulmxA mulmxV // mul1mx.
- by rewrite /la_inv; case: ifP => U; split.
- move=> s thr mx t; case E: la_inv => [M|//] [<-]; have [U ->] := la_invP E => /C22_truncated_inverse [m [_ _ Ht _ _]].
  exists m; have -> : term W rho v m.+1 = v - (1%:M - rho *: W) *m t by rewrite Ht opprB addrCA subrr addr0.
  by rewrite mulmxBr mulmxA mulVmx // mul1mx.
Qed.

(** C22, the expectation that a contracting expansion never raises.  It fails: data of norm beyond 10^7 are refused although
    every increment is half the previous one. *)
Definition swap2 (R : rcfType) : 'M[R]_2 := \matrix_(i, j) (if i == j then 0 else 1).
Theorem C22_contraction_refuted : forall R : rcfType,
  ~ (forall (W : 'M[R]_2) (v : 'cV[R]_2) (rho : R), (forall z : 'cV[R]_2, la_norm (rho *: W *m z) <= 2%:R^-1 * la_norm z) ->
     exists s, power_expansion W v rho 1 10 = Done s).
Proof.
move=> R H.
have N : forall z : 'cV[R]_2, la_norm (2%:R^-1 *: swap2 R *m z) = 2%:R^-1 * la_norm z.
  move=> z; rewrite /la_norm.
  have -> : \sum_i \sum_j (2%:R^-1 *: swap2 R *m z) i j ^+ 2 = (2%:R^-1) ^+ 2 * (\sum_i \sum_j z i j ^+ 2).
    rewrite !big_ord_recl !big_ord0 !mxE !big_ord_recl !big_ord0 !mxE /= !addr0.
    by rewrite ?mulr0 ?mulr1 ?add0r ?mul0r ?addr0 ?add0r !exprMn -mulrDr addrC.
  by rewrite sqrtrM ?sqr_ge0 // sqrtr_sqr ger0_norm ?invr_ge0 ?ler0n.
pose v : 'cV[R]_2 := const_mx (10%:R ^+ 8).
case: (H (swap2 R) v 2%:R^-1); first by move=> z; rewrite N.
move=> s Hs.
have : power_expansion (swap2 R) v 2%:R^-1 1 10 = Raised.
  apply/C22_raises_iff; exists 0%N; split => //.
  - by case=> // _; rewrite /tested exprn_egt1 ?ltr1n.
  - rewrite /tested /term [iter _ _ _]/= N /la_norm.
    have -> : \sum_i \sum_j v i j ^+ 2 = 2%:R * (10%:R ^+ 8) ^+ 2.
      by rewrite !big_ord_recl !big_ord0 !mxE !addr0 mulr_natl mulr2n.
    apply: (@lt_le_trans _ _ (2%:R^-1 * (10%:R ^+ 8))).
      rewrite mulrC ltr_pdivl_mulr ?ltr0n // (exprSr _ 7) ltr_pmul2l ?exprn_gt0 ?ltr0n // ltr_nat //.
    apply: ler_wpmul2l; first by rewrite invr_ge0 ler0n.
    have p0 : (0 : R) <= 10%:R ^+ 8 by rewrite exprn_ge0 ?ler0n.
    rewrite -[X in X <= _](ger0_norm p0) -sqrtr_sqr; apply: ler_wsqrtr.
    by rewrite ler_pemull ?sqr_ge0 // ler1n.
by rewrite Hs.
Qed.

(** C23: reduced-form prediction.  xb = predy - rho W y is the part of the fitted value that is not the spatial lag. *)
Theorem C23_reduced_form : forall (R : rcfType) n (W : 'M[R]_n) (y predy : 'cV[R]_n) (rho threshold : R) (hard : bool) mx p e warn,
  `|rho| < 1 -> sp_att W y predy (W *m y) rho hard threshold mx = Done (p, e, warn) ->
  let xb := predy - rho *: (W *m y) in
  warn = false /\ e = y - p /\
  exists m, [/\ (m <= mx)%N, (1%:M - rho *: W) *m p = xb - term W rho xb m.+1 & m = mx \/ tested W rho xb m <= threshold].
Proof.
move=> R n W y predy rho thr hard mx p e warn Hrho; rewrite /sp_att Hrho.
case E: power_expansion => [s|//] [<- <- <-] /=; split => //; split => //.
have [m [H1 _ H2 H3 _]] := C22_truncated_inverse E; by exists m.
Qed.

(** C23: outside the unit interval: an exception when the bounds are hard, otherwise a warning, with zero predictions and zero errors. *)
Theorem C23_out_of_bounds : forall (R : rcfType) n (W : 'M[R]_n) (y predy w_y : 'cV[R]_n) (rho threshold : R) mx,
  1 <= `|rho| ->
  sp_att W y predy w_y rho true threshold mx = Raised /\ sp_att W y predy w_y rho false threshold mx = Done (0, 0, true).
Proof. by move=> R n W y predy w_y rho thr mx H; rewrite /sp_att ltNge H. Qed.

(** C23, the expectation prediction + error = y: it fails outside the bounds, and only there. *)
Theorem C23_sum_refuted : forall R : rcfType,
  ~ (forall n (W : 'M[R]_n) (y predy : 'cV[R]_n) (rho threshold : R) mx p e warn,
     sp_att W y predy (W *m y) rho false threshold mx = Done (p, e, warn) -> p + e = y).
Proof.
move=> R H; have := @H 1%N 0 (const_mx 1) 0 1 1 1%N 0 0 true.
rewrite /sp_att normr1 ltxx => /(_ erefl) /matrixP /(_ 0 0); rewrite !mxE addr0 => /eqP; by rewrite eq_sym oner_eq0.
Qed.
Theorem C23_sum : forall (R : rcfType) n (W : 'M[R]_n) (y predy w_y : 'cV[R]_n) (rho threshold : R) hard mx p e warn,
  sp_att W y predy w_y rho hard threshold mx = Done (p, e, warn) -> (warn = false -> p + e = y) /\ (warn = true <-> 1 <= `|rho|).
Proof.
move=> R n W y predy w_y rho thr hard mx p e warn; rewrite /sp_att; case: ifP => Hr.
- case: power_expansion => // s [<- <- <-]; rewrite addrCA subrr addr0; split => //; split => //; by rewrite leNgt Hr.
- case: hard => // -[_ _ <-]; split => //; split => // _; by rewrite leNgt Hr.
Qed.

(** C24: the filter is (I - lam W) x: linear, the identity at lam = 0. *)
Theorem C24_filter : forall (R : rcfType) n k (W : 'M[R]_n) (lam : R) (x : 'M[R]_(n, k)),
  sp_filter W lam x = (1%:M - lam *: W) *m x /\ sp_filter W 0 x = x.
Proof.
by move=> R n k W lam x; rewrite /sp_filter mulmxBl mul1mx scalemxAl scale0r subr0.
Qed.
Theorem C24_linear : forall (R : rcfType) n k m (W : 'M[R]_n) (lam a : R) (x z : 'M[R]_(n, k)) (b : 'M[R]_(k, m)),
  sp_filter W lam (a *: x + z) = a *: sp_filter W lam x + sp_filter W lam z /\ sp_filter W lam (x *m b) = sp_filter W lam x *m b.
Proof.
move=> R n k m W lam a x z b; rewrite !(C24_filter W lam _).1 mulmxDr -scalemxAr; split => //; by rewrite mulmxA.
Qed.
(** C24: on stacked panel data, row t * n + i: filtered within period t with W. *)
Theorem C24_panel : forall (R : rcfType) T n k (W : 'M[R]_n.+1) (lam : R) (x : 'M[R]_(T * n.+1, k)) (t : 'I_T) (i : 'I_n.+1) (a : 'I_(T * n.+1)) j,
  (a = t * n.+1 + i :> nat)%N ->
  exists b : 'I_n.+1 -> 'I_(T * n.+1), (forall l, b l = t * n.+1 + l :> nat)%N /\
    sp_filter_panel W lam x a j = x a j - lam * \sum_l W i l * x (b l) j.
Proof.
move=> R T n k W lam x t i a j Ha.
have Hb (l : 'I_n.+1) : (t * n.+1 + l < T * n.+1)%N.
  by apply: (@leq_trans (t.+1 * n.+1)%N); [rewrite mulSn addnC ltn_add2r|rewrite leq_mul2r ltn_ord orbT].
pose b l := Ordinal (Hb l).
exists b; split => //.
rewrite /sp_filter_panel !mxE; congr (_ - _ * _).
have Hdiv (l : 'I_n.+1) : ((t * n.+1 + l) %/ n.+1 = t)%N by rewrite divnMDl // divn_small ?addn0.
have Hmod (l : 'I_n.+1) : ((t * n.+1 + l) %% n.+1 = l)%N by rewrite modnMDl modn_small.
rewrite (bigID (fun c : 'I_(T * n.+1) => (c %/ n.+1 == t)%N)) /= [X in _ + X]big1 ?addr0; last first.
  by move=> c Hc; rewrite mxE Ha Hdiv eq_sym (negbTE Hc) mul0r.
rewrite (reindex_onto b (fun c : 'I_(T * n.+1) => inord (c %% n.+1))) /=; last first.
  move=> c /eqP Hc; apply: val_inj; rewrite /= inordK ?ltn_mod // -{1}Hc; exact/esym/divn_eq.
apply: eq_big => [l|l _]; first by rewrite Hdiv eqxx Hmod inord_val eqxx.
by rewrite mxE /= Ha !Hdiv eqxx !Hmod !inord_val.
Qed.

(** Non-trivial cases: two neighbours, rho = 1/2. *)
Example C22_witness (R : rcfType) : exists s, power_expansion (swap2 R) (const_mx 1 : 'cV[R]_2) 2%:R^-1 1 2 = Done s /\ s != 0.
Proof.
rewrite /power_expansion /= /test0.
have T0 : (1 : R) < 10%:R ^+ 7 by rewrite exprn_egt1 ?ltr1n.
have I1 : 2%:R^-1 *: (swap2 R *m const_mx 1) = const_mx 2%:R^-1 :> 'cV[R]_2.
  apply/matrixP => i j; rewrite !mxE !big_ord_recl big_ord0 !mxE addr0.
  by case: i => [[|[|//]] Hi] /=; rewrite ?mulr1 ?mul0r ?add0r ?addr0 ?mulr1.
have N1 : la_norm (const_mx 2%:R^-1 : 'cV[R]_2) <= 1.
  rewrite /la_norm !big_ord_recl !big_ord0 !mxE !addr0 -[X in _ <= X]sqrtr1; apply: ler_wsqrtr.
  rewrite -mulr2n -mulr_natl expr2 mulrA divff ?pnatr_eq0 // mul1r invf_le1 ?ltr0n // ler1n //.
rewrite T0 I1 ltNge (le_trans N1 (ltW T0)) /=.
exists (const_mx 1 + const_mx 2%:R^-1); split; first by case: ifP => // H; move: H; rewrite ltNge N1.
apply/eqP => /matrixP /(_ 0 0); rewrite !mxE => /eqP; rewrite paddr_eq0 ?ler01 ?invr_ge0 ?ler0n // oner_eq0 //.
Qed.
Print Assumptions C22_truncated_inverse.
Print Assumptions C22_contraction_refuted.
Print Assumptions C23_reduced_form.
Print Assumptions C24_panel.
