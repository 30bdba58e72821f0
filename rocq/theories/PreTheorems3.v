(** C82: the variance matrices. *)
From Coq Require Import Reals Ring Field.
From mathcomp Require Import all_ssreflect all_algebra.
From mathcomp.fingroup Require Import perm.
From Verif Require Import Rinst Mring LinRegModel LinRegProofs LinRegProofs2 FilterModel MLModel MLSpec MLProofs MLTheorems MLTheorems3 MLTheorems4 Kron PanelModel PanelTheorems
  PanelTheorems2 PfeModel PfeSpec PfeTheorems PfeTheorems2 PfeTheorems3 PfeTheorems5 PreModel PreSpec PreTheorems PreTheorems2.
Set Implicit Arguments.
Unset Strict Implicit.
Unset Printing Implicit Defensive.
Import Order.TTheory GRing.Theory Num.Theory.
Local Open Scope ring_scope.
Add Field Rf : (@p_ft R_realFieldType).

(** information of (beta, rho) when the two variances are known; S: the covariance matrix of the errors up to s2 *)
Definition re_beta_rho_info T n k (x : 'M[R]_(T * n, k)) (W : 'M[R]_n) (b : 'cV[R]_k) (rho s2 : R) (S : 'M[R]_(T * n)) : 'M[R]_(k + 1) :=
  let G := W *m invmx (1%:M - rho *: W) in
  let g := kron (1%:M : 'M[R]_T) G *m (x *m b) in
  block_mx (s2^-1 *: (x^T *m invmx S *m x)) (s2^-1 *: (x^T *m invmx S *m g))
           (s2^-1 *: (g^T *m invmx S *m x)) (T%:R * (\tr (G *m G) + \tr (G^T *m G)) + s2^-1 * (g^T *m invmx S *m g) 0 0)%:M.
Section Vm.
Variables (T n k : nat) (y : 'cV[R]_(T * n)) (x : 'M[R]_(T * n, k)) (W : 'M[R]_n).
Variables (minphi : (R -> option R) -> R) (minrho : (R -> option R) -> R * R) (lu : R -> 'M[R]_n).
Hypothesis T0 : (0 < T)%N.
Hypothesis n0 : (0 < n)%N.
Hypothesis Wd : zero_diag W.
Lemma sigma_inv phi : 0 < phi -> invmx (re_sigma T n 1 ((phi ^- 2 - 1) / T%:R)) = demean_panel (phi ^+ 2) 1%:M.
Proof.
move=> p0; have p1 := lt0r_neq0 p0.
have I : demean_panel (phi ^- 2) (1%:M : 'M[R]_(T * n)) *m demean_panel (phi ^+ 2) 1%:M = 1%:M.
  by rewrite -demean1 demean_comp // mulVf ?C41_full_weight // expf_neq0.
have -> : re_sigma T n 1 ((phi ^- 2 - 1) / T%:R) = demean_panel (phi ^- 2) 1%:M.
  by have := re_sigmaE n T0 (oner_neq0 _) p1; rewrite scale1r mul1r.
have [U _] := mulmx1_unit I; by rewrite -[LHS]mulmx1 -[X in _ *m X]I mulKmx.
Qed.
Lemma demean_pair c d p (a : 'M[R]_(T * n, c)) (b : 'M[R]_(T * n, d)) : (demean_panel p a)^T *m demean_panel p b = a^T *m demean_panel (p ^+ 2) 1%:M *m b.
Proof.
have H : forall D : 'M[R]_(T * n), D^T = D -> (D *m a)^T *m (D *m b) = a^T *m (D *m D) *m b.
  by move=> D Dt; rewrite trmx_mul Dt !mulmxA.
by rewrite (demean1 p a) (demean1 p b) H ?demean_tr // -(demean1 p (demean_panel p 1%:M)) demean_comp.
Qed.
Lemma re_v1E phi b ai rho sig2 : 0 < phi -> ai = invmx (1%:M - rho *: W) ->
  re_lag_v1 (demean_panel phi x) (demean_panel phi x *m b) W ai sig2 =
  re_beta_rho_info x W b rho sig2 (re_sigma T n 1 ((phi ^- 2 - 1) / T%:R)).
Proof.
move=> p0 ->; rewrite /re_lag_v1 /re_beta_rho_info sigma_inv //.
set G := W *m invmx _; set g := kron _ G *m _.
have Eg : w_nt T G *m (demean_panel phi x *m b) = demean_panel phi g.
  have -> : demean_panel phi x *m b = demean_panel phi (x *m b) by rewrite (demean1 phi x) (demean1 phi (x *m b)) mulmxA.
  by rewrite -demean_wp.
have Eq : ((demean_panel phi x *m b)^T *m (w_nt T (G^T *m G) *m (demean_panel phi x *m b))) = (demean_panel phi g)^T *m demean_panel phi g.
  rewrite -w_nt_mul -mulmxA Eg -w_nt_tr; move: (demean_panel phi x *m b) Eg => v Eg; by rewrite mulmxA -trmx_mul Eg.
rewrite Eq Eg !demean_pair //; congr (block_mx _ _ _ _).
  have -> : (x^T *m demean_panel (phi ^+ 2) 1%:M *m g)^T = g^T *m demean_panel (phi ^+ 2) 1%:M *m x; last by [].
  have H : forall D : 'M[R]_(T * n), D^T = D -> (x^T *m D *m g)^T = g^T *m D *m x.
    by move=> D Dt; rewrite !trmx_mul trmxK Dt mulmxA.
  by rewrite H // demean_tr.
congr ((_ * _ + _)%:M); by rewrite mulrC.
Qed.
Lemma final_vm adj s eps mx r : re_lag_final adj y x W s eps mx = Some r ->
  let ai := invmx (1%:M - rl_rho r *: W) in let xd := demean_panel (rl_phi r) x in let xb := xd *m rl_b r in
  [/\ re_lag_info xd xb W ai (rl_phi r) (rl_sig2 r) \in unitmx, rl_vm1 r = invmx (re_lag_info xd xb W ai (rl_phi r) (rl_sig2 r)),
      re_lag_v1 xd xb W ai (rl_sig2 r) \in unitmx, rl_varb r = invmx (re_lag_v1 xd xb W ai (rl_sig2 r)) &
      forall i j : 'I_(k + 1 + 1), rl_vm r i j =
        rl_vm1 r (cast_ord (esym (addnA (k + 1)%N 1%N 1%N)) (lshift 1%N i)) (cast_ord (esym (addnA (k + 1)%N 1%N 1%N)) (lshift 1%N j))].
Proof.
rewrite /re_lag_final; case: power_expansion => [p|//]; case Ea: la_inv => [ai|//]; case Ev: la_inv => [v|//]; case Ew: la_inv => [w|//] [<-] /=.
have {Ea} Ea : ai = invmx (1%:M - rs_rho s *: W) by case: (la_invP Ea) => _ ->; rewrite a_ofE.
case: (la_invP Ev) (la_invP Ew) => U1 -> [U2 ->]; rewrite Ea in U1 U2 *; split=> // i j; by rewrite mxE.
Qed.
(** C82: varb is the inverse of the information matrix of (beta, rho) given the two variances *)
(* partial; missing: vm, whose phi row is wrong (C82_vm_symmetric_refuted, C82_negative_variance_refuted) *)
Theorem C82_varb_partial : forall adj eps mx r, base_re_lag adj minphi minrho lu y x W eps mx = Some r -> 0 < rl_phi r ->
  rl_varb r *m re_beta_rho_info x W (rl_b r) (rl_rho r) (rl_sig2 r) (re_sigma T n 1 ((rl_phi r ^- 2 - 1) / T%:R)) = 1%:M.
Proof.
move=> adj eps mx r /base_final [s _ Hf] p0; have [_ _ U -> _] := final_vm Hf.
by rewrite -(re_v1E _ _ p0 (erefl _)) mulVmx.
Qed.
Lemma sig2_neq0 adj s eps mx r : re_lag_final adj y x W s eps mx = Some r -> rl_sig2 r != 0.
Proof.
move=> Hf; have [U _ _ _ _] := final_vm Hf; apply/negP => /eqP Z; move: U; rewrite Z /re_lag_info.
set M := block_mx _ _ _ _ => U.
have Hz : delta_mx 0 (rshift (k + 1) (rshift 1 0)) *m M = 0 :> 'rV[R]_(k + 1 + (1 + 1)).
  rewrite -rowE; apply/matrixP => i j; rewrite [LHS]mxE [RHS]mxE /M -[j]splitK; case: (split j) => a; rewrite /= ?block_mxEdl ?block_mxEdr.
    rewrite -[a]splitK; case: (split a) => c; rewrite /= ?row_mxEl ?row_mxEr ?col_mxEd mxE //.
    by rewrite ord1 eqxx invr0 mulr0.
  rewrite -[a]splitK; case: (split a) => c; rewrite /= ?block_mxEdl ?block_mxEdr mxE ?expr0n ?mulr0 ?invr0 ?mulr0 ?mul0rn //.
have := congr1 (mulmx^~ (invmx M)) Hz; rewrite mulmxK // mul0mx => /matrixP/(_ 0 (rshift (k + 1) (rshift 1 0))).
by rewrite !mxE !eqxx => /eqP; rewrite oner_eq0.
Qed.
(** the information matrix of the code is not symmetric unless sig2 = 1, so neither is vm1: it is no covariance matrix *)
Theorem C82_vm_symmetric_refuted : forall adj eps mx r, base_re_lag adj minphi minrho lu y x W eps mx = Some r ->
  rl_sig2 r != 1 -> (rl_vm1 r)^T <> rl_vm1 r.
Proof.
move=> adj eps mx r /base_final [s _ Hf] s1; have s0 := sig2_neq0 Hf; have [U -> _ _ _] := final_vm Hf; rewrite trmx_inv => H.
have := congr1 invmx H; rewrite !invmxK => /matrixP/(_ (rshift (k + 1) (lshift 1 0)) (rshift (k + 1) (rshift 1 0))).
rewrite /re_lag_info mxE !block_mxEdr block_mxEdl block_mxEur !mxE eqxx !mulr1n => /eqP.
have nn : - n%:R != 0 :> R by rewrite oppr_eq0 pnatr_eq0 -lt0n.
rewrite (inj_eq (mulfI nn)) (inj_eq invr_inj) expr2 -subr_eq0 -[X in X - _]mulr1 -mulrBr mulf_eq0 (negbTE s0) subr_eq0 eq_sym.
by rewrite (negbTE s1).
Qed.
(** C82: the rows and columns of beta, rho and sigma2 in the inverse of vm1 are the expected information for a known phi *)
Theorem C82_info : forall adj eps mx r, base_re_lag adj minphi minrho lu y x W eps mx = Some r -> 0 < rl_phi r ->
  let I := invmx (rl_vm1 r) in let G := W *m invmx (1%:M - rl_rho r *: W) in
  let rho_ix : 'I_(k + 1) := rshift k 0 in let s2_ix : 'I_(k + 1 + (1 + 1)) := rshift (k + 1) (rshift 1 0) in
  [/\ ulsubmx I = re_beta_rho_info x W (rl_b r) (rl_rho r) (rl_sig2 r) (re_sigma T n 1 ((rl_phi r ^- 2 - 1) / T%:R)),
      I s2_ix s2_ix = (T * n)%:R / (2%:R * rl_sig2 r ^+ 2),
      I s2_ix (lshift _ rho_ix) = T%:R * \tr G / rl_sig2 r /\ I (lshift _ rho_ix) s2_ix = T%:R * \tr G / rl_sig2 r &
      forall j : 'I_k, I s2_ix (lshift _ (lshift 1 j)) = 0 /\ I (lshift _ (lshift 1 j)) s2_ix = 0].
Proof.
move=> adj eps mx r /base_final [s _ Hf] p0; have [U -> _ _ _] := final_vm Hf; rewrite invmxK; cbv zeta.
rewrite /re_lag_info block_mxKul -(re_v1E _ _ p0 (erefl _)) /tr1_of -/(mxtrace _); split=> //.
- by rewrite !block_mxEdr mxE eqxx mulr1n.
- by rewrite block_mxEdl row_mxEr col_mxEd block_mxEur col_mxEd row_mxEr !mxE eqxx mulr1n.
- by move=> j; rewrite block_mxEdl row_mxEl block_mxEur col_mxEu !mxE.
Qed.
(** the position of phi in vm *)
Definition phi_ix : 'I_(k + 1 + 1) := rshift (k + 1) 0.
Lemma vm_phi adj s eps mx r : re_lag_final adj y x W s eps mx = Some r -> rl_vm r phi_ix phi_ix = ulsubmx (drsubmx (rl_vm1 r)) 0 0.
Proof.
move=> Hf; have [_ _ _ _ ->] := final_vm Hf; rewrite !mxE.
have -> // : cast_ord (esym (addnA (k + 1)%N 1%N 1%N)) (lshift 1%N phi_ix) = rshift (k + 1) (lshift 1 0) by apply/val_inj.
Qed.
(** C82: when rho = 0 the variance reported for phi is 1 / (N (1 + 1 / phi^2 - 2 / (T sig2))) *)
Theorem C82_phi_variance : forall adj eps mx r, base_re_lag adj minphi minrho lu y x W eps mx = Some r -> rl_rho r = 0 -> 0 < rl_phi r ->
  rl_vm r phi_ix phi_ix * (n%:R * (1 + 1 / rl_phi r ^+ 2 - 2%:R / (T%:R * rl_sig2 r))) = 1.
Proof.
move=> adj eps mx r /base_final [s _ Hf] r0 p0; have s0 := sig2_neq0 Hf; have [U Ev _ _ _] := final_vm Hf; rewrite (vm_phi Hf).
have : rl_vm1 r *m re_lag_info (demean_panel (rl_phi r) x) (demean_panel (rl_phi r) x *m rl_b r) W (invmx (1%:M - rl_rho r *: W)) (rl_phi r) (rl_sig2 r) = 1%:M.
  by rewrite Ev mulVmx.
rewrite r0 scale0r subr0 /re_lag_info invmx1 mulmx1.
have -> : tr1_of W = 0 by rewrite /tr1_of big1 // => i _; exact: Wd.
rewrite oppr0 mulr0 !mul0r raddf0 row_mx0 !col_mx0 row_mx0 -[X in X *m _]submxK mulmx_block !mulmx0 !addr0 !add0r.
rewrite (scalar_mx_block (k + 1) (1 + 1)) => /eq_block_mx [_ _ _ +].
rewrite -[X in X *m _]submxK mulmx_block (scalar_mx_block 1 1) => /eq_block_mx [Ha Hb _ _].
move: (congr1 (fun M : 'M[R]_1 => M 0 0) Ha) (congr1 (fun M : 'M[R]_1 => M 0 0) Hb) => {Ha Hb}.
rewrite !mul_mx_scalar !mxE eqxx mulr1n.
move: (rl_vm1 r _ _) (rl_vm1 r _ _) => q p.
have n1 : n%:R != 0 :> R by rewrite pnatr_eq0 -lt0n.
have t1 : T%:R != 0 :> R by rewrite pnatr_eq0 -lt0n.
have t2 : 2%:R != 0 :> R by rewrite pnatr_eq0.
have p1 := lt0r_neq0 p0.
rewrite natrM; move: (n%:R : R) (T%:R : R) (2%:R : R) n1 t1 t2 => N t tw n1 t1 t2 H1 H2.
have D : p * (N * (1 + 1 / rl_phi r ^+ 2) * (t * N / (tw * rl_sig2 r ^+ 2)) - (- N / rl_sig2 r ^+ 2) * (- N / rl_sig2 r)) = t * N / (tw * rl_sig2 r ^+ 2).
  rewrite -[RHS]mul1r -[X in _ = X * _]H1; have := congr1 (fun z => z * (- N / rl_sig2 r)) H2; rewrite mul0r.
  move: (1 + _) (- N / rl_sig2 r ^+ 2) (- N / rl_sig2 r) (t * N / _) => a1 b1 c1 d1 Z; apply/eqP; rewrite -subr_eq0 -oppr_eq0; apply/eqP.
  rewrite -[RHS]Z.
mring R_realFieldType.
have d : t * N / (tw * rl_sig2 r ^+ 2) != 0 by rewrite !mulf_neq0 // invr_neq0 // mulf_neq0 // expf_neq0.
apply: (mulIf d); rewrite [RHS]mul1r -[RHS]D -[LHS]mulrA; congr (p * _).
move: (rl_sig2 r) (rl_phi r) s0 p1 => sg ph s0 p1.
mfield R_realFieldType; by repeat split; apply/eqP.
Qed.
End Vm.
