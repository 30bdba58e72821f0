(** Property theorems C10 (Wald), C14-C15 (OLS), C16 (regimes pooled = separate), C17 (weighted LS), C18 (robust),
    C19 (2SLS), C33 (fit measures).  Exact arithmetic over any real field. *)
From mathcomp Require Import all_ssreflect all_algebra.
From Verif Require Import LinRegModel LinRegProofs LinRegProofs2 LinRegProofs3.
Set Implicit Arguments.
Unset Strict Implicit.
Unset Printing Implicit Defensive.
Import Order.TTheory GRing.Theory Num.Theory.
Local Open Scope ring_scope.

(** C14: the fit exists iff the regressors are linearly independent *)
Theorem C14_ols_fails_iff_dependent : forall (R : realFieldType) n k (y : 'cV[R]_n) (x : 'M[R]_(n, k)) rb g s,
  base_ols y x rb g s = None <-> exists2 c : 'cV[R]_k, c != 0 & x *m c = 0.
Proof. by move=> *; apply: ols_None. Qed.

(** C14: normal equations, orthogonality, decomposition *)
Theorem C14_ols_normal_equations : forall (R : realFieldType) n k (y : 'cV[R]_n) (x : 'M[R]_(n, k)) rb g s o,
  base_ols y x rb g s = Some o ->
  [/\ x^T *m x *m o_betas o = x^T *m y, (forall j : 'I_k, \sum_i x i j * o_u o i 0 = 0),
      o_predy o = x *m o_betas o & y = o_predy o + o_u o].
Proof.
move=> R n k y x rb g s o H; have [_ _ P U _] := ols_fields H; split=> //.
- exact: ols_normal H.
- move=> j; have := congr1 (fun z : 'cV[R]_k => z j 0) (ols_orth H); rewrite [X in X = _]mxE [X in _ = X]mxE => E.
  by rewrite -[RHS]E; apply: eq_bigr => i _; rewrite mxE.
- by rewrite U addrC subrK.
Qed.

(** C14: least squares, attained only by the reported coefficients *)
Theorem C14_ols_least_squares : forall (R : realFieldType) n k (y : 'cV[R]_n) (x : 'M[R]_(n, k)) rb g s o,
  base_ols y x rb g s = Some o ->
  forall b : 'cV[R]_k,
    \sum_i (o_u o i 0) ^+ 2 <= \sum_i ((y - x *m b) i 0) ^+ 2 /\
    (\sum_i ((y - x *m b) i 0) ^+ 2 <= \sum_i (o_u o i 0) ^+ 2 -> b = o_betas o).
Proof.
move=> R n k y x rb g s o H b; have E := ols_min b H.
rewrite -/(utu_of (o_u o)) -/(utu_of (y - x *m b)) E; split; first by rewrite ler_addl utu_ge0.
rewrite -ler_subr_addl subrr => H0.
have /eqP : utu_of (x *m (b - o_betas o)) == 0 by rewrite eq_le H0 utu_ge0.
move/eqP; rewrite utu_eq0 => /eqP Hx; apply/eqP; rewrite -subr_eq0; apply/eqP.
exact: (proj1 (gram_unit x) (ols_gram H)).
Qed.

(** C15 *)
Theorem C15_ols_recombination : forall (R : realFieldType) n k (y : 'cV[R]_n) (x : 'M[R]_(n, k)) (A : 'M[R]_k) s o,
  A \in unitmx -> base_ols y x RobNone None s = Some o ->
  exists2 o', base_ols y (x *m A) RobNone None s = Some o' &
  [/\ o_betas o' = invmx A *m o_betas o, o_predy o' = o_predy o, o_u o' = o_u o, o_sig2 o' = o_sig2 o &
      o_vm o' = invmx A *m o_vm o *m (invmx A)^T].
Proof. by move=> *; apply: ols_recomb. Qed.

Theorem C15_ols_shift : forall (R : realFieldType) n k (y : 'cV[R]_n) (x : 'M[R]_(n, k)) (c : 'cV[R]_k) s o,
  base_ols y x RobNone None s = Some o ->
  exists2 o', base_ols (y + x *m c) x RobNone None s = Some o' &
  [/\ o_betas o' = o_betas o + c, o_u o' = o_u o, o_predy o' = o_predy o + x *m c & o_vm o' = o_vm o].
Proof. by move=> *; apply: ols_shift. Qed.

(** symmetry, vm = sig2 (x'x)^-1, and positive definiteness when the fit is not exact and k < n *)
Theorem C15_ols_vm : forall (R : realFieldType) n k (y : 'cV[R]_n) (x : 'M[R]_(n, k)) s o,
  base_ols y x RobNone None s = Some o ->
  [/\ o_vm o *m (x^T *m x) = (o_sig2 o)%:M, (o_vm o)^T = o_vm o &
      (k < n)%N -> o_u o != 0 -> forall c : 'cV[R]_k, c != 0 -> 0 < (c^T *m o_vm o *m c) 0 0].
Proof.
move=> R n k y x s o H; have U := ols_gram H; have HS := invmx_sym (gram_sym x).
have Ev : o_vm o = o_sig2 o *: invmx (x^T *m x) by move: H; rewrite (ols_Some _ _ _ _ U) => -[<-].
have Es : o_sig2 o = sig2_of k s (o_u o) by move: H; rewrite (ols_Some _ _ _ _ U) => -[<-].
split.
- by rewrite Ev -scalemxAl mulVmx // scalemx1.
- by rewrite Ev linearZ /= HS.
- move=> kn u0 c c0; have s0 : 0 < o_sig2 o.
  { have uu : 0 < utu_of (o_u o) by rewrite lt0r utu_ge0 andbT utu_eq0.
    rewrite Es /sig2_of; case: s {H Es} => /=; apply: divr_gt0 => //; first by rewrite subr_gt0 ltr_nat.
    by rewrite ltr0n; apply: leq_trans kn. }
  by rewrite Ev; apply: (proj2 (pd_scale s0 (pd_inv (gram_pd U)))).
Qed.

(** a concrete fit: y = (1,2,4), x = [1, t], t = 0,1,2 over the rationals *)
Definition ex_x : 'M[rat]_(3, 2) := \matrix_(i, j) (if j == 0 then 1 else (i : nat)%:R).
Definition ex_y : 'cV[rat]_3 := \col_i (if (i : nat) == 2%N then 4%:R else (i : nat)%:R + 1).
Lemma ex_indep (c : 'cV[rat]_2) : ex_x *m c = 0 -> c = 0.
Proof.
move=> H; have H0 := congr1 (fun z : 'cV[rat]_3 => z 0 0) H; have H1 := congr1 (fun z : 'cV[rat]_3 => z 1 0) H.
move: H0 H1; rewrite !mxE !big_ord_recl !big_ord0 !mxE /= !addr0 !mul1r !mul0r !addr0 => c0; rewrite c0 add0r => c1.
apply/colP => i; rewrite mxE; case: i => [[|[|i]] Hi] //.
- by rewrite -[RHS]c0; congr (c _ _); apply: val_inj.
- by rewrite -[RHS]c1; congr (c _ _); apply: val_inj.
Qed.
Example C14_witness : base_ols ex_y ex_x RobNone None true <> None /\
  (1%:M : 'M[rat]_2) \in unitmx /\ (2 < 3)%N.
Proof.
split; last by rewrite unitmx1.
by move/C14_ols_fails_iff_dependent => -[c /eqP c0 /ex_indep].
Qed.

(** C10 *)
Theorem C10_wald_zero_and_sign : forall (R : realFieldType) k r (b : 'cV[R]_k) (Rm : 'M[R]_(r, k)) (q : 'cV[R]_r) (vm : 'M[R]_k),
  pd vm -> (forall c : 'cV[R]_r, Rm^T *m c = 0 -> c = 0) ->
  exists2 w, wald_w b Rm q vm = Some w & [/\ 0 <= w, (w == 0) = (Rm *m b == q) & Rm *m b != q -> 0 < w].
Proof.
move=> R k r b Rm q vm HP HR; have PD := rvr_pd HP HR; have U := pd_unit PD.
rewrite /wald_w la_inv_unit //; eexists; first by [].
have PI := pd_inv PD; rewrite mulmxA.
case E: (Rm *m b == q).
- by move/eqP: E => ->; rewrite subrr mulmx0 mxE eqxx lexx.
- have v0 : Rm *m b - q != 0 by rewrite subr_eq0 E.
  have W := (proj2 PI) _ v0; split=> //; first exact: ltW.
  by apply/negbTE; rewrite gt_eqF.
Qed.

Theorem C10_wald_zero_any_vm : forall (R : realFieldType) k r (b : 'cV[R]_k) (Rm : 'M[R]_(r, k)) (q : 'cV[R]_r) (vm : 'M[R]_k) w,
  Rm *m b = q -> wald_w b Rm q vm = Some w -> w = 0.
Proof. by move=> R k r b Rm q vm w <-; rewrite /wald_w; case: la_inv => // B [<-]; rewrite subrr mulmx0 mulmx0 mxE. Qed.

Theorem C10_wald_invariant : forall (R : realFieldType) k r (b : 'cV[R]_k) (Rm : 'M[R]_(r, k)) (q : 'cV[R]_r) (vm : 'M[R]_k) (A : 'M[R]_r),
  A \in unitmx -> wald_w b (A *m Rm) (A *m q) vm = wald_w b Rm q vm.
Proof. by move=> *; apply: wald_transform. Qed.

Example C10_witness : pd (1%:M : 'M[rat]_2) /\ (forall c : 'cV[rat]_2, (1%:M : 'M[rat]_2)^T *m c = 0 -> c = 0).
Proof.
split; last by move=> c; rewrite trmx1 mul1mx.
split; first by rewrite trmx1.
by move=> c c0; rewrite mulmx1 -utuE lt0r utu_ge0 andbT utu_eq0.
Qed.

(** C16 *)
Theorem C16_regimes_equal_separate_ols : forall (R : realFieldType) n k m (g : 'I_n -> 'I_m) (y : 'cV[R]_n) (x : 'M[R]_(n, k)) s,
  ((exists p, base_ols (rows_of g y p) (rows_of g x p) RobNone None s = None) ->
   base_ols y (regime_x g x) RobNone None s = None) /\
  forall (os : forall p, ols R #|members g p| k),
  (forall p, base_ols (rows_of g y p) (rows_of g x p) RobNone None s = Some (os p)) ->
  exists2 o, base_ols y (regime_x g x) RobNone None s = Some o &
    (forall p (j : 'I_k), o_betas o (mxvec_index p j) 0 = o_betas (os p) j 0) /\
    (forall p (i : 'I_#|members g p|), o_u o (enum_val i) 0 = o_u (os p) i 0 /\ o_predy o (enum_val i) 0 = o_predy (os p) i 0).
Proof.
move=> R n k m g y x s; split.
- case=> p; rewrite /base_ols /la_inv; case: ifP => // NU _; case: ifP => // U.
  by have := proj1 (regime_gram g x) U p; rewrite NU.
- move=> os H; have [o [Ho Hb Hu]] := regime_ols RobNone None H; exists o => //; split=> [p j|p i].
  + by rewrite Hb stackE.
  + exact: Hu.
Qed.

(** entry (i, regime p, variable j) of the design used above *)
Theorem C16_design_entries : forall (R : realFieldType) n k m (g : 'I_n -> 'I_m) (x : 'M[R]_(n, k)) i p j,
  regime_x g x i (mxvec_index p j) = if g i == p then x i j else 0.
Proof. by move=> *; apply: regime_xE. Qed.

(** C19 *)
Theorem C19_tsls_moments : forall (R : realFieldType) n k h (y : 'cV[R]_n) (z : 'M[R]_(n, k)) (H : 'M[R]_(n, h)) rb g s t,
  base_tsls y z H rb g s = Some t ->
  [/\ (H *m invmx (H^T *m H) *m H^T *m z)^T *m t_u t = 0, t_predy t = z *m t_betas t & y = t_predy t + t_u t].
Proof.
move=> R n k h y z H rb g s t T; have [_ _ _ _ [P U]] := tsls_fields T; split=> //; first exact: tsls_moment T.
by rewrite U addrC subrK.
Qed.

Theorem C19_tsls_just_identified : forall (R : realFieldType) n k (y : 'cV[R]_n) (z H : 'M[R]_(n, k)) rb g s t,
  base_tsls y z H rb g s = Some t -> H^T *m t_u t = 0 /\ H^T *m z *m t_betas t = H^T *m y.
Proof.
move=> R n k y z H rb g s t T; have J := tsls_just_id T; split=> //.
have [_ _ _ _ [P U]] := tsls_fields T; move: J; rewrite U P mulmxBr mulmxA => /eqP; rewrite subr_eq0 => /eqP ->.
by [].
Qed.

(** the endogenous variables instrumented by themselves (H = z): ordinary least squares, same covariance *)
Theorem C19_tsls_self_instrument_is_ols : forall (R : realFieldType) n k (y : 'cV[R]_n) (z : 'M[R]_(n, k)) s o,
  base_ols y z RobNone None s = Some o ->
  exists2 t, base_tsls y z z RobNone None s = Some t &
  [/\ t_betas t = o_betas o, t_predy t = o_predy o, t_u t = o_u o, t_sig2 t = o_sig2 o & t_vm t = o_vm o].
Proof.
move=> R n k y z s o H; have U := ols_gram H; move: H; rewrite (ols_Some _ _ _ _ U) => -[<-].
rewrite /base_tsls la_inv_unit // mulmxV // mul1mx gram_sym la_inv_unit //; eexists; first by [].
by rewrite mulmx1 /=.
Qed.

(** which instruments are used.  numpy arrays: both or neither raise.  (Sparse arguments: see the refutation.) *)
(* partial; missing: sparse q and h, which are accepted together (C19_tsls_sparse_both_refuted) *)
Theorem C19_tsls_both_or_neither_partial : forall q h, q <> KCsr -> h <> KCsr ->
  tsls_instruments q h =
  (match q, h with KArray, KArray | KNone, KNone => IRaise | KNone, _ => IUseH | _, _ => IXQ end).
Proof. by case=> -[]. Qed.

(** with sparse instruments both may be passed: q is ignored silently *)
Theorem C19_tsls_sparse_both_refuted : tsls_instruments KCsr KCsr = IUseH /\ tsls_instruments KArray KCsr = IUseH.
Proof. by []. Qed.

Example C19_witness : base_tsls ex_y ex_x ex_x RobNone None true <> None.
Proof.
case E: (base_ols ex_y ex_x RobNone None true) => [o|]; last by have := proj1 C14_witness.
by have [t ->] := C19_tsls_self_instrument_is_ols E.
Qed.

(** C33: x c = 1 says that the constant is among (the combinations of) the regressors *)
Theorem C33_fit_measures : forall (R : realFieldType) n k (y : 'cV[R]_n) (x : 'M[R]_(n, k)) rb g s o (c : 'cV[R]_k),
  base_ols y x rb g s = Some o -> x *m c = const_mx 1 -> (exists i j, y i 0 != y j 0) ->
  [/\ \sum_i (y i 0 - mean_of y) ^+ 2 = \sum_i (o_predy o i 0 - mean_of y) ^+ 2 + \sum_i (o_u o i 0) ^+ 2,
      0 <= r2_of o <= 1,
      (k < n)%N -> (0 < k)%N -> ar2_of o <= r2_of o &
      (1 < k)%N -> (k < n)%N -> o_u o != 0 ->
      f_stat_all o = (r2_of o / (k%:R - 1)) / ((1 - r2_of o) / (n%:R - k%:R))].
Proof.
move=> R n k y x rb g s o c H Hc Hy; have D := ols_decomp H Hc; have T0 := tss_gt0 Hy; have [_ Ey _ _ _] := ols_fields H.
have r2E : r2_of o = 1 - utu_of (o_u o) / tss y by rewrite /r2_of Ey.
have R0 : 0 <= utu_of (o_u o) / tss y by rewrite divr_ge0 ?utu_ge0 ?ltW.
have R1 : 0 <= r2_of o <= 1.
{ apply/andP; rewrite r2E; split; last by rewrite ler_subl_addr ler_addl.
  rewrite subr_ge0 ler_pdivr_mulr // mul1r D ler_addr sumr_ge0 // => i _; exact: sqr_ge0. }
split=> //.
- move=> kn k0; rewrite /ar2_of ler_subl_addl -ler_subl_addr -[X in X <= _]mulr1 -mulrA.
  apply: ler_wpmul2l; first by rewrite r2E opprB addrC subrK.
  have nk0 : 0 < n%:R - k%:R :> R by rewrite subr_gt0 ltr_nat.
  by rewrite ler_pdivl_mulr // mul1r ler_add2l ler_opp2 ler1n.
- move=> k1 kn u0; rewrite /f_stat_all Ey.
  have uu : utu_of (o_u o) != 0 by rewrite utu_eq0.
  have -> : \sum_i (o_predy o i 0 - mean_of y) ^+ 2 = r2_of o * tss y.
  { by rewrite r2E mulrBl mul1r divfK ?gt_eqF // D addrK. }
  have -> : 1 - r2_of o = utu_of (o_u o) / tss y by rewrite r2E opprB addrC subrK.
  have t0 : tss y != 0 by rewrite gt_eqF.
  have k10 : k%:R - 1 != 0 :> R by rewrite subr_eq0 pnatr_eq1 gtn_eqF.
  have nk0 : n%:R - k%:R != 0 :> R by rewrite subr_eq0 eqr_nat gtn_eqF.
  rewrite !invfM !invrK; by rewrite -!mulrA; congr (_ * _); rewrite mulrCA; congr (_ * _); rewrite mulrCA [tss y * _]mulrC.
Qed.

(** constrained F test (dwh, f_stat(df=d)): never negative *)
Theorem C33_f_stat_last_nonneg : forall (R : realFieldType) n k d (y : 'cV[R]_n) (x0 : 'M[R]_(n, k)) (x1 : 'M[R]_(n, d)) f,
  (k + d < n)%N -> f_stat_last y x0 x1 = Some f -> 0 <= f.
Proof.
move=> R n k d y x0 x1 f Hn; rewrite /f_stat_last; case E: base_ols => [o|] //; case E0: base_ols => [o0|] // [<-].
apply: divr_ge0; last by rewrite divr_ge0 ?utu_ge0 // subr_ge0 ler_nat ltnW.
apply: divr_ge0; last exact: ler0n.
have [_ _ P0 U0 _] := ols_fields E0; rewrite subr_ge0 U0 P0.
have -> : x0 *m o_betas o0 = row_mx x0 x1 *m col_mx (o_betas o0) 0 by rewrite mul_row_col mulmx0 addr0.
by rewrite (ols_min _ E) ler_addl utu_ge0.
Qed.

Example C33_witness : ex_x *m (delta_mx 0 0 : 'cV[rat]_2) = const_mx 1 /\ (exists i j, ex_y i 0 != ex_y j 0).
Proof.
split; last by exists 0, 1; rewrite !mxE.
by apply/colP => i; rewrite !mxE !big_ord_recl big_ord0 !mxE /= mulr1 mulr0 !addr0.
Qed.

(** C18 *)
Theorem C18_white_psd : forall (R : realFieldType) n k h (H : 'M[R]_(n, h)) (u : 'cV[R]_n) s,
  (k < n)%N -> psd (robust_psi0 k H u None s).
Proof.
move=> R n k h H u s kn; rewrite /robust_psi0; case: s; last exact: gram_psd.
have [S P] := gram_psd (spbroadcast H u); split=> [|c]; first by rewrite linearZ /= S.
by rewrite -scalemxAr -scalemxAl mxE mulr_ge0 // divr_ge0 ?ler0n // subr_ge0 ler_nat ltnW.
Qed.

(** entries of the White matrix: sum_i u_i^2 h_ia h_ib *)
Theorem C18_white_entries : forall (R : realFieldType) n k h (H : 'M[R]_(n, h)) (u : 'cV[R]_n) a b,
  robust_psi0 k H u None false a b = \sum_i (u i 0) ^+ 2 * H i a * H i b.
Proof.
move=> R n k h H u a b; rewrite /robust_psi0 mxE; apply: eq_bigr => i _; rewrite !mxE expr2.
by rewrite mulrACA mulrC -!mulrA; congr (_ * (_ * _)).
Qed.

Theorem C18_hac_symmetric : forall (R : realFieldType) n k h (H : 'M[R]_(n, h)) (u : 'cV[R]_n) (K : 'M[R]_n) s,
  K^T = K -> (robust_psi0 k H u (Some K) s)^T = robust_psi0 k H u (Some K) s.
Proof. by move=> R n k h H u K s HK; rewrite /robust_psi0 !trmx_mul trmxK HK mulmxA. Qed.

Theorem C18_hac_identity_is_white : forall (R : realFieldType) n k h (H : 'M[R]_(n, h)) (u : 'cV[R]_n) s,
  robust_psi0 k H u (Some 1%:M) s = robust_psi0 k H u None false.
Proof. by move=> *; rewrite /robust_psi0 mul1mx. Qed.

(** the reported covariance inherits these properties *)
(* partial; missing: a call with gwk, for which robust='white' returns the HAC matrix (C18_white_with_gwk_refuted) *)
Theorem C18_ols_vm_white_partial : forall (R : realFieldType) n k (y : 'cV[R]_n) (x : 'M[R]_(n, k)) s o,
  (k < n)%N -> base_ols y x RobWhite None s = Some o -> psd (o_vm o).
Proof.
move=> R n k y x s o kn H; have U := ols_gram H; move: H; rewrite (ols_Some _ _ _ _ U) => -[<-] /=.
set u := y - _; have [S P] := C18_white_psd x u s kn; have IS := invmx_sym (gram_sym x).
split=> [|c]; first by rewrite !trmx_mul S IS mulmxA.
have := P (invmx (x^T *m x) *m c); rewrite trmx_mul IS !mulmxA //.
Qed.

(** robust='white' is not always White: if kernel weights are passed along, the HAC matrix is returned. *)
Theorem C18_white_with_gwk_refuted : exists n k (y : 'cV[rat]_n) (x : 'M[rat]_(n, k)) (K : 'M[rat]_n) o o',
  [/\ base_ols y x RobWhite (Some K) false = Some o, base_ols y x RobWhite None false = Some o' & o_vm o != o_vm o'].
Proof.
pose x : 'M[rat]_(2, 1) := \matrix_(i, j) (if i == 0 then 1 else 0).
pose x1 : 'M[rat]_(2, 1) := const_mx 1.
pose y : 'cV[rat]_2 := \col_i (if i == 0 then 1 else - 1).
pose K : 'M[rat]_2 := const_mx 1.
have G : x1^T *m x1 = 2%:M.
{ by apply/matrixP => i j; rewrite !mxE !big_ord_recl big_ord0 !mxE !ord1. }
have U : x1^T *m x1 \in unitmx by rewrite G unitmxE det_scalar1.
exists 2%N, 1%N, y, x1, K, (ols_of_xtxi y x1 RobWhite (Some K) false (invmx (x1^T *m x1))),
  (ols_of_xtxi y x1 RobWhite None false (invmx (x1^T *m x1))); split; [exact: ols_Some|exact: ols_Some|].
rewrite /=.
have B : x1^T *m y = 0.
{ by apply/matrixP => i j; rewrite !mxE !big_ord_recl big_ord0 !mxE. }
rewrite B !mulmx0 subr0 /robust_psi0.
have E1 : (spbroadcast x1 y)^T *m (K *m spbroadcast x1 y) = 0.
{ by apply/matrixP => i j; rewrite !mxE !big_ord_recl big_ord0 !mxE !big_ord_recl !big_ord0 !mxE. }
have E2 : (spbroadcast x1 y)^T *m spbroadcast x1 y = 2%:M.
{ by apply/matrixP => i j; rewrite !mxE !big_ord_recl big_ord0 !mxE !ord1. }
rewrite E1 E2 mul0mx mulmx0 G eq_sym; apply/eqP => /(congr1 (fun M => (2%:M : 'M[rat]_1) *m M)).
rewrite G in U; rewrite mulmx0 mulKVmx // mulmxV // => /matrixP /(_ 0 0); rewrite !mxE //.
Qed.

(** C17: any generalised inverse P of x'Wx (A P A = A, the first Penrose condition) returned by pinv *)
Theorem C17_wls_normal_equations : forall (R : rcfType) (pinv : forall k, 'M[R]_k -> 'M[R]_k) n k
    (y : 'cV[R]_n) (x : 'M[R]_(n, k)) (w : 'cV[R]_n) s,
  (forall j (A : 'M[R]_j), A *m pinv j A *m A = A) -> (forall i, 0 <= w i 0) ->
  let o := base_wls pinv y x w s in
  [/\ x^T *m diag_mx w^T *m x *m o_betas o = x^T *m diag_mx w^T *m y,
      o_predy o = x *m o_betas o & y = o_predy o + o_u o].
Proof.
move=> R pinv n k y x w s HP Hw o; split=> //; last by rewrite /o /= addrC subrK.
set D := diag_mx (sqrtv w)^T.
have DD : D *m D = diag_mx w^T.
{ rewrite mul_diag_mx; apply/matrixP => i j; rewrite !mxE; case: eqP => [->|_]; last by rewrite !mulr0n mulr0.
  by rewrite !mulr1n -expr2 sqr_sqrtr. }
have DT : D^T = D by rewrite tr_diag_mx.
set xw := D *m x; set yw := D *m y.
have Eb : o_betas o = pinv k (xw^T *m xw) *m (xw^T *m yw) by rewrite /o /= !spbroadcast_diag.
have G1 : x^T *m diag_mx w^T *m x = xw^T *m xw by rewrite /xw trmx_mul DT -DD !mulmxA.
have G2 : x^T *m diag_mx w^T *m y = xw^T *m yw by rewrite /xw /yw trmx_mul DT -DD !mulmxA.
rewrite G1 G2 Eb mulmxA; set A := xw^T *m xw; set P := pinv k A.
(* x' = x' P' A, because x'(x P A - x) has zero Gram matrix *)
have Z : xw *m (P *m A) = xw.
{ have E : xw *m (P *m A) - xw = xw *m (P *m A - 1%:M) by rewrite mulmxBr mulmx1.
  apply/eqP; rewrite -subr_eq0; apply/eqP/matrixP => i j; rewrite [RHS]mxE.
  have C : xw *m (P *m A - 1%:M) *m (delta_mx j 0 : 'cV[R]_k) = 0.
  { rewrite -mulmxA; apply: gram_ker; rewrite mulmxA -/A mulmxBr mulmx1 mulmxA HP subrr mul0mx //. }
  by rewrite E; have := congr1 (fun z : 'cV[R]_n => z i 0) C; rewrite -colE [X in X = _]mxE [X in _ = X]mxE. }
have AT : A^T = A by rewrite gram_sym.
have ZT : A *m P^T *m xw^T = xw^T by move: Z => /(congr1 trmx); rewrite trmx_mul [(P *m A)^T]trmx_mul AT.
have APA : A *m P *m A = A by exact: HP.
have ZP : A *m P *m xw^T = xw^T.
{ transitivity (A *m P *m (A *m P^T *m xw^T)); first by rewrite ZT.
  by rewrite [A *m P *m (_ *m _)]mulmxA [A *m P *m (A *m _)]mulmxA APA ZT. }
by rewrite [A *m P *m (_ *m _)]mulmxA ZP.
Qed.

(** full rank: the solution of the weighted normal equations is unique, so it is the reported one *)
Theorem C17_wls_unique : forall (R : rcfType) (pinv : forall k, 'M[R]_k -> 'M[R]_k) n k
    (y : 'cV[R]_n) (x : 'M[R]_(n, k)) (w : 'cV[R]_n) s (b : 'cV[R]_k),
  (forall j (A : 'M[R]_j), A *m pinv j A *m A = A) -> (forall i, 0 <= w i 0) ->
  x^T *m diag_mx w^T *m x \in unitmx ->
  x^T *m diag_mx w^T *m x *m b = x^T *m diag_mx w^T *m y -> b = o_betas (base_wls pinv y x w s).
Proof.
move=> R pinv n k y x w s b HP Hw U Hb; have [N _ _] := C17_wls_normal_equations y x s HP Hw.
by apply: (can_inj (mulKmx U)); rewrite Hb N.
Qed.

(** group-wise weights of OLS_Regimes: rows divided by the regime's standard error *)
Lemma weighted_var_diag (R : rcfType) n m k (g : 'I_n -> 'I_m) s (u y : 'cV[R]_n) (x : 'M[R]_(n, k)) :
  let d : 'cV[R]_n := \col_i (1 / Num.sqrt (regi_sig k g s u (g i))) in
  get_weighted_var g s u y x = (diag_mx d^T *m y, diag_mx d^T *m x).
Proof.
move=> d; rewrite /get_weighted_var -!spbroadcast_diag; congr pair.
by apply/matrixP => i j; rewrite !mxE ord1 mul1r.
Qed.

(* partial; missing: positivity of the estimated regime variances, which can fail with sig2n_k (C17_negative_variance_refuted) *)
Theorem C17_weighted_regimes_partial : forall (R : rcfType) n m k (g : 'I_n -> 'I_m) s (u y : 'cV[R]_n) (x : 'M[R]_(n, k)) o,
  (forall i, 0 < regi_sig k g s u (g i)) ->
  base_ols (get_weighted_var g s u y x).1 (get_weighted_var g s u y x).2 RobNone None s = Some o ->
  let D := diag_mx (\row_i (regi_sig k g s u (g i))^-1) in
  x^T *m D *m x *m o_betas o = x^T *m D *m y.
Proof.
move=> R n m k g s u y x o Hs H D; move: (ols_normal H); rewrite weighted_var_diag /=.
set d : 'cV[R]_n := \col_i _.
have DD : diag_mx d^T *m diag_mx d^T = D.
{ rewrite mul_diag_mx; apply/matrixP => i j; rewrite !mxE; case: eqP => [->|_]; last by rewrite !mulr0n mulr0.
  by rewrite !mulr1n -expr2 div1r exprVn sqr_sqrtr // ltW. }
by rewrite trmx_mul tr_diag_mx -DD !mulmxA.
Qed.

Theorem C17_equal_variances_is_ols : forall (R : rcfType) n m k (g : 'I_n -> 'I_m) s (u y : 'cV[R]_n) (x : 'M[R]_(n, k)) a o,
  0 < a -> (forall r, regi_sig k g s u r = a) -> base_ols y x RobNone None s = Some o ->
  exists2 o', base_ols (get_weighted_var g s u y x).1 (get_weighted_var g s u y x).2 RobNone None s = Some o' &
    o_betas o' = o_betas o.
Proof.
move=> R n m k g s u y x a o a0 Ha H; have U := ols_gram H.
set c := (1 / Num.sqrt a) : R.
have c0 : c != 0 by rewrite /c div1r invr_eq0 sqrtr_eq0 -ltNge.
have -> : get_weighted_var g s u y x = (c *: y, c *: x).
{ rewrite /get_weighted_var; congr pair; apply/matrixP => i j; rewrite !mxE Ha /c ?ord1 div1r mulrC //. }
have T : (c *: x)^T = c *: x^T by apply/matrixP => i j; rewrite !mxE.
have U' : (c *: x)^T *m (c *: x) \in unitmx.
{ rewrite T -scalemxAl -scalemxAr scalerA unitmxZ // unitfE mulf_neq0 //. }
rewrite /= (ols_Some _ _ _ _ U'); eexists; first by [].
apply: (ols_unique H).
have N := ols_normal (ols_Some (c *: y) RobNone None s U').
move: N; move: (o_betas _) => b; rewrite T -!scalemxAl -!scalemxAr !scalerA -!scalemxAl !scalerA => N.
exact: (can_inj (scalerK (mulf_neq0 c0 c0)) N).
Qed.

(** The variance of a regime is divided by n_r minus the number of columns of the WHOLE regimes design, so with
    sig2n_k the estimated variance can be negative although every regime has more observations than coefficients
    (2 regimes of 2 observations and 1 variable each: 2 - 2 = 0 is already a division by zero; 3 regimes give 2 - 3 < 0). *)
Theorem C17_negative_variance_refuted : forall (R : rcfType), exists n m (g : 'I_n -> 'I_m) (u : 'cV[R]_n) (r : 'I_m),
  [/\ (1 < #|[pred i | g i == r]|)%N, (3 * 1 < n)%N & regi_sig 3 g true u r < 0].
Proof.
move=> R.
have E (g : 'I_6 -> 'I_3) (F : 'I_6 -> bool) : F =1 (fun i => g i == 0) -> #|[pred i | g i == 0]| = (\sum_(i < 6) F i)%N.
{ by move=> H; rewrite -sum1_card big_mkcond; apply: eq_bigr => i _; rewrite inE /= -H; case: (F i). }
pose g (i : 'I_6) : 'I_3 := inord (i %/ 2).
have G (i : 'I_6) : (g i == 0) = (i < 2)%N.
{ rewrite -val_eqE /= inordK; last by rewrite ltn_divLR.
  by case: i => [[|[|[|[|[|[|i]]]]]] Hi]. }
exists 6%N, 3%N, g, (const_mx 1), 0.
have C : #|[pred i | g i == 0]| = 2%N by rewrite (E g (fun i => (i < 2)%N)) ?big_ord_recl ?big_ord0 // => i; rewrite G.
split=> //; first by rewrite C.
rewrite /regi_sig C (eq_bigr (fun=> 1)) => [|i _]; last by rewrite mxE expr1n.
rewrite sumr_const C pmulr_rlt0 ?ltr0n //.
by rewrite invr_lt0 subr_lt0 ltr_nat.
Qed.

Example C17_witness (R : rcfType) : (forall k (A : 'M[R]_k), A *m (fun k (A : 'M[R]_k) => pinvmx A) k A *m A = A).
Proof. by move=> k A; rewrite mulmxKpV. Qed.

Print Assumptions C10_wald_zero_and_sign.
Print Assumptions C10_wald_zero_any_vm.
Print Assumptions C10_wald_invariant.
Print Assumptions C14_ols_fails_iff_dependent.
Print Assumptions C14_ols_normal_equations.
Print Assumptions C14_ols_least_squares.
Print Assumptions C15_ols_recombination.
Print Assumptions C15_ols_shift.
Print Assumptions C15_ols_vm.
Print Assumptions C16_regimes_equal_separate_ols.
Print Assumptions C16_design_entries.
Print Assumptions C17_wls_normal_equations.
Print Assumptions C17_wls_unique.
Print Assumptions C17_weighted_regimes_partial.
Print Assumptions C17_equal_variances_is_ols.
Print Assumptions C17_negative_variance_refuted.
Print Assumptions C18_white_psd.
Print Assumptions C18_white_entries.
Print Assumptions C18_hac_symmetric.
Print Assumptions C18_hac_identity_is_white.
Print Assumptions C18_ols_vm_white_partial.
Print Assumptions C18_white_with_gwk_refuted.
Print Assumptions C19_tsls_moments.
Print Assumptions C19_tsls_just_identified.
Print Assumptions C19_tsls_self_instrument_is_ols.
Print Assumptions C19_tsls_both_or_neither_partial.
Print Assumptions C19_tsls_sparse_both_refuted.
Print Assumptions C33_fit_measures.
Print Assumptions C33_f_stat_last_nonneg.
