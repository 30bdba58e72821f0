(** C98: HAC standard errors with one regression per regime. *)
From mathcomp Require Import all_ssreflect all_algebra.
From Verif Require Import LinRegModel LinRegProofs2 HacModel.
Set Implicit Arguments.
Unset Strict Implicit.
Unset Printing Implicit Defensive.
Import Order.TTheory GRing.Theory Num.Theory.
Local Open Scope ring_scope.

Section Thm.
Variables (R : realFieldType) (n m k h : nat) (g : 'I_n -> 'I_m).
Variables (y : 'cV[R]_n) (z : 'M[R]_(n, k)) (H : 'M[R]_(n, h)) (s : bool).
Notation size r := #|members g r|.

(** The regression of regime r, fitted with the HAC option on its own rows and its own part of the kernel *)
Definition own_kernel (K : 'M[R]_n) (r : 'I_m) : 'M[R]_(size r) := \matrix_(a, b) K (enum_val a) (enum_val b).
Definition own_hac (K : 'M[R]_n) (r : 'I_m) :=
  base_tsls (rows_of g y r) (rows_of g z r) (rows_of g H r) RobHac (Some (own_kernel K r)) s.

(** residual of observation i in the regression of its own regime *)
Definition resid (f : fits R k h g) (i : 'I_n) : R := y i 0 - \sum_j z i j * t_betas (f (g i)) j 0.
(** what observation i moves the combination c of the coefficients of regime r by *)
Definition score (f : fits R k h g) (r : 'I_m) (c : 'cV[R]_k) (i : 'I_n) : R :=
  resid f i * \sum_j H i j * ((t_varb (f r) *m t_zthhthi (f r))^T *m c) j 0.
Definition form (A : 'M[R]_k) (c d : 'cV[R]_k) : R := (c^T *m A *m d) 0 0.

Lemma scatterE p (a : 'M[R]_(n, p)) (v : forall r, 'M[R]_(size r, p)) :
  (forall r b j, v r b j = a (enum_val b) j) -> scatter v = a.
Proof.
move=> E; apply/matrixP=> i j; rewrite mxE.
have I : i \in members g (g i) by rewrite inE.
rewrite (eq_bigr (fun _ => a i j)); last by move=> b /eqP Eb; rewrite E Eb.
rewrite (big_pred1 (enum_rank_in I i)) // => b /=.
have K1 : enum_val (enum_rank_in I i) = i by apply: enum_rankK_in.
apply/eqP/eqP => [Eb|Eb]; last by rewrite Eb K1.
by apply: enum_val_inj; rewrite K1.
Qed.

Section Fit.
Variables (f : fits R k h g).
Hypothesis F : forall r, regime_fit g y z H s r = Some (f r).

Lemma fit_h r : t_h (f r) = rows_of g H r.
Proof. by move: (F r); rewrite /regime_fit /base_tsls; case: la_inv => // ?; case: la_inv => // ? [<-]. Qed.
Lemma fit_u r a j : t_u (f r) a j = resid f (enum_val a).
Proof.
have [_ _ _ _ [p ->]] := tsls_fields (F r).
have Er : g (enum_val a) = r by apply/eqP; exact: (enum_valP a).
rewrite {}p /resid Er !mxE (ord1 j); congr (_ - _); by apply: eq_bigr => l _; rewrite mxE.
Qed.
Lemma scat_h : scatter (fun r => t_h (f r)) = H.
Proof. by apply: scatterE => r b j; rewrite fit_h mxE. Qed.
Lemma scat_u : scatter (fun r => t_u (f r)) = \col_i resid f i.
Proof. by apply: scatterE => r b j; rewrite fit_u mxE. Qed.

Lemma quad p q (X : 'M[R]_(p, h)) (K : 'M[R]_p) (P : 'M[R]_(q, h)) (c d : 'cV[R]_q) :
  (c^T *m (P *m (X^T *m (K *m X) *m P^T)) *m d) 0 0
  = \sum_i \sum_j K i j * (X *m (P^T *m c)) i 0 * (X *m (P^T *m d)) j 0.
Proof.
have -> : c^T *m (P *m (X^T *m (K *m X) *m P^T)) *m d = (X *m (P^T *m c))^T *m K *m (X *m (P^T *m d)).
  by rewrite !trmx_mul trmxK !mulmxA.
move: (X *m (P^T *m c)) (X *m (P^T *m d)) => a b.
rewrite mxE (eq_bigr (fun j => \sum_i K i j * a i 0 * b j 0)); last first.
  by move=> j _; rewrite !mxE mulr_suml; apply: eq_bigr => i _; rewrite !mxE (mulrC (a i 0)).
by rewrite exchange_big.
Qed.
Lemma bc_mul p q (X : 'M[R]_(p, h)) (u : 'cV[R]_p) (v : 'M[R]_(h, q)) i j :
  (spbroadcast X u *m v) i j = u i 0 * \sum_l X i l * v l j.
Proof. by rewrite mxE mulr_sumr; apply: eq_bigr => l _; rewrite mxE -mulrA mulrCA. Qed.

(** C98: had GM_Lag_Regimes reached robust.hac_multi, the reported covariance of the coefficients of regime r is the kernel sum over the
    observations of all regimes *)
Theorem C98_value K : exists vm, gm_lag_regimes_hac f K = Some vm /\
  forall r c d, form (vm r) c d = \sum_i \sum_j K i j * score f r c i * score f r d j.
Proof.
rewrite /gm_lag_regimes_hac /hac_multi /= scat_h scat_u; eexists; split; first by [].
move=> r c d; rewrite /form quad; apply: eq_bigr => i _; apply: eq_bigr => j _.
by rewrite !bc_mul !mxE /score.
Qed.

(** C98: the HAC covariance of the regression of regime r alone sums over its own observations only *)
Theorem C98_own K r : exists t, [/\ own_hac K r = Some t, t_betas t = t_betas (f r) &
  forall c d, form (t_vm t) c d = \sum_(i | g i == r) \sum_(j | g j == r) K i j * score f r c i * score f r d j].
Proof.
have U a : t_u (f r) a 0 = resid f (enum_val a) by exact: fit_u.
move: (F r); rewrite /regime_fit /own_hac /base_tsls.
case E: la_inv => [B|] //; case E2: la_inv => [C|] // /Some_inj Ef.
have Eu := f_equal (@t_u _ _ _ _) Ef; have Ev := f_equal (@t_varb _ _ _ _) Ef.
have Ez := f_equal (@t_zthhthi _ _ _ _) Ef; have Eb := f_equal (@t_betas _ _ _ _) Ef.
rewrite /= in Eu Ev Ez Eb.
eexists; split; [by [] | by rewrite -Eb | move=> c d].
rewrite /form /= quad.
rewrite [RHS](eq_bigl (fun i => i \in members g r)) // [RHS]big_enum_val; apply: eq_bigr => a _.
rewrite [RHS](eq_bigl (fun i => i \in members g r)) // [RHS]big_enum_val; apply: eq_bigr => b _.
rewrite !bc_mul Eu !U Ev Ez [own_kernel K r a b]mxE /score.
congr (_ * (_ * _) * (_ * _)); by apply: eq_bigr => l _; rewrite mxE.
Qed.

(** the reported minus the own covariance, as a form *)
Definition excess K r c d :=
  (\sum_i \sum_j K i j * score f r c i * score f r d j)
  - \sum_(i | g i == r) \sum_(j | g j == r) K i j * score f r c i * score f r d j.

Lemma split_sum (P : 'I_n -> bool) (G : 'I_n -> 'I_n -> R) :
  (forall i j, P i != P j -> G i j = 0) ->
  \sum_i \sum_j G i j = \sum_(i | P i) \sum_(j | P j) G i j + \sum_(i | ~~ P i) \sum_(j | ~~ P j) G i j.
Proof.
move=> Z; rewrite (bigID P) /=; congr (_ + _); apply: eq_bigr => i Pi; rewrite (bigID P) /=.
- by rewrite [X in _ + X]big1 ?addr0 // => j Pj; apply: Z; rewrite Pi (negbTE Pj).
- by rewrite big1 ?add0r // => j Pj; apply: Z; rewrite Pj (negbTE Pi).
Qed.

(** C98: with a kernel which links no two regimes, what is reported is the own covariance plus the kernel sum over the
    observations of the other regimes *)
Theorem C98_excess K vm : gm_lag_regimes_hac f K = Some vm ->
  (forall i j, g i != g j -> K i j = 0) ->
  forall r t, own_hac K r = Some t -> forall c d,
  form (vm r) c d = form (t_vm t) c d + \sum_(i | g i != r) \sum_(j | g j != r) K i j * score f r c i * score f r d j.
Proof.
move=> E L r t Et c d; have [vm' [E' V]] := C98_value K; move: E'; rewrite E => /Some_inj Ev.
have [t' [Et' _ O]] := C98_own K r; move: Et'; rewrite Et => /Some_inj Ett.
rewrite Ev V Ett O; apply: (split_sum (P := fun i => g i == r)) => i j N; rewrite L ?mul0r //.
by apply: contra N => /eqP ->.
Qed.

(** C98: with a psd kernel without such links no variance (squared standard error) is below the one of the regression alone *)
Theorem C98_inflated K vm : gm_lag_regimes_hac f K = Some vm ->
  (forall i j, g i != g j -> K i j = 0) -> psd K ->
  forall r t, own_hac K r = Some t -> forall c, form (t_vm t) c c <= form (vm r) c c.
Proof.
move=> E L [_ P] r t Et c; rewrite (C98_excess E L Et) ler_addl.
pose v : 'cV[R]_n := \col_i (if g i != r then score f r c i else 0).
have := P v; rewrite mxE.
rewrite (_ : \sum_j _ = \sum_(i | g i != r) \sum_(j | g j != r) K i j * score f r c i * score f r c j) //.
rewrite (eq_bigr (fun j => \sum_i v i 0 * K i j * v j 0)); last first.
  by move=> j _; rewrite mxE mulr_suml; apply: eq_bigr => i _; rewrite mxE.
rewrite exchange_big [RHS]big_mkcond; apply: eq_bigr => i _ /=; rewrite /v !mxE; case: ifP => N.
- rewrite [RHS]big_mkcond; apply: eq_bigr => j _; rewrite !mxE; case: ifP => _; rewrite ?mulr0 //.
  by rewrite (mulrC (score _ _ _ i)).
- by apply: big1 => j _; rewrite !mul0r.
Qed.

(** C98: with the kernel which links no two observations (White's covariance) the reported variance is larger as soon as one
    observation of another regime has a non-zero score *)
Theorem C98_diagonal vm : gm_lag_regimes_hac f 1%:M = Some vm ->
  forall r t, own_hac 1%:M r = Some t -> forall c,
  form (vm r) c c = form (t_vm t) c c + \sum_(i | g i != r) score f r c i ^+ 2 /\
  (form (t_vm t) c c < form (vm r) c c <-> exists2 i, g i != r & score f r c i != 0).
Proof.
move=> E r t Et c.
have L : forall i j, g i != g j -> (1%:M : 'M[R]_n) i j = 0.
  by move=> i j N; rewrite mxE; case: eqP => // e; move: N; rewrite e eqxx.
have Q : form (vm r) c c = form (t_vm t) c c + \sum_(i | g i != r) score f r c i ^+ 2.
  rewrite (C98_excess E L Et); congr (_ + _); apply: eq_bigr => i Ni.
  rewrite (bigD1 i) //= mxE eqxx mul1r -expr2 big1 ?addr0 // => j /andP[_ /negbTE Nj].
  by rewrite mxE eq_sym Nj !mul0r.
split=> //; rewrite Q ltr_addl; split=> [|[i Ni Z]].
- case: (boolP [exists i, (g i != r) && (score f r c i != 0)]) => [/existsP[i /andP[]]|N]; first by exists i.
  rewrite big1 ?ltxx // => i Ni; move: N; rewrite negb_exists => /forallP/(_ i); rewrite Ni negbK => /eqP->.
  by rewrite expr0n.
- rewrite (bigD1 i) //=; apply: ltr_paddr; first by apply: sumr_ge0 => j _; exact: sqr_ge0.
  by rewrite lt_def sqr_ge0 expf_eq0 /= Z.
Qed.

(** C98: with one regime the two are the same *)
Theorem C98_single K vm r : gm_lag_regimes_hac f K = Some vm -> (forall i, g i = r) ->
  forall t, own_hac K r = Some t -> forall c d, form (vm r) c d = form (t_vm t) c d.
Proof.
move=> E G t Et c d; rewrite (C98_excess E _ Et); last by move=> i j; rewrite !G eqxx.
by rewrite [X in _ + X]big_pred0 ?addr0 // => i; rewrite G eqxx.
Qed.
End Fit.

(** C98: had OLS_Regimes or TSLS_Regimes reached robust.hac_multi, they would always have raised *)
Theorem C98_multi_raises (f : fits R k h g) (hv : 'M[R]_(n, h)) (K : 'M[R]_n) : tsls_regimes_hac f hv K = None.
Proof. by []. Qed.
End Thm.
