(** C45: stacking, fitted values, correlations.  C46: SUR against OLS. *)
From mathcomp Require Import all_ssreflect all_algebra.
From Verif Require Import LinRegModel LinRegProofs LinRegProofs2 SurModel.
Set Implicit Arguments.
Unset Strict Implicit.
Unset Printing Implicit Defensive.
Import Order.TTheory GRing.Theory Num.Theory.
Local Open Scope ring_scope.

(** ** C45_stack: stacking and unstacking are inverse to each other, for every number of equations and every sizes *)
Lemma mat2dict_fromE (A : Type) (mat : seq A) ndim : forall ki, mat2dict_from mat ki ndim = reshape ndim (drop ki mat).
Proof. by elim: ndim => [|k r IH] ki //=; rewrite IH drop_drop addnC. Qed.
Theorem C45_stack : forall (A : Type) (mat : seq A) (ndim : seq nat), sumn ndim = size mat ->
  sur_dict2mat (sur_mat2dict mat ndim) = mat /\ size (sur_mat2dict mat ndim) = size ndim /\ shape (sur_mat2dict mat ndim) = ndim.
Proof.
move=> A mat ndim H; rewrite /sur_dict2mat /sur_mat2dict mat2dict_fromE drop0 reshapeKr ?H //.
by split=> //; split; [rewrite size_reshape|rewrite reshapeKl ?H].
Qed.
Theorem C45_unstack : forall (A : Type) (d : seq (seq A)), sur_mat2dict (sur_dict2mat d) (shape d) = d.
Proof. by move=> A d; rewrite /sur_mat2dict mat2dict_fromE drop0 flattenK. Qed.
(** sizes that do not add up are not detected: surplus rows are dropped, missing rows make short blocks *)
Theorem C45_stack_unchecked : forall (A : Type) (mat : seq A) (ndim : seq nat),
  sur_dict2mat (sur_mat2dict mat ndim) = take (sumn ndim) mat.
Proof.
move=> A mat ndim; rewrite /sur_dict2mat /sur_mat2dict mat2dict_fromE drop0.
by elim: ndim mat => [|k r IH] mat /=; rewrite ?take0 // IH takeD.
Qed.

(** ** C45_check_k: the check before the equality test passes exactly when all the equations have the same number of coefficients *)
Theorem C45_check_k : forall K : seq nat, check_k K <-> forall i j, (i < size K)%N -> (j < size K)%N -> nth 0%N K i = nth 0%N K j.
Proof.
case=> [|k K] //; split=> [/allP H i j li lj|H].
  by rewrite -(eqP (H _ (mem_nth 0%N li))) -(eqP (H _ (mem_nth 0%N lj))).
by apply/(all_nthP 0%N) => i li; apply/eqP; exact: (H 0%N i).
Qed.

Section Sur.
Variables (R : realFieldType) (G n : nat) (K : 'I_G -> nat).
Variables (X : forall r, 'M[R]_(n, K r)) (y : 'I_G -> 'cV[R]_n).
Implicit Types (b c d : forall r, 'cV[R]_(K r)) (E : 'M[R]_(n, G)).

(** ** Specification: the residual of equation r, the SUR objective and the normal equations *)
Definition resid b r : 'cV[R]_n := y r - X r *m b r.
Definition objective (sigi : 'M[R]_G) b : R := \sum_r \sum_t sigi r t * ((resid b r)^T *m resid b t) 0 0.
Definition ols_eq b r : Prop := (X r)^T *m (y r - X r *m b r) = 0.

(** ** C45_decompose: observed = predicted + residual, equation by equation *)
Theorem C45_decompose : forall b i r, y r i 0 = sur_predict X b i r + sur_resids y X b i r.
Proof. by move=> b i r; rewrite !mxE addrC subrK. Qed.
Theorem C45_base : forall s, base_sur X y = Some s ->
  s_E s = sur_resids y X (e_b (s_est s)) /\ s_YP s = sur_predict X (e_b (s_est s)) /\ forall i r, y r i 0 = s_YP s i r + s_E s i r.
Proof.
move=> s; rewrite /base_sur; case: (sur_ols X y) => // bo; case: (sur_est _ _ _) => // e [<-] /=; split=> //; split=> // i r; exact: C45_decompose.
Qed.

Lemma xsigx_mul (S : 'M[R]_G) c : xsigx S (crossXX X) *m (\mxcol_r c r) = \mxcol_r \sum_t S r t *: ((X r)^T *m (X t *m c t)).
Proof.
rewrite /xsigx mxblockEv mxcol_mul; apply: eq_mxcol => r; rewrite mul_mxrow_mxcol; apply: eq_bigr => t _.
by rewrite -scalemxAl /crossXX mulmxA.
Qed.
Lemma quad_mul (S : 'M[R]_G) c d : ((\mxcol_r d r)^T *m (xsigx S (crossXX X) *m (\mxcol_r c r))) 0 0 =
  \sum_r \sum_t S r t * ((X r *m d r)^T *m (X t *m c t)) 0 0.
Proof.
rewrite xsigx_mul tr_mxcol mul_mxrow_mxcol summxE; apply: eq_bigr => r _; rewrite mulmx_sumr summxE; apply: eq_bigr => t _.
by rewrite -scalemxAr mxE; congr (_ * _); rewrite trmx_mul -!mulmxA.
Qed.
Lemma bilE (S : 'M[R]_G) (a c : 'cV[R]_G) : ((a^T *m S) *m c) 0 0 = \sum_r \sum_t S r t * (a r 0 * c t 0).
Proof.
rewrite -mulmxA mxE; apply: eq_bigr => r _; rewrite [a^T _ _]mxE mxE mulr_sumr; apply: eq_bigr => t _; by rewrite mulrCA.
Qed.
(** the quadratic form in S of the columns v r *)
Lemma quad_rows (S : 'M[R]_G) (v w : 'I_G -> 'cV[R]_n) :
  \sum_r \sum_t S r t * ((v r)^T *m w t) 0 0 = \sum_i (((\col_r v r i 0)^T *m S) *m (\col_r w r i 0)) 0 0.
Proof.
rewrite [RHS](eq_bigr (fun i => \sum_r \sum_t S r t * (v r i 0 * w t i 0))); last first.
  by move=> i _; rewrite bilE; apply: eq_bigr => r _; apply: eq_bigr => t _; rewrite !mxE.
rewrite [RHS]exchange_big /=; apply: eq_bigr => r _; rewrite [RHS]exchange_big /=; apply: eq_bigr => t _.
by rewrite dotE mulr_sumr.
Qed.
Lemma sig_pd E : n%:R^-1 *: (E^T *m E) \in unitmx -> pd (n%:R^-1 *: (E^T *m E)).
Proof.
move=> U; split=> [|c c0]; first by rewrite linearZ /= trmx_mul trmxK.
have Q : (c^T *m (n%:R^-1 *: (E^T *m E)) *m c) 0 0 = n%:R^-1 * utu_of (E *m c).
  by rewrite -scalemxAr -scalemxAl mxE utuE trmx_mul !mulmxA.
rewrite Q; have n0 : (0 < n)%N.
  case: (posnP n) => // z; case/negP: c0; apply/eqP; move/unitmx_inj: U; apply.
  by rewrite (_ : n%:R^-1 = 0) ?scale0r ?mul0mx // z invr0.
apply: mulr_gt0; first by rewrite invr_gt0 ltr0n.
rewrite lt_neqAle utu_ge0 andbT eq_sym utu_eq0; apply/negP => /eqP z; case/negP: c0; apply/eqP; move/unitmx_inj: U; apply.
by rewrite -scalemxAl -mulmxA z mulmx0 scaler0.
Qed.
Lemma quad_pd (S : 'M[R]_G) (v : 'I_G -> 'cV[R]_n) : pd S ->
  0 <= \sum_r \sum_t S r t * ((v r)^T *m v t) 0 0 /\ (\sum_r \sum_t S r t * ((v r)^T *m v t) 0 0 = 0 -> forall r, v r = 0).
Proof.
case=> _ P; rewrite quad_rows.
have p i : 0 <= (((\col_r v r i 0)^T *m S) *m (\col_r v r i 0)) 0 0.
  case: (eqVneq (\col_r v r i 0) 0) => [->|z]; first by rewrite mulmx0 mxE.
  exact/ltW/P.
split; first exact: sumr_ge0.
move=> H r; apply/matrixP => i j; rewrite ord1 [RHS]mxE.
have Z := psumr_eq0P (fun i _ => p i) H.
case: (eqVneq (\col_r v r i 0) 0) => [/matrixP/(_ r 0)|z]; first by rewrite !mxE.
by have := P _ z; rewrite (Z i isT) ltxx.
Qed.

Lemma mxcolE (A : 'cV[R]_(\sum_r K r)) : \mxcol_r submxcol A r = A. Proof. exact: submxcolK. Qed.
Lemma est_fields E e : sur_est (crossXX X) (crossXy X y) E = Some e ->
  [/\ e_sig e = n%:R^-1 *: (E^T *m E), e_sig e \in unitmx, xsigx (invmx (e_sig e)) (crossXX X) \in unitmx,
      e_varb e = invmx (xsigx (invmx (e_sig e)) (crossXX X)) & \mxcol_r e_b e r = e_varb e *m xsigy (invmx (e_sig e)) (crossXy X y)].
Proof.
rewrite /sur_est; case S: (la_inv _) => [sigi|] //; case V: (la_inv _) => [varb|] // [<-] /=.
case: (la_invP S) => U1 E1; case: (la_invP V) => U2 E2; rewrite -E1; split=> //; exact: mxcolE.
Qed.

(** ** C46_normal: the coefficients solve the generalised normal equations, and nothing else does *)
Theorem C46_normal : forall E e, sur_est (crossXX X) (crossXy X y) E = Some e ->
  forall b, (forall r, \sum_t invmx (e_sig e) r t *: ((X r)^T *m resid b t) = 0) <-> (forall r, b r = e_b e r).
Proof.
move=> E e /est_fields [h1 h2 h3 h4 h5] b; set S := invmx _ in h3 h4 h5 *.
have N c : (forall r, \sum_t S r t *: ((X r)^T *m resid c t) = 0) <-> xsigx S (crossXX X) *m (\mxcol_r c r) = xsigy S (crossXy X y).
  rewrite xsigx_mul /xsigy; rewrite -eq_mxcolP; split=> H r; have := H r.
    under eq_bigr => t _ do rewrite /resid mulmxBr scalerBr.
    by rewrite sumrB => /eqP; rewrite subr_eq0 => /eqP.
  move=> Hr; under eq_bigr => t _ do rewrite /resid mulmxBr scalerBr.
  by rewrite sumrB Hr subrr.
split.
  move/N => H r; have : \mxcol_r b r = \mxcol_r e_b e r by rewrite h5 h4 -H mulKmx.
  by move/eq_mxcolP.
move=> H; apply/N; rewrite (eq_mxcol (B_ := fun r => e_b e r)); last exact: H.
by rewrite h5 h4 mulKVmx.
Qed.

(** ** C46_diagonal: when the estimated Sigma is diagonal, every equation has its OLS coefficients *)
Lemma diag_inv (S : 'M[R]_G) : S \in unitmx -> (forall r t, r != t -> S r t = 0) -> forall r t, r != t -> invmx S r t = 0.
Proof.
move=> U D r t ne.
have P : forall i j, (S *m invmx S) i j = S i i * invmx S i j.
  by move=> i j; rewrite mxE (bigD1 i) //= big1 ?addr0 // => l nl; rewrite D ?mul0r // eq_sym.
have a := P r r; have bb := P r t; rewrite mulmxV // !mxE eqxx in a; rewrite mulmxV // !mxE (negbTE ne) in bb.
have s0 : S r r != 0 by apply/eqP => z; move: a; rewrite z mul0r => /eqP; rewrite oner_eq0.
by apply: (mulfI s0); rewrite -bb mulr0.
Qed.
Theorem C46_diagonal : forall E e, sur_est (crossXX X) (crossXy X y) E = Some e -> (forall r t, r != t -> e_sig e r t = 0) ->
  (forall r, ols_eq (e_b e) r) /\ forall b, sur_ols X y = Some b -> forall r, e_b e r = b r.
Proof.
move=> E e H D; have [h1 h2 h3 h4 h5] := est_fields H; have DI := diag_inv h2 D.
have s0 r : invmx (e_sig e) r r != 0.
  apply/eqP => z; have : (invmx (e_sig e) *m e_sig e) r r = 0.
    by rewrite mxE big1 // => t _; case: (eqVneq r t) => [<-|ne]; rewrite ?z ?DI ?mul0r.
  by rewrite mulVmx // mxE eqxx => /eqP; rewrite oner_eq0.
have F b : (forall r, \sum_t invmx (e_sig e) r t *: ((X r)^T *m resid b t) = 0) <-> forall r, ols_eq b r.
  have G' r : \sum_t invmx (e_sig e) r t *: ((X r)^T *m resid b t) = invmx (e_sig e) r r *: ((X r)^T *m resid b r).
    by rewrite (bigD1 r) //= big1 ?addr0 // => t nt; rewrite DI ?scale0r // eq_sym.
  split=> Hb r; have := Hb r; rewrite ?G' /ols_eq.
    by move/eqP; rewrite scaler_eq0 (negbTE (s0 r)) => /eqP.
  by rewrite /resid => ->; rewrite scaler0.
split; first by apply/F/(C46_normal H).
move=> b; rewrite /sur_ols; case: ifP => // /forallP U [Eb].
have Q : forall r, b r = e_b e r.
  by apply/(C46_normal H); apply/F => t; rewrite -Eb /ols_eq mulmxBr mulmxA mulKVmx ?subrr //; exact: U.
by move=> r; rewrite Q.
Qed.

(** ** C46_defined: estimation succeeds exactly when the residual covariance is non-singular and every X r has full column rank *)
Theorem C46_defined : forall E, (exists e, sur_est (crossXX X) (crossXy X y) E = Some e) <->
  n%:R^-1 *: (E^T *m E) \in unitmx /\ forall r (c : 'cV[R]_(K r)), X r *m c = 0 -> c = 0.
Proof.
move=> E; split.
  case=> e /est_fields [h1 h2 h3 _ _]; split; first by rewrite -h1.
  move=> r c Hc; pose d : forall t, 'cV[R]_(K t) := fun t => \col_i \sum_(j < K r) (if (t == r) && (i == j :> nat) then c j 0 else 0).
  have dr : d r = c.
    apply/matrixP => i k; rewrite ord1 mxE (bigD1 i) //= !eqxx /= big1 ?addr0 // => j nj.
    by rewrite eq_sym val_eqE (negbTE nj).
  have Z : xsigx (invmx (e_sig e)) (crossXX X) *m (\mxcol_t d t) = 0.
    rewrite xsigx_mul -[RHS]mxcol0; apply: eq_mxcol => s; apply: big1 => t _.
    have -> : X t *m d t = 0; last by rewrite mulmx0 scaler0.
    case: (eqVneq t r) => [->|ne]; first by rewrite dr.
    have -> : d t = 0 by apply/matrixP => i k; rewrite !mxE; apply: big1 => j _; rewrite (negbTE ne).
    by rewrite mulmx0.
  have : \mxcol_t d t = \mxcol_t (0 : 'cV[R]_(K t)) by rewrite mxcol0 -[LHS](mulKmx h3) Z mulmx0.
  by move/eq_mxcolP/(_ r); rewrite dr.
case=> U F; rewrite /sur_est la_inv_unit //.
set S := invmx _; have P : pd S by apply: pd_inv; apply: sig_pd.
have V : xsigx S (crossXX X) \in unitmx.
  apply/unitmx_inj => c Hc.
  have : ((\mxcol_r submxcol c r)^T *m (xsigx S (crossXX X) *m (\mxcol_r submxcol c r))) 0 0 = 0 by rewrite mxcolE Hc mulmx0 mxE.
  rewrite quad_mul => /(proj2 (quad_pd (fun r => X r *m submxcol c r) P)) Z.
  by rewrite -[c]mxcolE -[RHS]mxcol0; apply: eq_mxcol => r; apply: F; exact: Z.
by rewrite la_inv_unit //; eexists.
Qed.

(** ** C46_minimum: the coefficients are the unique minimiser of the generalised sum of squares with weights inverse Sigma *)
Lemma quad_sym (S : 'M[R]_G) (v w : 'I_G -> 'cV[R]_n) : S^T = S ->
  \sum_r \sum_t S r t * ((v r)^T *m w t) 0 0 = \sum_r \sum_t S r t * ((w r)^T *m v t) 0 0.
Proof.
move=> sy; rewrite exchange_big /=; apply: eq_bigr => r _; apply: eq_bigr => t _.
rewrite -{1}sy mxE; congr (_ * _); by rewrite !dotE; apply: eq_bigr => i _; rewrite mulrC.
Qed.
Theorem C46_minimum : forall E e, sur_est (crossXX X) (crossXy X y) E = Some e ->
  forall b, objective (invmx (e_sig e)) (e_b e) <= objective (invmx (e_sig e)) b /\
  (objective (invmx (e_sig e)) b = objective (invmx (e_sig e)) (e_b e) -> forall r, b r = e_b e r).
Proof.
move=> E e H b; have [h1 h2 h3 h4 h5] := est_fields H; have P : pd (invmx (e_sig e)) by apply: pd_inv; rewrite h1; apply: sig_pd; rewrite -h1.
have N := proj2 (C46_normal H (e_b e)) (fun=> erefl).
set S := invmx _ in P N h3 *; have sy : S^T = S by case: P.
pose v := resid (e_b e); pose d r := X r *m (b r - e_b e r).
have rb r : resid b r = v r - d r by rewrite /resid /v /d /resid mulmxBr opprB addrA addrNK.
have cross : \sum_r \sum_t S r t * ((d r)^T *m v t) 0 0 = 0.
  apply: big1 => r _.
  have Z : \sum_t ((b r - e_b e r)^T *m (S r t *: ((X r)^T *m resid (e_b e) t))) 0 0 = 0 by rewrite -summxE -mulmx_sumr N mulmx0 mxE.
  rewrite -[RHS]Z; apply: eq_bigr => t _; by rewrite -scalemxAr [RHS]mxE /d trmx_mul mulmxA.
have Q : objective S b = objective S (e_b e) + \sum_r \sum_t S r t * ((d r)^T *m d t) 0 0.
  have e1 : objective S b = \sum_r \sum_t (S r t * ((v r)^T *m v t) 0 0 + S r t * ((d r)^T *m d t) 0 0 - S r t * ((v r)^T *m d t) 0 0 - S r t * ((d r)^T *m v t) 0 0).
    apply: eq_bigr => r _; apply: eq_bigr => t _; rewrite !rb -mulrDr -!mulrBr; congr (_ * _).
    have -> : (v r - d r)^T = (v r)^T - (d r)^T by exact: linearB.
    rewrite mulmxBl !mulmxBr.
    set A := (v r)^T *m v t; set B := (v r)^T *m d t; set C := (d r)^T *m v t; set D := (d r)^T *m d t.
    have m1 (U V : 'M[R]_1) : (U - V) 0 0 = U 0 0 - V 0 0 by rewrite !mxE.
    rewrite !m1; move: (A 0 0) (B 0 0) (C 0 0) (D 0 0) => a b' c d'.
    by rewrite opprB [LHS]addrA; congr (_ - _); rewrite addrAC.
  have cross2 : \sum_r \sum_t S r t * ((v r)^T *m d t) 0 0 = 0 by rewrite quad_sym.
  rewrite e1 (eq_bigr (fun r => \sum_t S r t * ((v r)^T *m v t) 0 0 + \sum_t S r t * ((d r)^T *m d t) 0 0 - \sum_t S r t * ((v r)^T *m d t) 0 0 - \sum_t S r t * ((d r)^T *m v t) 0 0)); last first.
    by move=> r _; rewrite !sumrB big_split.
  by rewrite !sumrB big_split /= cross cross2 !subr0.
have [q1 q2] := quad_pd d P; rewrite Q; split; first by rewrite ler_addl.
move/eqP; rewrite -subr_eq0 addrAC subrr add0r => /eqP /q2 Z r.
have full := proj1 (C46_defined E) (ex_intro _ e H).
by apply/eqP; rewrite -subr_eq0; apply/eqP; apply: (proj2 full); exact: Z.
Qed.

(** ** C46_varb: the coefficient covariance matrix is symmetric positive definite *)
Theorem C46_varb : forall E e, sur_est (crossXX X) (crossXy X y) E = Some e -> pd (e_varb e).
Proof.
move=> E e H; have [h1 h2 h3 h4 h5] := est_fields H; have P : pd (invmx (e_sig e)) by apply: pd_inv; rewrite h1; apply: sig_pd; rewrite -h1.
have full := proj2 (proj1 (C46_defined E) (ex_intro _ e H)).
rewrite h4; apply: pd_inv; split.
  rewrite /xsigx tr_mxblock; apply: eq_mxblock => r t; rewrite linearZ /= /crossXX trmx_mul trmxK; congr (_ *: _).
  by case: P => sy _; rewrite -{1}sy mxE.
move=> c c0; rewrite -[c]mxcolE -mulmxA quad_mul.
have [q1 q2] := quad_pd (fun r => X r *m submxcol c r) P; rewrite lt_neqAle q1 andbT eq_sym; apply/eqP => /q2 Z.
case/eqP: c0; rewrite -[c]mxcolE -[RHS]mxcol0; apply: eq_mxcol => r; apply: full; exact: Z.
Qed.
End Sur.

(** ** C46_common: when all the equations have the same regressors, every equation has its OLS coefficients, whatever the residuals used for Sigma *)
Theorem C46_common : forall (R : realFieldType) G n k (x : 'M[R]_(n, k)) (y : 'I_G -> 'cV[R]_n) (E : 'M[R]_(n, G)) e,
  sur_est (K := fun=> k) (crossXX (fun=> x)) (crossXy (fun=> x) y) E = Some e ->
  (forall r, x^T *m (y r - x *m e_b e r) = 0) /\ forall b, sur_ols (K := fun=> k) (fun=> x) y = Some b -> forall r, e_b e r = b r.
Proof.
move=> R G n k x y E e H; have [h1 h2 h3 h4 h5] := est_fields H.
have N := proj2 (C46_normal H (e_b e)) (fun=> erefl).
have Z r : x^T *m (y r - x *m e_b e r) = 0.
  have : \sum_s e_sig e r s *: (\sum_t invmx (e_sig e) s t *: (x^T *m resid (fun=> x) y (e_b e) t)) = 0.
    by apply: big1 => s _; rewrite N scaler0.
  under eq_bigr => s _ do rewrite scaler_sumr.
  rewrite exchange_big /=.
  have F t : \sum_s e_sig e r s *: (invmx (e_sig e) s t *: (x^T *m resid (fun=> x) y (e_b e) t)) = (r == t)%:R *: (x^T *m resid (fun=> x) y (e_b e) t).
    have -> : (r == t)%:R = (e_sig e *m invmx (e_sig e)) r t by rewrite mulmxV // mxE.
    by rewrite mxE scaler_suml; apply: eq_bigr => s _; rewrite scalerA.
  rewrite (eq_bigr _ (fun t _ => F t)) (bigD1 r) //= eqxx scale1r big1 ?addr0 // => t nt.
  by rewrite eq_sym (negbTE nt) scale0r.
split=> // b; rewrite /sur_ols; case: ifP => // /forallP U [<-] r; have := U r; rewrite /crossXX /crossXy => Ur.
have := Z r; rewrite mulmxBr => /eqP; rewrite subr_eq0 => /eqP ->; by rewrite mulmxA mulKmx.
Qed.
