(** C75: three-stage least squares. *)
From mathcomp Require Import all_ssreflect all_algebra.
From Verif Require Import LinRegModel LinRegProofs LinRegProofs2 SurModel SurTheorems Sur3Model.
Set Implicit Arguments.
Unset Strict Implicit.
Unset Printing Implicit Defensive.
Import Order.TTheory GRing.Theory Num.Theory.
Local Open Scope ring_scope.

(** ** Specification: the projection on the columns of H *)
Definition proj (R : realFieldType) n h (H : 'M[R]_(n, h)) : 'M[R]_n := H *m invmx (H^T *m H) *m H^T.

Section Three.
Variables (R : realFieldType) (G n : nat) (kx ky kq : 'I_G -> nat).
Variables (X : forall r, 'M[R]_(n, kx r)) (Yd : forall r, 'M[R]_(n, ky r)) (Q : forall r, 'M[R]_(n, kq r)) (y : 'I_G -> 'cV[R]_n).
Local Notation Z := (bigZ X Yd).
Local Notation H := (bigH X Q).
Local Notation Zh := (bigZhat X Yd Q).
Local Notation P := (fun r => proj (H r)).

Lemma s3_fields s : base_3sls X Yd Q y = Some s ->
  [/\ forall r, (H r)^T *m H r \in unitmx, sur_ols Zh y = Some (l_b2 s), l_E2 s = sur_resids y Z (l_b2 s),
      sur_est (crossXX Zh) (crossXy Zh y) (l_E2 s) = Some (l_est s) & l_E s = sur_resids y Z (e_b (l_est s))].
Proof.
rewrite /base_3sls; case: ifP => // /forallP U; case O: (sur_ols _ _) => [b2|] //; case S: (sur_est _ _ _) => [e|] // [<-]; by split.
Qed.
Lemma proj_tr h (A : 'M[R]_(n, h)) : (proj A)^T = proj A.
Proof. by rewrite /proj !trmx_mul trmxK trmx_inv gram_sym mulmxA. Qed.
Lemma proj_id h (A : 'M[R]_(n, h)) : A^T *m A \in unitmx -> proj A *m A = A.
Proof. by move=> U; rewrite /proj -!mulmxA mulVmx // mulmx1. Qed.
Lemma proj_idem h (A : 'M[R]_(n, h)) : A^T *m A \in unitmx -> proj A *m proj A = proj A.
Proof. by move=> U; rewrite {2}/proj !mulmxA proj_id. Qed.
(** ** C75_first: the regressors of the second stage are the projections of the regressors on the instruments *)
Theorem C75_first : forall s, base_3sls X Yd Q y = Some s -> forall r, Zh r = P r *m Z r.
Proof.
move=> s /s3_fields [U _ _ _ _] r; rewrite /bigZhat /bigZ [RHS]mul_mx_row.
congr (row_mx _ _); last by rewrite /proj !mulmxA.
by have := proj_id (U r); rewrite {2 3}/bigH [LHS]mul_mx_row => /eq_row_mx [-> _].
Qed.
(** ** C75_2sls: the starting values are the two-stage least squares estimates of the equations *)
Theorem C75_2sls : forall s rb g sk, base_3sls X Yd Q y = Some s ->
  forall r, exists t, base_tsls (y r) (Z r) (H r) rb g sk = Some t /\ l_b2 s r = t_betas t /\ forall i, l_E2 s i r = t_u t i 0.
Proof.
move=> s rb g sk S r; have F := C75_first S r; case: (s3_fields S) => U O E2 _ _.
move: O; rewrite /sur_ols; case: ifP => // /forallP V [Eb].
have f : (Z r)^T *m H r *m invmx ((H r)^T *m H r) *m ((Z r)^T *m H r)^T = crossXX Zh r r.
  rewrite /crossXX F [(P r *m Z r)^T]trmx_mul proj_tr [RHS]mulmxA -[(Z r)^T *m P r *m P r]mulmxA proj_idem //.
  by rewrite [((Z r)^T *m H r)^T]trmx_mul trmxK /proj !mulmxA.
rewrite /base_tsls la_inv_unit // f la_inv_unit //; eexists; split; first reflexivity.
have bE : l_b2 s r = invmx (crossXX Zh r r) *m ((Z r)^T *m H r *m invmx ((H r)^T *m H r)) *m ((H r)^T *m y r).
  rewrite -Eb /crossXy F trmx_mul proj_tr /proj !mulmxA; by [].
by split=> // i; rewrite E2 !mxE bE.
Qed.
(** ** C75_resid: the reported residuals are those of the structural equations *)
Theorem C75_resid : forall s, base_3sls X Yd Q y = Some s -> forall i r, l_E s i r = y r i 0 - (Z r *m e_b (l_est s) r) i 0.
Proof. by move=> s /s3_fields [_ _ _ _ ->] i r; rewrite !mxE. Qed.
(** ** C75_diagonal: with a diagonal Sigma the third stage changes nothing *)
Theorem C75_diagonal : forall s, base_3sls X Yd Q y = Some s -> (forall r t, r != t -> e_sig (l_est s) r t = 0) ->
  forall r, e_b (l_est s) r = l_b2 s r.
Proof. by move=> s /s3_fields [_ O _ S _] D r; case: (C46_diagonal S D) => _ /(_ _ O). Qed.
(** ** C75_minimum: the coefficients are the unique minimiser of the weighted sum of squares of y - Zhat b, and their covariance is
    positive definite *)
Theorem C75_minimum : forall s, base_3sls X Yd Q y = Some s ->
  pd (e_varb (l_est s)) /\ forall b, objective Zh y (invmx (e_sig (l_est s))) (e_b (l_est s)) <= objective Zh y (invmx (e_sig (l_est s))) b /\
  (objective Zh y (invmx (e_sig (l_est s))) b = objective Zh y (invmx (e_sig (l_est s))) (e_b (l_est s)) -> forall r, b r = e_b (l_est s) r).
Proof. by move=> s /s3_fields [_ _ _ S _]; split; [exact: C46_varb S|exact: C46_minimum S]. Qed.

Lemma zh_orth s r : base_3sls X Yd Q y = Some s -> (Zh r)^T *m (1%:M - P r) = 0.
Proof.
move=> S; have F := C75_first S r; case: (s3_fields S) => U _ _ _ _.
by rewrite F trmx_mul proj_tr mulmxBr mulmx1 -mulmxA proj_idem // subrr.
Qed.
(** ** C75_moment: the weighted cross products of the instruments of equation r with the residuals of the system, exactly.
    The right-hand side is what the projection of the other equations on their own instruments leaves out. *)
Definition sys_moment (S : 'M[R]_G) (b : forall r, 'cV[R]_(kx r + ky r)%N) r : 'cV[R]_(kx r + ky r)%N :=
  \sum_t S r t *: ((Zh r)^T *m (y t - Z t *m b t)).
Theorem C75_moment : forall s, base_3sls X Yd Q y = Some s -> forall r,
  sys_moment (invmx (e_sig (l_est s))) (e_b (l_est s)) r =
  - \sum_(t | t != r) invmx (e_sig (l_est s)) r t *: ((Zh r)^T *m ((1%:M - P t) *m (Z t *m e_b (l_est s) t))).
Proof.
move=> s S r; have F := C75_first S; case: (s3_fields S) => U O E2 He _.
have N := proj2 (C46_normal He (e_b (l_est s))) (fun=> erefl) r.
set Si := invmx _ in N *; set b := e_b _ in N *.
have A : sys_moment Si b r = \sum_t Si r t *: ((Zh r)^T *m resid Zh y b t) - \sum_t Si r t *: ((Zh r)^T *m ((1%:M - P t) *m (Z t *m b t))).
  rewrite -sumrB; apply: eq_bigr => t _; rewrite -scalerBr -mulmxBr; congr (_ *: (_ *m _)).
  by rewrite /resid F mulmxBl mul1mx opprB addrA -[P t *m _ *m _]mulmxA subrK.
rewrite A N sub0r; congr (- _); rewrite (bigD1 r) //= [X in X + _](_ : _ = 0) ?add0r //.
by rewrite mulmxA (zh_orth _ S) mul0mx scaler0.
Qed.
(** ** C75_common_partial: when the instruments of the equations span the same space, the residuals satisfy the moment conditions of 3SLS *)
(* partial; missing: instruments that span different spaces (C75_refuted) *)
Theorem C75_common_partial : forall s, base_3sls X Yd Q y = Some s -> (forall r t, P r = P t) ->
  forall r, sys_moment (invmx (e_sig (l_est s))) (e_b (l_est s)) r = 0.
Proof.
move=> s S C r; rewrite (C75_moment S) big1 ?oppr0 // => t _.
by rewrite mulmxA -(C r t) (zh_orth _ S) mul0mx scaler0.
Qed.
End Three.

(** ** C75_refuted: with instruments that differ between the equations the residuals do not satisfy the moment conditions *)
Section Refuted.
Variable R : realFieldType.
Local Notation zero := (fun _ : 'I_2 => 0%N).
Local Notation one := (fun _ : 'I_2 => 1%N).
Definition tX (r : 'I_2) : 'M[R]_(3, 0) := 0.
Definition tH (r : 'I_2) : 'cV[R]_3 := \col_i ((i : nat) == r)%:R.
Definition tZ (r : 'I_2) : 'cV[R]_3 := \col_i (((i : nat) == 0%N) || ((i : nat) == r))%:R.
Definition ty (r : 'I_2) : 'cV[R]_3 := \col_i ((i : nat) != 0%N)%:R.
Lemma sum3 (f : 'I_3 -> R) : \sum_i f i = f 0 + f 1 + f (1 + 1).
Proof. by rewrite !big_ord_recl big_ord0 addr0 addrA; congr (f _ + f _ + f _); apply: val_inj. Qed.
Lemma sum2 (f : 'I_2 -> R) : \sum_i f i = f 0 + f 1.
Proof. by rewrite !big_ord_recl big_ord0 addr0; congr (f _ + f _); apply: val_inj. Qed.
Lemma tHH r t : (tH r)^T *m tH t = (r == t)%:R%:M.
Proof.
apply/matrixP => a b; rewrite !ord1 !mxE sum3 !mxE.
by case: r => [[|[|]]] // ?; case: t => [[|[|]]] // ? /=; rewrite ?mul0r ?mul1r ?add0r ?addr0 ?mulr0n ?mulr1n.
Qed.
Lemma tHZ r : (tH r)^T *m tZ r = 1%:M.
Proof.
apply/matrixP => a b; rewrite !ord1 !mxE sum3 !mxE.
by case: r => [[|[|]]] // ? /=; rewrite ?mul0r ?mul1r ?add0r ?addr0.
Qed.
Lemma tHy r t : (tH r)^T *m ty t = ((r : nat) != 0%N)%:R%:M.
Proof.
apply/matrixP => a b; rewrite !ord1 !mxE sum3 !mxE.
by case: r => [[|[|]]] // ? /=; rewrite ?mul0r ?mul1r ?add0r ?addr0.
Qed.
Lemma bH r : bigH (kx := zero) (kq := one) tX tH r = tH r. Proof. exact: row_thin_mx. Qed.
Lemma bZ r : bigZ (kx := zero) (ky := one) tX tZ r = tZ r. Proof. exact: row_thin_mx. Qed.
Lemma bZh r : bigZhat (kx := zero) (ky := one) (kq := one) tX tZ tH r = tH r.
Proof. by rewrite /bigZhat [LHS]row_thin_mx !bH tHZ tHH eqxx invmx1 !mulmx1. Qed.
Definition tS : 'M[R]_2 := \matrix_(i, j) (if i == j then 2%:R else -1).
Definition tE : 'M[R]_(3, 2) := \matrix_(i, r) (ty r - tZ r *m ((r : nat) != 0%N)%:R%:M) i 0.
Lemma tsig : 3%:R^-1 *: (tE^T *m tE) *m tS = 1%:M.
Proof.
have EE : tE^T *m tE = \matrix_(i, j) (if i == j then 2%:R else 1).
  apply/matrixP => i j; rewrite !mxE sum3 !mxE !big_ord1 !mxE.
  by case: i => [[|[|]]] // ?; case: j => [[|[|]]] // ? /=; rewrite ?mul0r ?mulr0 ?mul1r ?mulr1 ?subr0 ?subrr ?sub0r ?mulr1 ?mul0r ?mulr0 ?add0r ?addr0 ?mulrNN ?mulr1.
rewrite EE -scalemxAl; apply/matrixP => i j; rewrite !mxE sum2 !mxE.
have t0 : (3%:R : R) != 0 by rewrite pnatr_eq0.
have e1 : (2%:R * 2%:R - 1 : R) = 3%:R by rewrite -natrM -[(2 * 2)%N]/(3 + 1)%N natrD addrK.
case: i => [[|[|]]] // ?; case: j => [[|[|]]] // ? /=; rewrite ?mul1r ?mulrN1 ?mulN1r ?mulr1 ?mulNr ?mul1r ?e1 ?subrr ?addNr ?mulr0 ?mulVf //.
by rewrite addrC e1 mulVf.
Qed.
Theorem C75_refuted : exists s r, base_3sls (kx := zero) (ky := one) (kq := one) tX tZ tH ty = Some s /\
  sys_moment tX tZ tH ty (invmx (e_sig (l_est s))) (e_b (l_est s)) r <> 0.
Proof.
have U r : (bigH (kx := zero) (kq := one) tX tH r)^T *m bigH (kx := zero) (kq := one) tX tH r \in unitmx by rewrite bH tHH eqxx unitmx1.
have [b2 [O B]] : exists b2, sur_ols (K := one) (bigZhat (kx := zero) (ky := one) (kq := one) tX tZ tH) ty = Some b2 /\ forall r, b2 r = ((r : nat) != 0%N)%:R%:M.
  rewrite /sur_ols /crossXX /crossXy ifT; last by apply/forallP => r; rewrite bZh tHH eqxx unitmx1.
  by eexists; split; [reflexivity|] => r /=; rewrite bZh tHH tHy eqxx invmx1 mul1mx.
have E2 : sur_resids (K := one) ty (bigZ (kx := zero) (ky := one) tX tZ) b2 = tE.
  by apply/matrixP => i r; rewrite [LHS]mxE [RHS]mxE B bZ.
have t0 : (3%:R : R) != 0 by rewrite pnatr_eq0.
have [SU SI] : 3%:R^-1 *: (tE^T *m tE) \in unitmx /\ invmx (3%:R^-1 *: (tE^T *m tE)) = tS.
  have [SU _] := mulmx1_unit tsig; split=> //; by rewrite -[LHS]mulmx1 -tsig mulKmx.
have [e He] : exists e, sur_est (K := one) (crossXX (bigZhat (kx := zero) (ky := one) (kq := one) tX tZ tH)) (crossXy (bigZhat (kx := zero) (ky := one) (kq := one) tX tZ tH) ty) tE = Some e.
  apply/C46_defined; split=> // r c; rewrite bZh => z.
  by rewrite -[c]mul1mx; have := tHH r r; rewrite eqxx => <-; rewrite -mulmxA z mulmx0.
have [h1 h2 h3 h4 h5] := est_fields He.
have S : base_3sls (kx := zero) (ky := one) (kq := one) tX tZ tH ty = Some (Sls3 (kx := zero) (ky := one) b2 tE e (sur_resids (K := one) ty (bigZ (kx := zero) (ky := one) tX tZ) (e_b e))).
  by rewrite /base_3sls ifT; [rewrite O E2 He|apply/forallP].
exists (Sls3 (kx := zero) (ky := one) b2 tE e (sur_resids (K := one) ty (bigZ (kx := zero) (ky := one) tX tZ) (e_b e))), 0; split=> //.
rewrite (C75_moment S) /= h1 SI.
have be : e_b e 1 = 2%:R^-1%:M.
  have N := proj1 (C46_normal He (fun r => (if (r : nat) == 0%N then 0 else 2%:R^-1)%:M)).
  rewrite -N //= => r; rewrite h1 SI !big_ord_recl big_ord0 addr0 /resid !bZh !mulmxBr !mulmxA !tHH !tHy -!scalar_mxM.
  apply/matrixP => a b; rewrite (ord1 a) (ord1 b) !mxE !eqxx !mulr1n.
  case: r => [[|[|]]] // ? /=; rewrite ?mul0r ?mulr0 ?subr0 ?mulr0 ?mulr1 ?mul1r ?subr0 ?sub0r ?oppr0 ?mulr0 ?addr0 ?add0r //.
  have two : (2%:R : R) != 0 by rewrite pnatr_eq0.
  by rewrite mulrBr mulr1 divff // -[2%:R]/(1 + 1) addrK addNr.
have -> : \sum_(t < 2 | t != 0) tS 0 t *: ((bigZhat (kx := zero) (ky := one) (kq := one) tX tZ tH 0)^T *m ((1%:M - proj (bigH (kx := zero) (kq := one) tX tH t)) *m (bigZ (kx := zero) (ky := one) tX tZ t *m e_b e t)))
  = - 2%:R^-1%:M :> 'cV[R]_1.
  rewrite (bigD1 1) //= big1 ?addr0; last by case=> [[|[|]]].
  have -> : tS 0 1 = -1 by rewrite mxE.
  rewrite be bZh bH bZ /proj scaleN1r mulmxBl mul1mx mulmxBr !mulmxA tHH /=.
  have -> : (0%:R%:M : 'M[R]_1) = 0 by rewrite raddf0.
  rewrite !mul0mx subr0; have -> : (tH 0)^T *m tZ 1 = 1%:M; last by rewrite mul1mx.
  by apply/matrixP => a b; rewrite !ord1 !mxE sum3 !mxE /= ?mul0r ?mul1r ?add0r ?addr0.
move/eqP; rewrite opprK => /eqP/matrixP/(_ 0 0); rewrite !mxE eqxx mulr1n => /eqP.
by rewrite invr_eq0 pnatr_eq0.
Qed.
End Refuted.
