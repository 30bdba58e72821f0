(** C86: the asymptotic variance exists and is positive definite; the tests on the spatial coefficients. *)
From Coq Require Import Reals.
From mathcomp Require Import all_ssreflect all_algebra.
From Verif Require Import Rinst Mring LinRegModel LinRegProofs LinRegProofs2 LinRegTheorems Kron SurModel SueModel SueSpec SueProofs SueTheorems MxDerivSpec MxDeriv
  SuvModel SuvSpec SuvTheorems.
Set Implicit Arguments.
Unset Strict Implicit.
Unset Printing Implicit Defensive.
Import Order.TTheory GRing.Theory Num.Theory.
Local Open Scope ring_scope.

Lemma frob_gt0 m n (M : 'M[R]_(m, n)) : M != 0 -> 0 < \tr (M^T *m M).
Proof.
move=> M0; have E : \tr (M^T *m M) = \sum_j \sum_i M i j ^+ 2.
  by apply: eq_bigr => j _; rewrite mxE; apply: eq_bigr => i _; rewrite mxE expr2.
have P j : 0 <= \sum_i M i j ^+ 2 by apply: sumr_ge0 => i _; apply: sqr_ge0.
rewrite E lt_def sumr_ge0 // andbT; apply: contra M0 => /eqP /psumr_eq0P H; apply/eqP/matrixP => i j; rewrite [RHS]mxE.
have /(_ j isT) /psumr_eq0P := H (fun j _ => P j) => /(_ (fun i _ => sqr_ge0 _)) /(_ i isT) /eqP; by rewrite sqrf_eq0 => /eqP.
Qed.
Lemma mxtr_sum (I : finType) m (F : I -> 'M[R]_m) : \tr (\sum_i F i) = \sum_i \tr (F i).
Proof. by apply: (big_morph _ (@mxtraceD _ m)); rewrite mxtrace0. Qed.
Section Pd.
Variables (G n : nat) (W : 'M[R]_n) (lam : 'cV[R]_G) (Sig : 'M[R]_G).
Hypothesis PS : pd Sig.
Hypothesis UB : forall r, 1%:M - lam r 0 *: W \in unitmx.
Let D := suv_D W lam.
Hypothesis ND : forall r (c : R), D r + (D r)^T != c%:M.
Notation PP := (size (suv_tlist G)).
Definition Kth (th : 'cV[R]_(G + PP)) : 'M[R]_(G * n) := \sum_p th p 0 *: suv_K W lam Sig p.
Lemma quad_K th : (th^T *m suv_V W lam Sig *m th) 0 0 = 1 / 2%:R * \tr (kron (invmx Sig) 1%:M *m Kth th *m kron (invmx Sig) 1%:M *m Kth th).
Proof.
rewrite /Kth mulmx_sumr mxtr_sum mulr_sumr [LHS]mxE; apply: eq_bigr => q _; rewrite [(th^T *m _) 0 q]mxE mulr_suml.
rewrite mulmx_sumr !mulmx_suml mxtr_sum mulr_sumr; apply: eq_bigr => p _.
by rewrite [th^T 0 p]mxE V_K // gauss_mid // -!scalemxAr -!scalemxAl !mxtraceZ; move: (th p 0) (th q 0) (\tr _) (1 / _) => u v w z; mring R_realFieldType.
Qed.
Lemma K_sym th : (Kth th)^T = Kth th.
Proof.
have [sy _] := PS; rewrite /Kth linear_sum /=; apply: eq_bigr => p _; rewrite linearZ /=; congr (_ *: _).
rewrite /suv_K; case: suv_par => [i|hk]; last first.
  rewrite /Ksig kron_tr trmx1; congr kron; by apply/matrixP => r t; rewrite !mxE orbC.
by rewrite /Klam [LHS]linearD /= !kron_tr trmxK !trmx_mul trmx_delta sy addrC.
Qed.
Lemma K_block th r t : \matrix_(a, b) Kth th (pix r a) (pix t b) =
  Sig r t *: (th (lshift PP r) 0 *: D r + th (lshift PP t) 0 *: (D t)^T) + (\sum_a th (rshift G a) 0 * suv_H (pair G a) r t)%:M.
Proof.
apply/matrixP => a b; rewrite [LHS]mxE /Kth summxE big_split_ord /=.
have -> : \sum_(i < G) (th (lshift PP i) 0 *: suv_K W lam Sig (lshift PP i)) (pix r a) (pix t b) = Sig r t * (th (lshift PP r) 0 * D r a b + th (lshift PP t) 0 * D t b a).
  rewrite mulrDr; have K i : (th (lshift PP i) 0 *: suv_K W lam Sig (lshift PP i)) (pix r a) (pix t b) =
      (if i == r then th (lshift PP i) 0 * (Sig r t * D i a b) else 0) + (if i == t then th (lshift PP i) 0 * (Sig r t * D i b a) else 0).
    rewrite mxE /suv_K /suv_par (unsplitK (inl _ i)) /Klam [X in _ * X = _]mxE !kronE mulrDr; congr (_ + _).
      have := delta_mid 1%:M Sig i i r t; rewrite mul1mx => ->; rewrite mxE [r == i]eq_sym; case: eqP => [->|]; rewrite ?mul1r // !mul0r mulr0 //.
    have := delta_mid Sig 1%:M i i r t; rewrite mulmx1 => ->; rewrite [1%:M _ _]mxE [_^T a b]mxE; case: eqP => [->|]; rewrite ?mulr1 // mulr0 mul0r mulr0 //.
  rewrite (eq_bigr _ (fun i _ => K i)) big_split /= -!big_mkcond !big_pred1_eq; congr (_ + _); by rewrite mulrCA.
have -> : \sum_(i < PP) (th (rshift G i) 0 *: suv_K W lam Sig (rshift G i)) (pix r a) (pix t b) = (\sum_c th (rshift G c) 0 * suv_H (pair G c) r t) * (a == b)%:R.
  rewrite mulr_suml; apply: eq_bigr => i _; by rewrite mxE /suv_K /suv_par (unsplitK (inr _ i)) /Ksig kronE [1%:M _ _]mxE mulrA.
rewrite [RHS]mxE; congr (_ + _); last by rewrite [RHS]mxE; case: (a == b); rewrite ?mulr1 ?mulr0 ?mulr1n ?mulr0n.
by rewrite [RHS]mxE; congr (_ * _); rewrite [RHS]mxE; congr (_ + _); rewrite [RHS]mxE //; congr (_ * _); rewrite [RHS]mxE.
Qed.
Lemma pair_inj : injective (fun a => pair G a).
Proof.
move=> a c E; apply/val_inj => /=.
by have := index_pair a (pair_le a); have := index_pair c (pair_le c); rewrite E !eqxx => /eqP <- /eqP <-.
Qed.
Lemma K_eq0 th : Kth th = 0 -> th = 0.
Proof.
move=> K0; have B r t := K_block th r t.
have z r t : (\matrix_(a, b) Kth th (pix r a) (pix t b)) = 0 :> 'M[R]_n by rewrite K0; apply/matrixP => a b; rewrite !mxE.
have L r : th (lshift PP r) 0 = 0.
  have := B r r; rewrite z => /esym /eqP; rewrite -scalerDr scalerA addr_eq0; set c := (\sum_a _); set s := _ * _ => /eqP E.
  apply/eqP/negP => /negP th0; have s0 : s != 0 by rewrite mulf_neq0 // gt_eqF // pd_diag_gt0.
  by case/eqP: (ND r (- (s^-1 * c))); apply: (scalerI s0); rewrite E scale_scalar_mx mulrN mulVKf // raddfN.
have Hz r t : \sum_a th (rshift G a) 0 * suv_H (pair G a) r t = 0.
  have := B r t; rewrite z !L !scale0r addr0 scaler0 add0r => /esym E.
  have [i _] : exists i : 'I_n, true.
    case: (posnP n) => [n0|n0]; last by exists (Ordinal n0).
    by have := ND r 0; case/eqP; apply/matrixP => i; exfalso; have := leq_trans (ltn_ord i) (eq_leq n0).
  by move/matrixP/(_ i i): E; rewrite !mxE eqxx mulr1n.
apply/matrixP => p j; rewrite [j]ord1 [RHS]mxE -(splitK p); case: split => [r|a] /=; first exact: L.
have := Hz (pair G a).1 (pair G a).2; rewrite (bigD1 a) //= big1 => [|c ca].
  by rewrite addr0 mxE -surjective_pairing eqxx mulr1.
rewrite mxE -surjective_pairing; case: eqP => [E|_ /=].
  by case/eqP: ca; apply: pair_inj.
case: eqP => [E|_]; last by rewrite mulr0.
have := pair_le a; have := pair_le c; rewrite -E /= => l1 l2.
have e : (pair G a).1 = (pair G a).2 by apply/val_inj/eqP; rewrite eqn_leq l1 l2.
by case/eqP: ca; apply: pair_inj; rewrite [RHS]surjective_pairing -E e.
Qed.
Lemma quad_gt0 (th : 'cV[R]_(G + PP)) : th != 0 -> 0 < (th^T *m suv_V W lam Sig *m th) 0 0.
Proof.
move=> t0; rewrite quad_K pmulr_rgt0 ?divr_gt0 ?ltr01 ?ltr0n //; have [L UL E] := chol (pd_inv PS).
have EK : kron (invmx Sig) (1%:M : 'M[R]_n) = (kron L 1%:M)^T *m kron L 1%:M by rewrite kron_tr trmx1 kron_mul mulmx1 -E.
set F := kron L 1%:M in EK; have UF : F \in unitmx by case: (kron_unit UL (unitmx1 _ n)).
have -> : \tr (kron (invmx Sig) 1%:M *m Kth th *m kron (invmx Sig) 1%:M *m Kth th) = \tr ((F *m Kth th *m F^T)^T *m (F *m Kth th *m F^T)).
  rewrite !trmx_mul trmxK K_sym EK -!mulmxA mxtrace_mulC -!mulmxA //.
apply: frob_gt0; apply: contra t0 => /eqP M0; apply/eqP/K_eq0.
have UT : F^T \in unitmx by rewrite unitmx_tr.
have := congr1 (fun A => invmx F *m (A *m invmx F^T)) M0; rewrite mulmxK // mulKmx // mul0mx mulmx0 //.
Qed.
Lemma V_pd : pd (suv_V W lam Sig).
Proof.
split; last exact: quad_gt0.
by apply/matrixP => p q; rewrite mxE !V_K // gauss_sym.
Qed.
End Pd.

Theorem C86_vm : forall G n (W : 'M[R]_n) (lam : 'cV[R]_G) (Sig : 'M[R]_G), pd Sig -> (forall r, 1%:M - lam r 0 *: W \in unitmx) ->
  (forall r (c : R), let D := W *m invmx (1%:M - lam r 0 *: W) in D + D^T != c%:M) ->
  exists V vm, [/\ suv_big W lam Sig = Some V, surerrvm W lam Sig = Some vm, V *m vm = 1%:M & pd vm].
Proof.
move=> G n W lam Sig PS U ND; have P := V_pd PS U ND; exists (suv_V W lam Sig), (invmx (suv_V W lam Sig)).
have UV := pd_unit P; rewrite /surerrvm bigE // la_inv_unit //; split=> //; [exact: mulmxV|exact: pd_inv].
Qed.
Theorem C86_joint_test : forall G n (W : 'M[R]_n) (lam : 'cV[R]_G) (Sig : 'M[R]_G), pd Sig -> (forall r, 1%:M - lam r 0 *: W \in unitmx) ->
  (forall r (c : R), let D := W *m invmx (1%:M - lam r 0 *: W) in D + D^T != c%:M) ->
  exists vm w, [/\ surerrvm W lam Sig = Some vm, suv_joinlam W lam Sig = Some w, w = (lam^T *m invmx (ulsubmx vm) *m lam) 0 0, 0 <= w & w = 0 <-> forall r, lam r 0 = 0].
Proof.
move=> G n W lam Sig PS U ND; have [V [vm [_ E _ P]]] := C86_vm PS U ND; exists vm.
have Pu : pd (ulsubmx vm) by apply: (@pd_ul _ _ _ _ (ursubmx vm) (dlsubmx vm) (drsubmx vm)); rewrite submxK.
have [|w Ew [w0 Z _]] := @C10_wald_zero_and_sign _ _ _ lam 1%:M 0 _ Pu; first by move=> c; rewrite trmx1 mul1mx.
exists w; rewrite /suv_joinlam E; split=> //.
  move: Ew; rewrite /wald_w !mul1mx trmx1 mulmx1 la_inv_unit ?pd_unit // subr0 mulmxA; by case=> <-.
move: Z; rewrite mul1mx => Z; split=> [/eqP|H]; first by rewrite Z => /eqP -> r; rewrite mxE.
by apply/eqP; rewrite Z; apply/eqP/matrixP => r j; rewrite [j]ord1 H mxE.
Qed.
Theorem C86_constancy_test : forall G n (W : 'M[R]_n) (lam : 'cV[R]_G.+1) (Sig : 'M[R]_G.+1), pd Sig -> (forall r, 1%:M - lam r 0 *: W \in unitmx) ->
  (forall r (c : R), let D := W *m invmx (1%:M - lam r 0 *: W) in D + D^T != c%:M) ->
  let C : 'M[R]_(G, G.+1) := \matrix_(j, c) ((c == 0)%:R - (c == lift 0 j)%:R) in
  exists vm w, [/\ surerrvm W lam Sig = Some vm, suv_lamtest W lam Sig = Some w, w = ((C *m lam)^T *m invmx (C *m ulsubmx vm *m C^T) *m (C *m lam)) 0 0,
    0 <= w & w = 0 <-> forall r s, lam r 0 = lam s 0].
Proof.
move=> G n W lam Sig PS U ND CC; have [V [vm [_ E _ P]]] := C86_vm PS U ND; exists vm.
have Pu : pd (ulsubmx vm) by apply: (@pd_ul _ _ _ _ (ursubmx vm) (dlsubmx vm) (drsubmx vm)); rewrite submxK.
rewrite /suv_lamtest E; set C := (\matrix_(j, c) if _ then _ else _).
have CE : CC = C.
  apply/matrixP => j c; rewrite !mxE; case: (unliftP 0 c) => [k ->|->] /=; last by rewrite subr0.
  rewrite sub0r -(inj_eq val_inj) /=; by case: eqP => _; rewrite ?oppr0.
have RE m (v : 'M[R]_(G.+1, m)) j k : (C *m v) j k = v 0 k - v (lift 0 j) k.
  rewrite mxE big_ord_recl (bigD1 j) //= big1 ?addr0 => [|i ij]; rewrite !mxE /= ?eqxx ?mul1r ?mulN1r //.
  rewrite eqSS; case: eqP => [/val_inj E'|_]; last by rewrite mul0r.
  by rewrite E' eqxx in ij.
have CI (c : 'cV[R]_G) : C^T *m c = 0 -> c = 0.
  move=> Hc; apply/matrixP => j k; rewrite [k]ord1 [RHS]mxE.
  have := congr1 (fun M : 'cV[R]_G.+1 => M (lift 0 j) 0) Hc; rewrite /= mxE (bigD1 j) //= big1 ?addr0 => [|i ij].
    by rewrite !mxE /= eqxx mulN1r => /eqP; rewrite oppr_eq0 => /eqP.
  rewrite !mxE /= eqSS; case: eqP => [/val_inj E'|_]; last by rewrite mul0r.
  by rewrite E' eqxx in ij.
have [w Ew [w0 Z _]] := @C10_wald_zero_and_sign _ _ _ lam C 0 _ Pu CI.
exists w; split=> //.
  have Pc := rvr_pd Pu CI.
  move: Ew; rewrite /wald_w CE subr0 mulmxA la_inv_unit; last by apply: pd_unit; rewrite -mulmxA.
  by rewrite mulmxA; case=> <-.
split=> [/eqP|H].
  rewrite Z => /eqP M; have e r : lam r 0 = lam 0 0.
    case: (unliftP 0 r) => [j ->|-> //]; have := congr1 (fun M : 'cV[R]_G => M j 0) M; rewrite /= RE mxE => /eqP; by rewrite subr_eq0 => /eqP.
  by move=> r s; rewrite !e.
by apply/eqP; rewrite Z; apply/eqP/matrixP => r j; rewrite [j]ord1 RE [RHS]mxE (H 0 (lift 0 r)) subrr.
Qed.
(** symmetric weights that are not a multiple of the identity, e.g. with a zero diagonal and at least one link *)
Theorem C86_symmetric : forall G n (W : 'M[R]_n) (lam : 'cV[R]_G) r (c : R), W^T = W -> (forall a : R, W != a%:M) -> 1%:M - lam r 0 *: W \in unitmx ->
  let D := W *m invmx (1%:M - lam r 0 *: W) in D + D^T != c%:M.
Proof.
move=> G n W lam r c sy N U /=; apply/eqP; set B := _ - _ in U *.
have BT : B^T = B by rewrite /B linearB /= trmx1 linearZ /= sy.
have C : W *m B = B *m W by rewrite /B mulmxBr mulmxBl mulmx1 mul1mx -scalemxAr -scalemxAl.
have C' : invmx B *m W = W *m invmx B by apply: (can_inj (mulKmx U)); rewrite mulKVmx // mulmxA -C mulmxK.
rewrite trmx_mul trmx_inv BT sy C' => /(congr1 (mulmx^~ B)); rewrite mulmxDl mulmxKV // mul_scalar_mx /B scalerBr scalemx1 scalerA => H.
have E : (2%:R + c * lam r 0) *: W = c%:M by rewrite scalerDl scaler_nat mulr2n H subrK.
case: (eqVneq (2%:R + c * lam r 0) 0) => [Z|Z].
  have c0 : c%:M = 0 :> 'M[R]_n by rewrite -E Z scale0r.
  case: (eqVneq c 0) => [c00|cn]; first by move: Z; rewrite c00 mul0r addr0 => /eqP; rewrite pnatr_eq0.
  have e (A : 'M[R]_n) : A = 0 by rewrite -[A]scale1r -(mulVf cn) -scalerA -[c *: A]mul_scalar_mx c0 mul0mx scaler0.
  by case/eqP: (N 0); rewrite (e W) (e 0%:M).
case/eqP: (N ((2%:R + c * lam r 0)^-1 * c)).
by rewrite -scale_scalar_mx -E scalerA mulVf // scale1r.
Qed.
