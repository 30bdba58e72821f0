(** Moments of vectors with independent components over a finite product of equally likely outcomes, and of linear-quadratic forms in them. *)
From mathcomp Require Import all_ssreflect all_algebra.
From Coq Require Import Ring Field.
From Verif Require Import Mring LinRegModel LinRegProofs LinRegProofs2 GvmSpec.
Set Implicit Arguments.
Unset Strict Implicit.
Unset Printing Implicit Defensive.
Import Order.TTheory GRing.Theory Num.Theory.
Local Open Scope ring_scope.

Section Avg.
Variables (R : realFieldType) (T : finType).
Hypothesis T0 : (0 < #|T|)%N.
Add Field Ff : (@p_ft R).
Let c0 : #|T|%:R != 0 :> R. Proof. by rewrite pnatr_eq0 -lt0n. Qed.
Definition ev (f : T -> R) : R := #|T|%:R^-1 * \sum_t f t.
Lemma evD f g : ev (fun t => f t + g t) = ev f + ev g.
Proof. by rewrite /ev big_split mulrDr. Qed.
Lemma evZ a f : ev (fun t => a * f t) = a * ev f.
Proof. by rewrite /ev -mulr_sumr mulrCA. Qed.
Lemma ev_sum (I : finType) (F : I -> T -> R) : ev (fun t => \sum_i F i t) = \sum_i ev (F i).
Proof. by rewrite /ev exchange_big /= mulr_sumr. Qed.
Lemma ev_const a : ev (fun=> a) = a.
Proof. by rewrite /ev sumr_const -[a *+ _]mulr_natl mulrA mulVf // mul1r. Qed.
Lemma eq_ev f g : (forall t, f t = g t) -> ev f = ev g.
Proof. by move=> H; rewrite /ev; congr (_ * _); apply: eq_bigr. Qed.
Lemma ev_ge0 f : (forall t, 0 <= f t) -> 0 <= ev f.
Proof. by move=> H; rewrite /ev mulr_ge0 ?invr_ge0 ?ler0n // sumr_ge0. Qed.
Lemma avgE m p (f : T -> 'M[R]_(m, p)) i j : avg f i j = ev (fun t => f t i j).
Proof. by rewrite /avg mxE summxE. Qed.
Lemma covmxE m (F : T -> 'cV[R]_m) i j : covmx F i j = ev (fun t => F t i 0 * F t j 0) - ev (fun t => F t i 0) * ev (fun t => F t j 0).
Proof.
rewrite /covmx [LHS]mxE avgE; congr (_ + _); last by rewrite [LHS]mxE [(_ *m _) i j]mxE big_ord1 [_^T 0 j]mxE !avgE.
by apply: eq_ev => t; rewrite mxE big_ord1 [_^T 0 j]mxE.
Qed.
Lemma avg_mul m p q (M : 'M[R]_(q, m)) (f : T -> 'M[R]_(m, p)) : avg (fun t => M *m f t) = M *m avg f.
Proof. by rewrite /avg -scalemxAr mulmx_sumr. Qed.
Lemma avg_mulr m p q (M : 'M[R]_(p, q)) (f : T -> 'M[R]_(m, p)) : avg (fun t => f t *m M) = avg f *m M.
Proof. by rewrite /avg -scalemxAl mulmx_suml. Qed.
Lemma eq_avg m p (f g : T -> 'M[R]_(m, p)) : (forall t, f t = g t) -> avg f = avg g.
Proof. by move=> H; rewrite /avg; congr (_ *: _); apply: eq_bigr. Qed.
Lemma eq_covmx m (f g : T -> 'cV[R]_m) : (forall t, f t = g t) -> covmx f = covmx g.
Proof. by move=> H; rewrite /covmx (eq_avg H); congr (_ - _); apply: eq_avg => t; rewrite H. Qed.
Lemma covmx_mul m q (M : 'M[R]_(q, m)) (F : T -> 'cV[R]_m) : covmx (fun t => M *m F t) = M *m covmx F *m M^T.
Proof.
rewrite /covmx avg_mul trmx_mul mulmxBr mulmxBl !mulmxA; congr (_ - _).
rewrite -avg_mul -avg_mulr; apply: eq_avg => t; by rewrite trmx_mul !mulmxA.
Qed.
(** a covariance matrix is positive semidefinite *)
Lemma covmx_psd m (F : T -> 'cV[R]_m) : psd (covmx F).
Proof.
split=> [|c]; first by apply/matrixP => i j; rewrite mxE !covmxE mulrC; congr (_ - _); apply: eq_ev => t; rewrite mulrC.
have -> : c^T *m covmx F *m c = covmx (fun t => c^T *m F t) by rewrite covmx_mul trmxK.
rewrite covmxE; set f := (fun t => (c^T *m F t) 0 0).
have -> : ev (fun t => f t * f t) - ev f * ev f = ev (fun t => (f t - ev f) * (f t - ev f)).
  transitivity (ev (fun t => (f t * f t + (- ev f * 2%:R) * f t) + ev f * ev f)).
    rewrite !evD evZ ev_const [2%:R]mulr2n; move: (ev _) (ev f) => a b; mring R.
  apply: eq_ev => t; rewrite [2%:R]mulr2n; move: (f t) (ev f) => a b; mring R.
by apply: ev_ge0 => t; rewrite -expr2 sqr_ge0.
Qed.
End Avg.

Section Indep.
Variables (R : realFieldType) (n : nat) (W : finType) (v : 'I_n -> W -> R).
Add Field Ff2 : (@p_ft R).
Hypothesis W0 : (0 < #|W|)%N.
Notation T := {ffun 'I_n -> W}.
Notation x w i := (v i (w i)).
Lemma T0 : (0 < #|[finType of T]|)%N.
Proof. by rewrite card_ffun expn_gt0 W0. Qed.
(** independence *)
Lemma ev_prod (f : 'I_n -> W -> R) : ev (fun w : T => \prod_i f i (w i)) = \prod_i ev (f i).
Proof.
rewrite /ev big_split /= prodr_const card_ord bigA_distr_bigA /= card_ffun card_ord natrX exprVn //.
Qed.
Definition mom (c : nat) i : R := ev (fun w => v i w ^+ c).
Lemma x_prod (w : T) i : x w i = \prod_t x w t ^+ (t == i).
Proof. by rewrite (bigD1 i) //= eqxx expr1 big1 ?mulr1 // => t ti; rewrite (negbTE ti) expr0. Qed.
Lemma mom0 i : mom 0 i = 1.
Proof. by rewrite /mom -[RHS](@ev_const _ _ W0); apply: eq_ev => w; rewrite expr0. Qed.
Lemma ev_mono (c : 'I_n -> nat) : ev (fun w : T => \prod_t x w t ^+ c t) = \prod_t mom (c t) t.
Proof. exact: (ev_prod (fun t w => v t w ^+ c t)). Qed.
Hypothesis M0 : forall i, mom 1 i = 0.
Lemma ev1 i : ev (fun w : T => x w i) = 0.
Proof.
rewrite (eq_ev (g := fun w : T => \prod_t x w t ^+ (t == i))) => [|w]; last exact: x_prod.
by rewrite ev_mono (bigD1 i) //= eqxx M0 mul0r.
Qed.
Definition cnt (l : seq 'I_n) (t : 'I_n) : nat := count_mem t l.
Lemma ev_seq (l : seq 'I_n) : ev (fun w : T => \prod_(i <- l) x w i) = \prod_t mom (cnt l t) t.
Proof.
rewrite -ev_mono; apply: eq_ev => w; elim: l => [|i l IH]; first by rewrite big_nil big1 // => t _; rewrite expr0.
rewrite big_cons IH x_prod -big_split /=; apply: eq_bigr => t _; by rewrite exprD eq_sym.
Qed.
Lemma ev_once l t : cnt l t = 1%N -> ev (fun w : T => \prod_(i <- l) x w i) = 0.
Proof. by move=> H; rewrite ev_seq (bigD1 t) //= H M0 mul0r. Qed.
Lemma ev_two l a b : a != b -> (forall t, t != a -> t != b -> cnt l t = 0%N) -> ev (fun w : T => \prod_(i <- l) x w i) = mom (cnt l a) a * mom (cnt l b) b.
Proof.
move=> ab H; rewrite ev_seq (bigD1 a) //= (bigD1 b) 1?eq_sym //= big1 ?mulr1 // => t /andP [ta tb]; by rewrite H // mom0.
Qed.
Lemma ev_one l a : (forall t, t != a -> cnt l t = 0%N) -> ev (fun w : T => \prod_(i <- l) x w i) = mom (cnt l a) a.
Proof. by move=> H; rewrite ev_seq (bigD1 a) //= big1 ?mulr1 // => t ta; rewrite H // mom0. Qed.
Ltac lst l := rewrite (eq_ev (g := fun w : T => \prod_(i <- l) x w i)); last by move=> w; rewrite !big_cons big_nil mulr1 ?mulrA.
Lemma ev2 i j : ev (fun w : T => x w i * x w j) = (i == j)%:R * mom 2 i.
Proof.
lst [:: i; j]; case: (eqVneq i j) => [<-|N].
  by rewrite (@ev_one _ i) ?mul1r /cnt /= ?eqxx // => t /negbTE; rewrite eq_sym => ->.
by rewrite (@ev_once _ i) ?mul0r // /cnt /= eqxx eq_sym (negbTE N).
Qed.
Lemma ev3 i j k : ev (fun w : T => x w i * x w j * x w k) = ((i == j) && (j == k))%:R * mom 3 i.
Proof.
lst [:: i; j; k]; case: (eqVneq i j) => [<-|N] /=.
  case: (eqVneq i k) => [<-|N] /=; last by rewrite (@ev_once _ k) ?mul0r // /cnt /= eqxx (negbTE N).
  by rewrite (@ev_one _ i) ?mul1r /cnt /= ?eqxx // => t /negbTE; rewrite eq_sym => ->.
rewrite mul0r; case: (eqVneq i k) => [ik|ik].
  by rewrite (@ev_once _ j) // /cnt /= eqxx -ik (negbTE N).
by rewrite (@ev_once _ i) // /cnt /= eqxx ![_ == i]eq_sym (negbTE N) (negbTE ik).
Qed.
Lemma ev4 i j k l : ev (fun w : T => x w i * x w j * x w k * x w l) =
  (i == j)%:R * (k == l)%:R * (mom 2 i * mom 2 k) + (i == k)%:R * (j == l)%:R * (mom 2 i * mom 2 j) + (i == l)%:R * (j == k)%:R * (mom 2 i * mom 2 j)
  + [&& i == j, j == k & k == l]%:R * (mom 4 i - 3%:R * mom 2 i ^+ 2).
Proof.
have n3 : 3%:R = 1 + 1 + 1 :> R by rewrite !mulrS mulr0n addr0 addrA.
lst [:: i; j; k; l]; case: (eqVneq i j) => [<-|ij] /=.
  case: (eqVneq k l) => [<-|kl] /=.
    case: (eqVneq i k) => [<-|ik] /=.
      rewrite (@ev_one _ i) /cnt /= ?eqxx // => [|t /negbTE]; last by rewrite eq_sym => ->.
      rewrite n3 expr2; move: (mom _ _) (mom _ _) => a b; mring R.
    rewrite (@ev_two _ i k) /cnt /= ?eqxx // => [|t /negbTE it /negbTE kt]; last by rewrite ![_ == t]eq_sym it kt.
    rewrite ![k == i]eq_sym (negbTE ik) /=; move: (mom _ _) (mom _ _) (mom _ _) => a b c; mring R.
  have -> : ev (fun w : T => \prod_(i0 <- [:: i; i; k; l]) x w i0) = 0.
    case: (eqVneq i k) => [ik|ik]; first by apply: (@ev_once _ l); rewrite /cnt /= eqxx -ik ik (negbTE kl).
    by apply: (@ev_once _ k); rewrite /cnt /= eqxx (negbTE ik) [l == k]eq_sym (negbTE kl).
  have -> : (i == k)%:R * (i == l)%:R = 0 :> R.
    by case: (eqVneq i k) => [->|_]; rewrite ?(negbTE kl) ?mulr0 ?mul0r.
  rewrite [(i == l)%:R * _]mulrC; have -> : (i == k)%:R * (i == l)%:R = 0 :> R.
    by case: (eqVneq i k) => [->|_]; rewrite ?(negbTE kl) ?mulr0 ?mul0r.
  rewrite andbF /= !(mulr0, mul0r, addr0) //.
rewrite !mul0r add0r addr0; case: (eqVneq i k) => [<-|ik].
  rewrite [j == i]eq_sym (negbTE ij) mulr0 mul0r addr0 mul1r; case: (eqVneq j l) => [<-|jl].
    rewrite (@ev_two _ i j) /cnt /= ?eqxx // => [|t /negbTE it /negbTE kt]; last by rewrite ![_ == t]eq_sym it kt.
    by rewrite ![j == i]eq_sym (negbTE ij) mul1r.
  by rewrite (@ev_once _ j) ?mul0r // /cnt /= eqxx (negbTE ij) eq_sym (negbTE jl).
rewrite !mul0r add0r; case: (eqVneq j k) => [<-|jk].
  rewrite mulr1; case: (eqVneq i l) => [<-|il].
    rewrite (@ev_two _ i j) /cnt /= ?eqxx // => [|t /negbTE it /negbTE kt]; last by rewrite ![_ == t]eq_sym it kt.
    by rewrite ![j == i]eq_sym (negbTE ij) mul1r.
  by rewrite (@ev_once _ i) ?mul0r // /cnt /= eqxx ![_ == i]eq_sym (negbTE ij) (negbTE il).
rewrite mulr0 mul0r; case: (eqVneq k l) => [<-|kl].
  by rewrite (@ev_once _ i) // /cnt /= eqxx ![_ == i]eq_sym (negbTE ij) (negbTE ik).
by rewrite (@ev_once _ k) // /cnt /= eqxx (negbTE ik) (negbTE jk) [l == k]eq_sym (negbTE kl).
Qed.
(** linear-quadratic forms x'Ax + a'x *)
Definition vec (w : T) : 'cV[R]_n := \col_i x w i.
Definition lq (A : 'M[R]_n) (a : 'cV[R]_n) (w : T) : R := ((vec w)^T *m A *m vec w) 0 0 + (a^T *m vec w) 0 0.
Definition S2 : 'M[R]_n := diag_mx (\row_i mom 2 i).
Lemma lqE A a w : lq A a w = \sum_i \sum_j A i j * (x w i * x w j) + \sum_i a i 0 * x w i.
Proof.
rewrite /lq; congr (_ + _); last by rewrite mxE; apply: eq_bigr => i _; rewrite !mxE.
rewrite mxE exchange_big /=; apply: eq_bigr => j _; rewrite [((vec w)^T *m A) 0 j]mxE mulr_suml; apply: eq_bigr => i _; rewrite !mxE.
by move: (A i j) (x w i) (x w j) => p q r; mring R.
Qed.
Lemma pick1 (F : 'I_n -> R) i : \sum_j (i == j)%:R * F j = F i.
Proof. by rewrite (bigD1 i) //= eqxx mul1r big1 ?addr0 // => j ji; rewrite eq_sym (negbTE ji) mul0r. Qed.
Lemma ev_lq A a : ev (lq A a) = \tr (A *m S2).
Proof.
rewrite (eq_ev (lqE A a)) evD ev_sum [X in _ + X]ev_sum [X in _ + X]big1 => [|i _]; last by rewrite evZ ev1 mulr0.
rewrite addr0; apply: eq_bigr => i _; rewrite ev_sum [RHS]mxE; apply: eq_bigr => j _; rewrite evZ ev2 !mxE [j == i]eq_sym.
case: eqP => [->|]; by rewrite ?mul1r ?mulr1n // mul0r mulr0.
Qed.
Definition qq (A : 'M[R]_n) (w : T) : R := \sum_i \sum_j A i j * (x w i * x w j).
Definition ll (a : 'cV[R]_n) (w : T) : R := \sum_i a i 0 * x w i.
Lemma AS (A : 'M[R]_n) i j : (A *m S2) i j = A i j * mom 2 j.
Proof. by rewrite /S2 mul_mx_diag !mxE. Qed.
Lemma trAS A : \tr (A *m S2) = \sum_i A i i * mom 2 i.
Proof. by apply: eq_bigr => i _; rewrite AS. Qed.
Lemma trASBS A B : \tr (A *m S2 *m B *m S2) = \sum_i \sum_j A i j * B j i * (mom 2 i * mom 2 j).
Proof.
apply: eq_bigr => i _; rewrite AS mxE mulr_suml; apply: eq_bigr => j _; rewrite AS; move: (A i j) (B j i) (mom 2 i) (mom 2 j) => p q r t; mring R.
Qed.
Lemma ev_qq A B : ev (fun w => qq A w * qq B w) = \tr (A *m S2) * \tr (B *m S2) + \tr (A *m S2 *m B^T *m S2) + \tr (A *m S2 *m B *m S2)
  + \sum_i A i i * B i i * (mom 4 i - 3%:R * mom 2 i ^+ 2).
Proof.
transitivity (\sum_i \sum_j \sum_k \sum_l A i j * B k l * ev (fun w : T => x w i * x w j * x w k * x w l)).
  rewrite (eq_ev (g := fun w : T => \sum_i \sum_j \sum_k \sum_l A i j * B k l * (x w i * x w j * x w k * x w l))).
    rewrite ev_sum; apply: eq_bigr => i _; rewrite ev_sum; apply: eq_bigr => j _; rewrite ev_sum; apply: eq_bigr => k _; rewrite ev_sum; apply: eq_bigr => l _.
    by rewrite evZ.
  move=> w; rewrite /qq mulr_suml; apply: eq_bigr => i _; rewrite mulr_suml; apply: eq_bigr => j _; rewrite mulr_sumr; apply: eq_bigr => k _; rewrite mulr_sumr.
  apply: eq_bigr => l _; move: (A i j) (B k l) (x w i) (x w j) (x w k) (x w l) => p q r t u z; mring R.
rewrite !trASBS !trAS mulr_suml -!big_split /=; apply: eq_bigr => i _.
rewrite [A i i * B i i * _](_ : _ = \sum_j (i == j)%:R * (A i j * B j j * (mom 4 i - 3%:R * mom 2 i ^+ 2))); last by rewrite pick1.
rewrite [A i i * mom 2 i * _](_ : _ = \sum_j (i == j)%:R * (A i j * mom 2 i * \sum_k B k k * mom 2 k)); last by rewrite pick1.
rewrite -!big_split /=; apply: eq_bigr => j _.
have e4 k l := ev4 i j k l.
transitivity (\sum_k \sum_l (k == l)%:R * ((i == j)%:R * (A i j * mom 2 i * (B k k * mom 2 k)) )
  + \sum_k \sum_l (i == k)%:R * ((j == l)%:R * (A i j * B k l * (mom 2 i * mom 2 j)))
  + \sum_k \sum_l (j == k)%:R * ((i == l)%:R * (A i j * B k l * (mom 2 i * mom 2 j)))
  + \sum_k \sum_l (j == k)%:R * ((k == l)%:R * ((i == j)%:R * (A i j * B k l * (mom 4 i - 3%:R * mom 2 i ^+ 2))))).
  rewrite -!big_split /=; apply: eq_bigr => k _; rewrite -!big_split /=; apply: eq_bigr => l _; rewrite e4.
  have -> : (k == l)%:R * ((i == j)%:R * (A i j * mom 2 i * (B k k * mom 2 k))) = (k == l)%:R * ((i == j)%:R * (A i j * mom 2 i * (B k l * mom 2 k))).
    by case: (eqVneq k l) => [->|]; rewrite ?mul0r.
  have -> : [&& i == j, j == k & k == l]%:R = (i == j)%:R * ((j == k)%:R * (k == l)%:R) :> R by rewrite -!natrM !mulnb.
  move: (A i j) (B k l) (mom 2 i) (mom 2 j) (mom 2 k) ((i == j)%:R) ((k == l)%:R) ((i == k)%:R) ((j == l)%:R) ((i == l)%:R) ((j == k)%:R) (_ - _).
  move=> a1 a2 a3 a4 a5 a6 a7 a8 a9 b1 b2 b3; mring R.
have P1 (F : 'I_n -> 'I_n -> R) h : \sum_k \sum_l (h == k)%:R * F k l = \sum_l F h l.
  by rewrite exchange_big /=; apply: eq_bigr => l _; rewrite pick1.
rewrite !P1 !pick1.
have -> : \sum_k \sum_l (k == l)%:R * ((i == j)%:R * (A i j * mom 2 i * (B k k * mom 2 k))) = (i == j)%:R * (A i j * mom 2 i * \sum_k B k k * mom 2 k).
  rewrite !mulr_sumr; apply: eq_bigr => k _; rewrite (pick1 (fun=> (i == j)%:R * (A i j * mom 2 i * (B k k * mom 2 k)))) //.
by rewrite [B^T j i]mxE.
Qed.
Lemma ev_ql A b : ev (fun w => qq A w * ll b w) = \sum_i mom 3 i * (A i i * b i 0).
Proof.
transitivity (\sum_i \sum_j \sum_k A i j * b k 0 * ev (fun w : T => x w i * x w j * x w k)).
  rewrite (eq_ev (g := fun w : T => \sum_i \sum_j \sum_k A i j * b k 0 * (x w i * x w j * x w k))).
    rewrite ev_sum; apply: eq_bigr => i _; rewrite ev_sum; apply: eq_bigr => j _; rewrite ev_sum; apply: eq_bigr => k _; by rewrite evZ.
  move=> w; rewrite /qq mulr_suml; apply: eq_bigr => i _; rewrite mulr_suml; apply: eq_bigr => j _; rewrite mulr_sumr; apply: eq_bigr => k _.
  move: (A i j) (b k 0) (x w i) (x w j) (x w k) => p q r t u; mring R.
apply: eq_bigr => i _; rewrite -[RHS](pick1 (fun j => mom 3 i * (A i j * b j 0))); apply: eq_bigr => j _.
rewrite -[RHS](pick1 (fun k => (i == j)%:R * (mom 3 i * (A i j * b k 0)))); apply: eq_bigr => k _.
rewrite ev3 -mulnb natrM; move: (A i j) (b k 0) (_%:R) (_%:R) (mom 3 i) => p q r t u; mring R.
Qed.
Lemma ev_ll a b : ev (fun w => ll a w * ll b w) = (a^T *m S2 *m b) 0 0.
Proof.
transitivity (\sum_i \sum_j a i 0 * b j 0 * ev (fun w : T => x w i * x w j)).
  rewrite (eq_ev (g := fun w : T => \sum_i \sum_j a i 0 * b j 0 * (x w i * x w j))).
    by rewrite ev_sum; apply: eq_bigr => i _; rewrite ev_sum; apply: eq_bigr => j _; rewrite evZ.
  move=> w; rewrite /ll mulr_suml; apply: eq_bigr => i _; rewrite mulr_sumr; apply: eq_bigr => j _.
  move: (a i 0) (b j 0) (x w i) (x w j) => p q r t; mring R.
rewrite mxE; apply: eq_bigr => i _; rewrite /S2 mul_mx_diag !mxE -[RHS](pick1 (fun j => a i 0 * mom 2 i * b j 0)); apply: eq_bigr => j _.
rewrite ev2; move: (a i 0) (b j 0) (_%:R) (mom 2 i) => p q r t; mring R.
Qed.
Lemma ev_lq2 A a B b : ev (fun w => lq A a w * lq B b w) - ev (lq A a) * ev (lq B b) =
  \tr (A *m S2 *m B^T *m S2) + \tr (A *m S2 *m B *m S2) + \sum_i A i i * B i i * (mom 4 i - 3%:R * mom 2 i ^+ 2)
  + \sum_i mom 3 i * (A i i * b i 0 + B i i * a i 0) + (a^T *m S2 *m b) 0 0.
Proof.
rewrite !ev_lq (eq_ev (g := fun w => qq A w * qq B w + (qq A w * ll b w + qq B w * ll a w) + ll a w * ll b w)) => [|w]; last first.
  rewrite !lqE -/(qq A w) -/(qq B w) -/(ll a w) -/(ll b w); move: (qq A w) (qq B w) (ll a w) (ll b w) => p q r t; mring R.
rewrite !evD ev_qq !ev_ql ev_ll.
have -> : \sum_i mom 3 i * (A i i * b i 0 + B i i * a i 0) = \sum_i mom 3 i * (A i i * b i 0) + \sum_i mom 3 i * (B i i * a i 0).
  by rewrite -big_split; apply: eq_bigr => i _; rewrite mulrDr.
move: (\tr _) (\tr _) (\tr _) (\tr _) (\sum_i _) (\sum_i _) (\sum_i _) (_ 0 0) => p q r t u z y c; mring R.
Qed.
End Indep.
