From mathcomp Require Import all_ssreflect all_algebra.
From Verif Require Import LinRegModel LinRegProofs LinRegProofs3 FilterModel.
Set Implicit Arguments.
Unset Strict Implicit.
Unset Printing Implicit Defensive.
Import Order.TTheory GRing.Theory Num.Theory.
Local Open Scope ring_scope.

Section Loop.
Variable R : rcfType.
Variables (n k : nat) (step : 'M[R]_(n, k) -> 'M[R]_(n, k)) (thr : R).

(** the tested value before pass i+1 *)
Definition tst (v : 'M[R]_(n, k)) (t0 : R) (i : nat) : R := if i is 0 then t0 else la_norm (iter i step v).

Lemma pe_loop_done fuel : forall total inc test s, pe_loop step thr fuel total inc test = Done s ->
  exists m, [/\ (m <= fuel)%N, s = total + \sum_(i < m) iter i.+1 step inc,
   (m = fuel \/ tst inc test m <= thr),
   (forall i, (i < m)%N -> thr < tst inc test i)
   & (forall i, (i < m)%N -> tst inc test i.+1 <= tst inc test i)].
Proof.
elim: fuel => [|f IH] total inc test s /=.
- move=> H; exists 0%N; split => //.
  + by rewrite big_ord0 addr0; case: ifP H => _ [->].
  + by left.
- case: ifP => [Ht|Ht].
  + case: ifP => // Hle /IH [m [Hm -> Hend Hthr Hdec]].
    exists m.+1; split => //.
    * rewrite big_ord_recl addrA; congr (_ + _); apply: eq_bigr => i _.
      by rewrite lift0 -[LHS]iterSr.
    * case: Hend => [->|Hend]; [by left|right].
      by case: (m) Hend => [|m'] //=; rewrite -!iterS -!iterSr.
    * by case=> [|i] //= Hi; have := Hthr i Hi; case: (i) => [|i'] //=; rewrite -!iterS -!iterSr.
    * case=> [|i] Hi /=; first by rewrite leNgt Hle.
      by have := Hdec i Hi; case: (i) => [|i'] //=; rewrite -!iterS -!iterSr.
  + case=> <-; exists 0%N; split => //; first by rewrite big_ord0 addr0.
    by right; rewrite /= leNgt Ht.
Qed.

Lemma pe_loop_raised fuel : forall total inc test, pe_loop step thr fuel total inc test = Raised <->
  exists m, [/\ (m < fuel)%N, (forall i, (i <= m)%N -> thr < tst inc test i),
    (forall i, (i < m)%N -> tst inc test i.+1 <= tst inc test i) & tst inc test m < tst inc test m.+1].
Proof.
have aux : forall inc test i, tst (step inc) (la_norm (step inc)) i = tst inc test i.+1.
  by move=> inc test [|i] //=; rewrite -!iterS -!iterSr.
elim: fuel => [|f IH] total inc test /=.
- case: ifP => _; split => //; by case=> m [].
- case: ifP => [Ht|Ht].
  + case: ifP => [Hlt|Hle].
    * split => // _; exists 0%N; split => //; by case.
    * rewrite IH; split.
      -- case=> m [Hm H1 H2 H3]; exists m.+1; split => //.
         ++ by case=> [|i] Hi; [exact: Ht|rewrite -(aux inc test i); apply: H1].
         ++ case=> [|i] Hi; first by rewrite /= leNgt Hle.
            by move: (H2 i Hi); rewrite (aux inc test i) (aux inc test i.+1).
         ++ by move: H3; rewrite (aux inc test m) (aux inc test m.+1).
      -- case=> [[|m]] [Hm H1 H2 H3]; first by rewrite /= Hle in H3.
         exists m; split => //.
         ++ by move=> i Hi; rewrite (aux inc test); apply: H1.
         ++ by move=> i Hi; rewrite (aux inc test i) (aux inc test i.+1); apply: (H2 i.+1).
         ++ by rewrite (aux inc test m) (aux inc test m.+1).
  + split => //; case=> m [_ H _ _]; by have := H 0%N isT; rewrite /= Ht.
Qed.
End Loop.

Section Alg.
Variable R : rcfType.

Lemma step_iter n k (W : 'M[R]_n) rho (v : 'M[R]_(n, k)) i :
  iter i (fun z => rho *: (W *m z)) v = iter i (mulmx (rho *: W)) v.
Proof. by elim: i => //= i ->; rewrite -scalemxAl. Qed.

Lemma geom_tel n k (A : 'M[R]_n) (v : 'M[R]_(n, k)) m :
  (1%:M - A) *m (v + \sum_(i < m) iter i.+1 (mulmx A) v) = v - iter m.+1 (mulmx A) v.
Proof.
elim: m => [|m IH].
- by rewrite big_ord0 addr0 mulmxBl mul1mx.
- rewrite big_ord_recr /= addrA mulmxDr IH /= mulmxBl mul1mx.
  by rewrite addrA subrK.
Qed.

Lemma la_norm_ge0 n k (a : 'M[R]_(n, k)) : 0 <= la_norm a.
Proof. exact: sqrtr_ge0. Qed.
End Alg.
