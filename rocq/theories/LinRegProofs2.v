From mathcomp Require Import all_ssreflect all_algebra.
From Verif Require Import LinRegModel LinRegProofs.
Set Implicit Arguments.
Unset Strict Implicit.
Unset Printing Implicit Defensive.
Import Order.TTheory GRing.Theory Num.Theory.
Local Open Scope ring_scope.

Section P.
Variable R : realFieldType.
Implicit Types n k h : nat.

Lemma mulmx_unitE k (A B : 'M[R]_k) : A \in unitmx -> B \in unitmx -> A *m B \in unitmx.
Proof. by rewrite unitmx_mul => -> ->. Qed.

Lemma gram_recomb n k (x : 'M[R]_(n, k)) (A : 'M[R]_k) : (x *m A)^T *m (x *m A) = A^T *m (x^T *m x) *m A.
Proof. by rewrite trmx_mul !mulmxA. Qed.

Lemma invmxM k (A B : 'M[R]_k) : A \in unitmx -> B \in unitmx -> invmx (A *m B) = invmx B *m invmx A.
Proof.
move=> UA UB; have UAB := mulmx_unitE UA UB.
apply: (can_inj (mulKmx UAB)); rewrite mulmxV // mulmxA -[_ *m B *m _]mulmxA mulmxV // mulmx1 mulmxV //.
Qed.

(** recombination of the regressors *)
Lemma ols_recomb n k (y : 'cV[R]_n) (x : 'M[R]_(n, k)) (A : 'M[R]_k) s o : A \in unitmx ->
  base_ols y x RobNone None s = Some o ->
  exists2 o', base_ols y (x *m A) RobNone None s = Some o' &
  [/\ o_betas o' = invmx A *m o_betas o, o_predy o' = o_predy o, o_u o' = o_u o, o_sig2 o' = o_sig2 o &
      o_vm o' = invmx A *m o_vm o *m (invmx A)^T].
Proof.
move=> UA H; have UG := ols_gram H.
have UG' : (x *m A)^T *m (x *m A) \in unitmx by rewrite gram_recomb !unitmx_mul unitmx_tr UA UG.
rewrite (ols_Some y RobNone None s UG'); eexists; first by [].
move: H; rewrite (ols_Some y RobNone None s UG) => -[<-].
set o1 := ols_of_xtxi _ _ _ _ _ _; set o2 := ols_of_xtxi _ _ _ _ _ _.
have Hi : invmx ((x *m A)^T *m (x *m A)) = invmx A *m invmx (x^T *m x) *m (invmx A)^T.
{ rewrite gram_recomb invmxM ?unitmx_mul ?unitmx_tr ?UA ?UG // invmxM ?unitmx_tr // trmx_inv !mulmxA //. }
have Hb : o_betas o1 = invmx A *m o_betas o2.
{ rewrite /= Hi trmx_mul -!mulmxA; congr (_ *m (_ *m _)); rewrite trmx_inv mulKmx ?unitmx_tr //. }
have Hp : o_predy o1 = o_predy o2 by rewrite -[o_predy o1]/(x *m A *m o_betas o1) Hb -mulmxA mulKVmx.
have Hu : o_u o1 = o_u o2 by rewrite -[o_u o1]/(y - o_predy o1) Hp.
have Hs : o_sig2 o1 = o_sig2 o2 by rewrite -[o_sig2 o1]/(sig2_of k s (o_u o1)) Hu.
split=> //; rewrite -[o_vm o1]/(o_sig2 o1 *: invmx ((x *m A)^T *m (x *m A))) Hi Hs.
by rewrite -[o_vm o2]/(o_sig2 o2 *: invmx (x^T *m x)) -scalemxAr -scalemxAl.
Qed.

Lemma ols_shift n k (y : 'cV[R]_n) (x : 'M[R]_(n, k)) (c : 'cV[R]_k) s o :
  base_ols y x RobNone None s = Some o ->
  exists2 o', base_ols (y + x *m c) x RobNone None s = Some o' &
  [/\ o_betas o' = o_betas o + c, o_u o' = o_u o, o_predy o' = o_predy o + x *m c & o_vm o' = o_vm o].
Proof.
move=> H; have UG := ols_gram H; rewrite (ols_Some (y + _) RobNone None s UG); eexists; first by [].
move: H; rewrite (ols_Some y RobNone None s UG) => -[<-].
set o1 := ols_of_xtxi _ _ _ _ _ _; set o2 := ols_of_xtxi _ _ _ _ _ _.
have Hb : o_betas o1 = o_betas o2 + c.
{ by rewrite /= !mulmxDr; congr (_ + _); rewrite !mulmxA -mulmxA mulVmx // mul1mx || rewrite [x^T *m (x *m c)]mulmxA mulKmx. }
have Hp : o_predy o1 = o_predy o2 + x *m c by rewrite -[o_predy o1]/(x *m o_betas o1) Hb mulmxDr.
have Hu : o_u o1 = o_u o2.
{ rewrite -[o_u o1]/(y + x *m c - o_predy o1) Hp -[o_u o2]/(y - o_predy o2) opprD addrACA subrr addr0 //. }
split=> //; rewrite -[o_vm o1]/(sig2_of k s (o_u o1) *: invmx (x^T *m x)) Hu //.
Qed.

(** symmetric positive (semi)definite matrices *)
Definition psd k (A : 'M[R]_k) := A^T = A /\ forall c : 'cV[R]_k, 0 <= (c^T *m A *m c) 0 0.
Definition pd k (A : 'M[R]_k) := A^T = A /\ forall c : 'cV[R]_k, c != 0 -> 0 < (c^T *m A *m c) 0 0.

Lemma gram_psd n k (x : 'M[R]_(n, k)) : psd (x^T *m x).
Proof.
split=> [|c]; first exact: gram_sym.
by rewrite mulmxA -mulmxA -trmx_mul -utuE utu_ge0.
Qed.

Lemma pd_unit k (A : 'M[R]_k) : pd A -> A \in unitmx.
Proof.
case=> _ H; apply/unitmx_inj => c Ac; apply/eqP; apply/negPn/negP => c0.
by move: (H c c0); rewrite -mulmxA Ac mulmx0 mxE ltxx.
Qed.

Lemma pd_inv k (A : 'M[R]_k) : pd A -> pd (invmx A).
Proof.
move=> HA; have U := pd_unit HA; case: HA => HS HP; split; first by rewrite invmx_sym.
move=> c c0; set d := invmx A *m c.
have d0 : d != 0 by apply: contra c0 => /eqP Hd; rewrite -(mulKVmx U c) -/d Hd mulmx0.
have := HP d d0; rewrite /d trmx_mul invmx_sym // -!mulmxA mulKVmx // mulmxA //.
Qed.

Lemma pd_scale k (A : 'M[R]_k) a : 0 < a -> pd A -> pd (a *: A).
Proof.
move=> a0 [HS HP]; split=> [|c c0]; first by rewrite linearZ /= HS.
by rewrite -scalemxAr -scalemxAl mxE mulr_gt0 // HP.
Qed.

Lemma gram_pd n k (x : 'M[R]_(n, k)) : x^T *m x \in unitmx -> pd (x^T *m x).
Proof.
move/gram_unit => H; split=> [|c c0]; first exact: gram_sym.
rewrite mulmxA -mulmxA -trmx_mul -utuE lt0r utu_ge0 andbT utu_eq0; apply: contra c0 => /eqP/H ->; exact: eqxx.
Qed.

(** Wald *)
Lemma rvr_pd k r (Rm : 'M[R]_(r, k)) (vm : 'M[R]_k) : pd vm -> (forall c : 'cV[R]_r, Rm^T *m c = 0 -> c = 0) ->
  pd (Rm *m (vm *m Rm^T)).
Proof.
move=> [HS HP] Hr; split=> [|c c0]; first by rewrite !trmx_mul trmxK HS mulmxA.
have -> : c^T *m (Rm *m (vm *m Rm^T)) *m c = (Rm^T *m c)^T *m vm *m (Rm^T *m c) by rewrite trmx_mul trmxK !mulmxA.
by apply: HP; apply: contra c0 => /eqP/Hr ->; exact: eqxx.
Qed.

Lemma wald_transform k r (b : 'cV[R]_k) (Rm : 'M[R]_(r, k)) q vm (A : 'M[R]_r) : A \in unitmx ->
  wald_w b (A *m Rm) (A *m q) vm = wald_w b Rm q vm.
Proof.
move=> UA; rewrite /wald_w /la_inv.
have E : A *m Rm *m (vm *m (A *m Rm)^T) = A *m (Rm *m (vm *m Rm^T)) *m A^T by rewrite trmx_mul !mulmxA.
rewrite E !unitmx_mul unitmx_tr UA andbT andTb.
case: ifP => // U; congr Some; congr (_ 0 0).
rewrite -mulmxA -mulmxBr; set v := Rm *m b - q.
rewrite invmxM ?unitmx_mul ?unitmx_tr ?UA ?U // invmxM //.
rewrite trmx_mul -!mulmxA; congr (_ *m _).
by rewrite mulKVmx ?unitmx_tr // mulKmx.
Qed.

(** broadcast *)
Lemma spbroadcast_diag n k (x : 'M[R]_(n, k)) (u : 'cV[R]_n) : spbroadcast x u = diag_mx u^T *m x.
Proof. by apply/matrixP => i j; rewrite mul_diag_mx !mxE mulrC. Qed.

(** TSLS *)
Lemma tsls_fields n k h (y : 'cV[R]_n) (z : 'M[R]_(n, k)) (H : 'M[R]_(n, h)) rb g s t :
  base_tsls y z H rb g s = Some t ->
  [/\ H^T *m H \in unitmx, z^T *m H *m invmx (H^T *m H) *m (z^T *m H)^T \in unitmx,
      t_varb t = invmx (z^T *m H *m invmx (H^T *m H) *m (z^T *m H)^T),
      t_betas t = t_varb t *m (z^T *m H *m invmx (H^T *m H)) *m (H^T *m y) &
      t_predy t = z *m t_betas t /\ t_u t = y - t_predy t].
Proof.
rewrite /base_tsls; case E: la_inv => [B|] //; case: (la_invP E) => U ->.
by case E2: la_inv => [C|] //; case: (la_invP E2) => U2 -> [<-].
Qed.

Lemma tsls_moment n k h (y : 'cV[R]_n) (z : 'M[R]_(n, k)) (H : 'M[R]_(n, h)) rb g s t :
  base_tsls y z H rb g s = Some t ->
  (H *m invmx (H^T *m H) *m H^T *m z)^T *m t_u t = 0.
Proof.
case/tsls_fields => U U2 Ev Eb [Ep Eu].
have -> : (H *m invmx (H^T *m H) *m H^T *m z)^T = z^T *m H *m invmx (H^T *m H) *m H^T.
{ by rewrite !trmx_mul trmxK trmx_inv gram_sym !mulmxA. }
rewrite Eu Ep mulmxBr Eb Ev.
have -> : (z^T *m H *m invmx (H^T *m H) *m H^T) *m (z *m (invmx (z^T *m H *m invmx (H^T *m H) *m (z^T *m H)^T) *m
   (z^T *m H *m invmx (H^T *m H)) *m (H^T *m y))) =
   (z^T *m H *m invmx (H^T *m H) *m (z^T *m H)^T) *m (invmx (z^T *m H *m invmx (H^T *m H) *m (z^T *m H)^T) *m
   (z^T *m H *m invmx (H^T *m H) *m (H^T *m y))).
{ by rewrite trmx_mul trmxK !mulmxA. }
by rewrite mulKVmx // !mulmxA subrr.
Qed.

(** just identified *)
Lemma tsls_just_id n k (y : 'cV[R]_n) (z H : 'M[R]_(n, k)) rb g s t :
  base_tsls y z H rb g s = Some t -> H^T *m t_u t = 0.
Proof.
move=> T; have M := tsls_moment T; case: (tsls_fields T) => U U2 _ _ _.
have U3 : z^T *m H *m invmx (H^T *m H) \in unitmx by move: U2; rewrite unitmx_mul => /andP [].
move: M.
have -> : (H *m invmx (H^T *m H) *m H^T *m z)^T = z^T *m H *m invmx (H^T *m H) *m H^T.
{ by rewrite !trmx_mul trmxK trmx_inv gram_sym !mulmxA. }
rewrite -mulmxA => M.
by rewrite -(mulKmx U3 (H^T *m t_u t)) M mulmx0.
Qed.
End P.
