(** C84, C85: the likelihood of seemingly unrelated regressions, with and without spatial errors. *)
From Coq Require Import Reals.
From mathcomp Require Import all_ssreflect all_algebra.
From mathcomp.fingroup Require Import fingroup perm.
From Verif Require Import Rinst Mring LinRegModel LinRegProofs LinRegProofs2 FilterModel MLModel MLSpec MLProofs MLTheorems Kron PanelModel PfeModel PfeSpec PfeTheorems PreSpec PrrTheorems SurModel
  SurTheorems SueModel SueSpec SueProofs.
Set Implicit Arguments.
Unset Strict Implicit.
Unset Printing Implicit Defensive.
Import Order.TTheory GRing.Theory Num.Theory.
Local Open Scope ring_scope.

Add Field Rf : (@p_ft R_realFieldType).
Lemma det_kronr (F : comUnitRingType) G n (A : 'M[F]_G) : \det (kron A (1%:M : 'M[F]_n)) = \det A ^+ n.
Proof.
have e : (G * n = n * G)%N by rewrite mulnC.
pose f (q : 'I_(n * G)) : 'I_(n * G) := cast_ord e (pix (pu q : 'I_G) (pt q : 'I_n)).
have fi : injective f.
  move=> p q /cast_ord_inj E; rewrite -[p]pix_pt_pu -[q]pix_pt_pu.
  have := congr1 (@pt _ _) E; rewrite !pt_pix => ->; by have := congr1 (@pu _ _) E; rewrite !pu_pix => ->.
pose C := castmx (e, e) (kron A (1%:M : 'M[F]_n)).
have -> : \det (kron A (1%:M : 'M[F]_n)) = \det C.
  rewrite /C; move: (n * G)%N e {f fi C} => m e; by case: m / e; rewrite castmx_id.
have E : row_perm (perm fi) (col_perm (perm fi) C) = kron (1%:M : 'M[F]_n) A.
  apply/matrixP => p q; rewrite !mxE !permE castmxE /f !cast_ordK !mxE !pt_pix !pu_pix mulrC //.
rewrite -det_kron1 -E row_permE col_permE !det_mulmx !det_perm mulrCA; set s := (-1) ^+ _.
rewrite odd_permV -/s -[LHS]mulr1; congr (_ * _); by rewrite /s -signr_addb addbb.
Qed.

Section Block.
Variables (G n : nat).
Implicit Types (A B : 'I_G -> 'M[R]_n) (v : 'I_G -> 'cV[R]_n).
Definition bdiag A : 'M[R]_(G * n) := \matrix_(p, q) (if pt p == pt q then A (pt p) (pu p) (pu q) else 0).
Lemma bdiagE A r i t j : bdiag A (pix r i) (pix t j) = if r == t then A r i j else 0.
Proof. by rewrite mxE !pt_pix !pu_pix. Qed.
Lemma stackE v r i j : sue_stack v (pix r i) j = v r i 0.
Proof. by rewrite mxE pt_pix pu_pix. Qed.
Lemma bdiag_mul A B : bdiag A *m bdiag B = bdiag (fun r => A r *m B r).
Proof.
apply/matrixP => p q; rewrite -[p]pix_pt_pu -[q]pix_pt_pu; move: (pt p) (pu p) (pt q) (pu q) => r i t j.
rewrite bdiagE mxE big_pix (bigD1 r) //= [X in _ + X]big1 ?addr0; last first.
  by move=> s sr; apply: big1 => l _; rewrite bdiagE eq_sym (negbTE sr) mul0r.
case: eqP => [<-|N]; first by rewrite [RHS]mxE; apply: eq_bigr => l _; rewrite !bdiagE !eqxx.
by apply: big1 => l _; rewrite !bdiagE (introF eqP N) mulr0.
Qed.
Lemma eq_bdiag A B : (forall r, A r = B r) -> bdiag A = bdiag B.
Proof. by move=> H; apply/matrixP => p q; rewrite !mxE H. Qed.
Lemma bdiag_tr A : (bdiag A)^T = bdiag (fun r => (A r)^T).
Proof.
apply/matrixP => p q; rewrite !mxE [pt q == _]eq_sym; by case: eqP => [->|//]; rewrite ?mxE.
Qed.
Lemma bdiag1 : bdiag (fun=> 1%:M) = 1%:M.
Proof.
apply/matrixP => p q; rewrite -[p]pix_pt_pu -[q]pix_pt_pu; move: (pt p) (pu p) (pt q) (pu q) => r i t j.
rewrite bdiagE !mxE; case: eqP => [->|N]; last first.
  by case: eqP => // /(congr1 (@pt _ _)); rewrite !pt_pix.
congr (nat_of_bool _)%:R; apply/eqP/eqP => [->//|/(congr1 (@pu _ _))]; by rewrite !pu_pix.
Qed.
Lemma bdiag_stack A v : bdiag A *m sue_stack v = sue_stack (fun r => A r *m v r).
Proof.
apply/matrixP => p j; rewrite -[p]pix_pt_pu; move: (pt p) (pu p) => r i; rewrite stackE mxE big_pix (bigD1 r) //= [X in _ + X]big1 ?addr0; last first.
  by move=> s sr; apply: big1 => l _; rewrite bdiagE eq_sym (negbTE sr) mul0r.
by rewrite mxE; apply: eq_bigr => l _; rewrite bdiagE eqxx stackE.
Qed.
End Block.
Lemma det_bdiag G n (A : 'I_G -> 'M[R]_n) : \det (bdiag A) = \prod_r \det (A r).
Proof.
elim: G A => [|T IH] A; first by rewrite big_ord0; exact: det_mx00.
have E : bdiag A = block_mx (A 0) 0 0 (bdiag (fun r => A (lift 0 r))) :> 'M[R]_(n + T * n).
  have S1 (i : 'I_n) : pt (lshift (T * n) i : 'I_(T.+1 * n)) = 0 /\ pu (lshift (T * n) i : 'I_(T.+1 * n)) = i.
    by split; apply/val_inj; rewrite /= ?divn_small ?modn_small.
  have S2 (q : 'I_(T * n)) : pt (rshift n q : 'I_(T.+1 * n)) = lift 0 (pt q) /\ pu (rshift n q : 'I_(T.+1 * n)) = pu q.
    have n0 : (0 < n)%N by case: (n) q => // -[m]; rewrite muln0.
    by split; apply/val_inj; rewrite /= ?modnDl // -[X in ((X + _) %/ _)%N]mul1n divnMDl.
  apply/matrixP => r s; rewrite [LHS]mxE -[r]splitK -[s]splitK.
  case: split => i; case: split => j; rewrite /= ?block_mxEul ?block_mxEur ?block_mxEdl ?block_mxEdr.
  - by case: (S1 i) (S1 j) => -> -> [-> ->]; rewrite eqxx.
  - by case: (S1 i) (S2 j) => -> _ [-> _]; rewrite mxE.
  - by case: (S2 i) (S1 j) => -> _ [-> _]; rewrite mxE.
  - by case: (S2 i) (S2 j) => -> -> [-> ->]; rewrite mxE (inj_eq lift_inj).
rewrite big_ord_recl -IH; have := det_lblock (A 0) (0 : 'M[R]_(T * n, n)) (bdiag (fun r => A (lift 0 r))); rewrite -E; exact.
Qed.

Section Lik.
Variables (G n : nat).
Lemma kron_stack (A : 'M[R]_G) (v : 'I_G -> 'cV[R]_n) : kron A (1%:M : 'M[R]_n) *m sue_stack v = sue_stack (fun r => \sum_t A r t *: v t).
Proof.
apply/matrixP => p j; rewrite -[p]pix_pt_pu; move: (pt p) (pu p) => r i; rewrite stackE mxE big_pix summxE; apply: eq_bigr => t _.
rewrite (bigD1 i) //= big1 ?addr0 => [|l li]; last by rewrite kronE [1%:M _ _]mxE eq_sym (negbTE li) mulr0 mul0r.
by rewrite kronE [1%:M _ _]mxE eqxx mulr1 stackE mxE.
Qed.
Lemma stack_dot (v w : 'I_G -> 'cV[R]_n) : ((sue_stack v)^T *m sue_stack w) 0 0 = \sum_r ((v r)^T *m w r) 0 0.
Proof.
rewrite mxE big_pix; apply: eq_bigr => r _; rewrite [RHS]mxE; apply: eq_bigr => i _; by rewrite [(sue_stack v)^T _ _]mxE !stackE [(v r)^T _ _]mxE.
Qed.
Lemma quad_tr (S : 'M[R]_G) (F : 'M[R]_(n, G)) : S^T = S -> \sum_r \sum_t S r t * ((col r F)^T *m col t F) 0 0 = \tr (S *m (F^T *m F)).
Proof.
move=> sy; rewrite /mxtrace; apply: eq_bigr => r _; rewrite [RHS]mxE; apply: eq_bigr => t _; congr (_ * _).
rewrite [RHS]mxE mxE; apply: eq_bigr => i _; by rewrite !mxE mulrC.
Qed.
Variables (W : 'M[R]_n) (lam : 'cV[R]_G).
Definition sB r : 'M[R]_n := 1%:M - lam r 0 *: W.
Lemma sue_sigmaE (Sig : 'M[R]_G) : sue_sigma W lam Sig = bdiag (fun r => invmx (sB r)) *m kron Sig (1%:M : 'M[R]_n) *m bdiag (fun r => (invmx (sB r))^T).
Proof.
apply/matrixP => p q; rewrite -[p]pix_pt_pu -[q]pix_pt_pu; move: (pt p) (pu p) (pt q) (pu q) => r i t j.
rewrite [RHS]mxE big_pix (bigD1 t) //= [X in _ = _ + X]big1 ?addr0 => [|s st]; last first.
  by apply: big1 => l _; rewrite [X in _ * X]bdiagE (negbTE st) mulr0.
rewrite /sue_sigma [LHS]mxE !pt_pix !pu_pix [(_ *m _^T) i j]mxE mulr_sumr; apply: eq_bigr => l _; rewrite [X in _ = _ * X]bdiagE eqxx mulrA; congr (_ * _).
rewrite [RHS]mxE big_pix (bigD1 r) //= [X in _ = _ + X]big1 ?addr0 => [|s st]; last first.
  by apply: big1 => u _; rewrite bdiagE eq_sym (negbTE st) mul0r.
rewrite (bigD1 l) //= [X in _ = _ + X]big1 ?addr0 => [|u ul]; last by rewrite kronE [1%:M _ _]mxE (negbTE ul) !mulr0.
by rewrite bdiagE eqxx kronE [1%:M _ _]mxE eqxx mulr1 mulrC.
Qed.
Lemma sue_filterE (E : 'M[R]_(n, G)) r : col r (sue_filter W lam E) = sB r *m col r E.
Proof.
have -> : sB r *m col r E = col r E - lam r 0 *: col r (W *m E) by rewrite /sB mulmxBl mul1mx -scalemxAl !colE mulmxA.
apply/matrixP => i j; by rewrite !mxE [lam r 0 * _]mulrC.
Qed.
(** the Gaussian log-likelihood of the stacked residuals *)
Lemma sue_normal (Sig : 'M[R]_G) (E : 'M[R]_(n, G)) : pd Sig -> (forall r, sB r \in unitmx) ->
  normal_loglik (sue_sigma W lam Sig) (sue_stack (fun r => col r E)) =
  - ((G * n)%:R / 2%:R) * ln (2%:R * PI) - (n%:R / 2%:R) * ln (\det Sig) + \sum_r ln `|\det (sB r)|
  - (1 / 2%:R) * \tr (invmx Sig *m ((sue_filter W lam E)^T *m sue_filter W lam E)).
Proof.
move=> P U; have US := pd_unit P; have PI' := pd_inv P; have [L UL HL] := chol PI'.
pose F := kron L (1%:M : 'M[R]_n) *m bdiag sB.
have HF : F^T *m F = bdiag (fun r => (sB r)^T) *m kron (invmx Sig) (1%:M : 'M[R]_n) *m bdiag sB.
  by rewrite /F trmx_mul bdiag_tr kron_tr trmx1 mulmxA -[in LHS](mulmxA _ (kron L^T _)) kron_mul mulmx1 -HL.
have W1 : sue_sigma W lam Sig *m (F^T *m F) = 1%:M.
  rewrite HF sue_sigmaE !mulmxA -(mulmxA _ (bdiag (fun r => (invmx (sB r))^T))) bdiag_mul.
  have -> : bdiag (fun r => (invmx (sB r))^T *m (sB r)^T) = 1%:M.
    rewrite -bdiag1; apply: eq_bdiag => r; by rewrite -trmx_mul mulmxV // trmx1.
  rewrite mulmx1 -(mulmxA _ (kron Sig _)) kron_mul mulmxV // mulmx1 kron1 mulmx1 bdiag_mul -[RHS]bdiag1; apply: eq_bdiag => r; by rewrite mulVmx.
have := normal_gauss (sue_stack (fun r => col r E)) ltr01 W1; rewrite scale1r => ->.
have Q : ssq (F *m sue_stack (fun r => col r E)) = \tr (invmx Sig *m ((sue_filter W lam E)^T *m sue_filter W lam E)).
  have sy : (invmx Sig)^T = invmx Sig by case: PI'.
  rewrite -quad_tr // ssqE utuE trmx_mul -mulmxA [F^T *m _]mulmxA HF -!mulmxA bdiag_stack kron_stack mulmxA.
  have -> : (sue_stack (fun r => col r E))^T *m bdiag (fun r => (sB r)^T) = (sue_stack (fun r => sB r *m col r E))^T.
    by rewrite -bdiag_tr -trmx_mul bdiag_stack.
  rewrite stack_dot; apply: eq_bigr => r _; rewrite mulmx_sumr summxE; apply: eq_bigr => t _; by rewrite -scalemxAr mxE !sue_filterE.
have dS := pd_det P; have dL : 0 < `|\det L| by rewrite normr_gt0 -unitfE -unitmxE.
have lL : ln `|\det L| = - (1 / 2%:R) * ln (\det Sig).
  have : ln (`|\det L| ^+ 2) = - ln (\det Sig).
    by rewrite -lnV // -det_inv HL det_mulmx det_tr -expr2 -[in RHS]real_normK // num_real.
  rewrite ln_pow // => H; have t0 : 2%:R != 0 :> R by rewrite pnatr_eq0.
  by rewrite mul1r mulNr -mulrN -H mulKf.
have B0 r : 0 < `|\det (sB r)| by rewrite normr_gt0 -unitfE -unitmxE.
have lF : ln `|\det F| = - (n%:R / 2%:R) * ln (\det Sig) + \sum_r ln `|\det (sB r)|.
  rewrite /F det_mulmx det_kronr det_bdiag normrM normrX normr_prod lnM ?exprn_gt0 ?prodr_gt0 // ln_pow // lL ln_prod //.
  congr (_ + _); by rewrite mul1r !mulNr mulrN mulrA.
rewrite /gauss_loglik lF Q ln1 mulr0 subr0 mulr1; set t := \tr _; have -> : 1 / 2%:R * t = t / 2%:R by rewrite mul1r mulrC.
by rewrite addrA !mulNr.
Qed.
End Lik.

Section Clik.
Variables (G n : nat) (W : 'M[R]_n) (lu : R -> 'M[R]_n).
Hypothesis Hlu : forall a, is_lu (1%:M - a *: W) (lu a).
Implicit Types (lam : 'cV[R]_G) (E : 'M[R]_(n, G)).
(** the covariance matrix of the filtered residuals *)
Definition sS lam E : 'M[R]_G := n%:R^-1 *: ((sue_filter W lam E)^T *m sue_filter W lam E).
Lemma osum_sum (I : eqType) (s : seq I) (f : I -> option R) v : osum [seq f i | i <- s] = Some v ->
  exists g : I -> R, (forall i, i \in s -> f i = Some (g i)) /\ v = \sum_(i <- s) g i.
Proof.
elim: s v => [|a s IH] v /=; first by case=> <-; exists (fun=> 0); rewrite big_nil.
case Ea: (f a) => [x|//]; case Es: osum => [w|//] [<-]; have [g [Hg ->]] := IH _ Es.
exists (fun i => if i == a then x else g i); split=> [i|].
  by rewrite inE; case: eqP => [->|_] //=; exact: Hg.
rewrite big_cons eqxx; case: (boolP (a \in s)) => as_; last first.
  congr (_ + _); apply: eq_big_seq => i Hi; by case: eqP as_ => // <-; rewrite Hi.
have gx : g a = x by have := Hg _ as_; rewrite Ea => -[].
by congr (_ + _); apply: eq_bigr => i _; case: eqP => // ->.
Qed.
Lemma osum_some (I : eqType) (s : seq I) (f : I -> option R) (g : I -> R) : (forall i, i \in s -> f i = Some (g i)) ->
  osum [seq f i | i <- s] = Some (\sum_(i <- s) g i).
Proof.
elim: s => [|a s IH] H; first by rewrite big_nil.
rewrite /= (H a) ?mem_head // IH ?big_cons // => i Hi; by apply: H; rewrite inE Hi orbT.
Qed.
Lemma sue_jacobE lam j : sue_jacob lu lam = Some j -> (forall r, sB W lam r \in unitmx) /\ j = \sum_r ln `|\det (sB W lam r)|.
Proof.
have D r : exists e, [seq np_log `|lu (lam r 0) i i| | i <- enum 'I_n] = e by eexists.
case/osum_sum => g [Hg ->]; rewrite big_enum /=.
have K r : sB W lam r \in unitmx /\ g r = ln `|\det (sB W lam r)|.
  have := Hg r; rewrite mem_enum => /(_ isT) H.
  have T : t_jacob 1 (lu (lam r 0)) = Some (1%:R * g r) by rewrite /t_jacob H.
  have [d0] := lu_jacob (Hlu (lam r 0)) T; rewrite expr1 mul1r => ->; by rewrite unitmxE unitfE.
by split=> [r|]; [case: (K r)|apply: eq_bigr => r _; case: (K r)].
Qed.
Lemma sue_jacob_def lam : (forall r, sB W lam r \in unitmx) -> sue_jacob lu lam = Some (\sum_r ln `|\det (sB W lam r)|).
Proof.
move=> U; rewrite -big_enum /=; apply: osum_some => r _.
have d0 : \det (1%:M - lam r 0 *: W) != 0 by rewrite -unitfE -unitmxE; exact: U.
have := lu_jacob_def 1 (Hlu (lam r 0)) d0; rewrite /t_jacob expr1; case: osum => [v|//] []; by rewrite mul1r => ->.
Qed.
Lemma sue_clikE E lam v : sue_clik lu W E lam = Some v ->
  [/\ pd (sS lam E), forall r, sB W lam r \in unitmx & v = (n%:R / 2%:R) * ln (\det (sS lam E)) - \sum_r ln `|\det (sB W lam r)|].
Proof.
rewrite /sue_clik -/(sS lam E) /np_log; case: ifP => // D0; case Ej: sue_jacob => [j|//] [<-]; have [U ->] := sue_jacobE Ej.
have P : pd (sS lam E) by apply: sig_pd; rewrite unitmxE unitfE -normr_gt0.
by split=> //; rewrite ger0_norm ?ltW ?pd_det // mulNr opprD opprK.
Qed.
Lemma sue_clik_def E lam : sS lam E \in unitmx -> (forall r, sB W lam r \in unitmx) ->
  sue_clik lu W E lam = Some ((n%:R / 2%:R) * ln (\det (sS lam E)) - \sum_r ln `|\det (sB W lam r)|).
Proof.
move=> US U; have P : pd (sS lam E) by exact: sig_pd.
by rewrite /sue_clik -/(sS lam E) /np_log normr_gt0 -unitfE -unitmxE US (sue_jacob_def U) ger0_norm ?ltW ?pd_det // mulNr opprD opprK.
Qed.
Section Obs.
Variables (K : 'I_G -> nat) (y : 'I_G -> 'cV[R]_n) (X : forall r, 'M[R]_(n, K r)).
Implicit Type b : forall r, 'cV[R]_(K r).
Lemma resid_col b r : col r (sur_resids y X b) = y r - X r *m b r.
Proof. by apply/matrixP => i j; rewrite ord1 !mxE. Qed.
Lemma sue_loglikE b lam Sig : pd Sig -> (forall r, sB W lam r \in unitmx) ->
  sue_loglik y X W b lam Sig = - ((G * n)%:R / 2%:R) * ln (2%:R * PI) - (n%:R / 2%:R) * ln (\det Sig) + \sum_r ln `|\det (sB W lam r)|
  - (n%:R / 2%:R) * \tr (invmx Sig *m sS lam (sur_resids y X b)).
Proof.
move=> P U; have := sue_normal (sur_resids y X b) P U.
have -> : sue_stack (fun r => col r (sur_resids y X b)) = sue_stack (fun r => y r - X r *m b r).
  by apply/matrixP => p j; rewrite ![sue_stack _ _ _]mxE resid_col.
rewrite -/(sue_loglik y X W b lam Sig) => ->; congr (_ - _).
rewrite /sS -scalemxAr mxtraceZ; case: (posnP n) => [z|n0].
  have -> : sue_filter W lam (sur_resids y X b) = 0 by apply/matrixP => -[m mn]; exfalso; rewrite z in mn.
  by rewrite trmx0 mul0mx mulmx0 mxtrace0 !mulr0.
have nn : n%:R != 0 :> R by rewrite pnatr_eq0 -lt0n.
move: (\tr _) => t; by rewrite [RHS]mulrA [n%:R / _]mulrC mulfK // mul1r.
Qed.
(** ** C84_clik: the objective is minus the concentrated Gaussian log-likelihood *)
Theorem C84_clik : forall b lam v, sue_clik lu W (sur_resids y X b) lam = Some v ->
  [/\ pd (n%:R^-1 *: ((sue_filter W lam (sur_resids y X b))^T *m sue_filter W lam (sur_resids y X b))),
      sue_loglik y X W b lam (n%:R^-1 *: ((sue_filter W lam (sur_resids y X b))^T *m sue_filter W lam (sur_resids y X b))) = sue_llik G n (- v)
    & forall Sig, pd Sig -> sue_loglik y X W b lam Sig <= sue_llik G n (- v)].
Proof.
move=> b lam v H; have [P U Ev] := sue_clikE H; rewrite -/(sS lam (sur_resids y X b)); set S := sS _ _ in P Ev *.
have E0 : sue_loglik y X W b lam S = sue_llik G n (- v).
  rewrite sue_loglikE // -/S mulVmx ?pd_unit // mxtrace1 /sue_llik Ev natrM.
  have t0 : 2%:R != 0 :> R by rewrite pnatr_eq0.
  move: (ln _) (ln _) (\sum_r _) => a c d; mfield R_realFieldType; by apply/eqP.
split=> // Sig PS; rewrite -E0 !sue_loglikE // -/S mulVmx ?pd_unit // mxtrace1.
have h : 0 <= n%:R / 2%:R :> R by rewrite divr_ge0 ?ler0n.
have := ler_wpmul2l h (kl_bound P PS); set t := \tr _; move: (\sum_r _) (- _ * _) (n%:R / 2%:R) => d a k.
rewrite !mulrDr => L; rewrite ![a - _ + d]addrAC -!addrA ler_add2l ler_add2l -!opprD ler_opp2; exact: L.
Qed.
Lemma fcol lam b q : resid (fun r => X r - lam r 0 *: (W *m X r)) (fun r => y r - lam r 0 *: (W *m y r)) b q = col q (sue_filter W lam (sur_resids y X b)).
Proof.
rewrite sue_filterE resid_col /resid; have -> (A : 'cV[R]_n) : sB W lam q *m A = A - lam q 0 *: (W *m A) by rewrite /sB mulmxBl mul1mx scalemxAl.
by rewrite mulmxBr mulmxBl -scalemxAl -mulmxA scalerBr !opprB [X in _ + X = _]addrC addrACA [X in _ + X = _]addrC.
Qed.
Lemma sue_objective lam b (S : 'M[R]_G) : S^T = S ->
  objective (fun r => X r - lam r 0 *: (W *m X r)) (fun r => y r - lam r 0 *: (W *m y r)) S b =
  \tr (S *m ((sue_filter W lam (sur_resids y X b))^T *m sue_filter W lam (sur_resids y X b))).
Proof.
move=> sy; rewrite -quad_tr //; apply: eq_bigr => r _; apply: eq_bigr => t _.
by rewrite !fcol.
Qed.
Lemma sue_est_sig lam E e : sue_est y X W lam E = Some e -> e_sig e = sS lam E /\ pd (sS lam E).
Proof. by move/est_fields => [h1 h2 _ _ _]; split; [exact: h1|apply: sig_pd; rewrite -h1]. Qed.
(** ** C84_pass: estimation with a given Sigma maximises the likelihood, and does not raise the concentrated objective *)
Theorem C84_pass : forall b lam e, (forall r, 1%:M - lam r 0 *: W \in unitmx) -> sue_est y X W lam (sur_resids y X b) = Some e ->
  (forall b', sue_loglik y X W b' lam (e_sig e) <= sue_loglik y X W (e_b e) lam (e_sig e) /\
    (sue_loglik y X W b' lam (e_sig e) = sue_loglik y X W (e_b e) lam (e_sig e) -> forall r, b' r = e_b e r)) /\
  (forall v v', sue_clik lu W (sur_resids y X b) lam = Some v -> sue_clik lu W (sur_resids y X (e_b e)) lam = Some v' -> v' <= v).
Proof.
move=> b lam e U H; have [Es P] := sue_est_sig H; rewrite -Es in P; have sy : (invmx (e_sig e))^T = invmx (e_sig e) by case: (pd_inv P).
have n0 : (0 < n)%N -> 0 < n%:R / 2%:R :> R by move=> n0; rewrite divr_gt0 ?ltr0n.
have T b' : (n%:R / 2%:R) * \tr (invmx (e_sig e) *m sS lam (sur_resids y X b')) =
    (1 / 2%:R) * objective (fun r => X r - lam r 0 *: (W *m X r)) (fun r => y r - lam r 0 *: (W *m y r)) (invmx (e_sig e)) b'.
  rewrite sue_objective // /sS -scalemxAr mxtraceZ; case: (posnP n) => [z|m0].
    have -> : sue_filter W lam (sur_resids y X b') = 0 by apply/matrixP => -[m mn]; exfalso; rewrite z in mn.
    by rewrite trmx0 mul0mx mulmx0 mxtrace0 !mulr0.
  have nn : n%:R != 0 :> R by rewrite pnatr_eq0 -lt0n.
  move: (\tr _) => t; by rewrite [LHS]mulrA [n%:R / _]mulrC mulfK // mul1r.
have M1 b' : sue_loglik y X W b' lam (e_sig e) <= sue_loglik y X W (e_b e) lam (e_sig e) /\
    (sue_loglik y X W b' lam (e_sig e) = sue_loglik y X W (e_b e) lam (e_sig e) -> forall r, b' r = e_b e r).
  have [m1 m2] := C46_minimum H b'; rewrite !sue_loglikE // !T; split.
    by rewrite ler_add2l ler_opp2; apply: ler_wpmul2l m1; rewrite divr_ge0 ?ler01 ?ler0n.
  move/addrI/oppr_inj/(mulfI _) => Q; apply: m2; apply: Q; by rewrite mulf_neq0 ?oner_eq0 // invr_neq0 // pnatr_eq0.
split=> // v v' Hv Hv'; have [_ E1 _] := C84_clik Hv; have [_ _ E2] := C84_clik Hv'.
have := le_trans (le_trans _ (proj1 (M1 b))) (E2 _ P); move/(_ (sue_llik G n (- v))).
rewrite -{1}E1 -/(sS lam (sur_resids y X b)) -Es => /(_ (lexx _)); by rewrite ler_add2l ler_opp2.
Qed.
End Obs.
End Clik.
