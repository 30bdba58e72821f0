(** C86: the matrix inverted by SURerrorML's asymptotic variance is the expected information. *)
From Coq Require Import Reals.
From mathcomp Require Import all_ssreflect all_algebra.
From Verif Require Import Rinst Mring LinRegModel LinRegProofs LinRegProofs2 Kron SurModel SueModel SueSpec SueProofs SueTheorems SuvModel MxDerivSpec MxDeriv ProbitTheorems2 SuvSpec.
Set Implicit Arguments.
Unset Strict Implicit.
Unset Printing Implicit Defensive.
Import Order.TTheory GRing.Theory Num.Theory.
Local Open Scope ring_scope.

Add Field Rf : (@p_ft R_realFieldType).
(** the list of pairs *)
Lemma tlist_mem G (p : 'I_G * 'I_G) : (p \in suv_tlist G) = (p.1 <= p.2)%N.
Proof.
apply/allpairsPdep/idP => [[i [j [_]]]|H]; first by rewrite mem_filter => /andP [ij _] ->.
by exists p.1, p.2; rewrite mem_enum mem_filter H mem_enum -surjective_pairing.
Qed.
Lemma tlist_uniq G : uniq (suv_tlist G).
Proof.
apply: allpairs_uniq_dep; first exact: enum_uniq; last by move=> [i j] [i' j'] _ _ [-> ->].
by move=> i _; rewrite filter_uniq // enum_uniq.
Qed.
Notation pair G a := (tnth (in_tuple (suv_tlist G)) a).
Lemma pair_le G a : ((pair G a).1 <= (pair G a).2)%N.
Proof. by rewrite -tlist_mem mem_tnth. Qed.
Lemma index_pair G (p : 'I_G * 'I_G) (a : 'I_(size (suv_tlist G))) : (p.1 <= p.2)%N -> (index p (suv_tlist G) == a :> nat) = (p == pair G a).
Proof.
move=> H; have M : p \in suv_tlist G by rewrite tlist_mem.
have M' := mem_tnth a (in_tuple (suv_tlist G)).
rewrite (tnth_nth p) /=; apply/eqP/eqP => [<-|->]; first by rewrite nth_index.
by rewrite index_uniq ?tlist_uniq.
Qed.
Lemma pair_ex G (h k : 'I_G) : (h <= k)%N -> exists a, pair G a = (h, k).
Proof.
move=> H; have M : (h, k) \in suv_tlist G by rewrite tlist_mem.
have L : (index (h, k) (suv_tlist G) < size (suv_tlist G))%N by rewrite index_mem.
by exists (Ordinal L); apply/esym/eqP; rewrite -index_pair.
Qed.
(** the last write *)
Lemma foldl_none (T : eqType) (V : Type) (p : T -> bool) (f : T -> V) v s : (forall j, j \in s -> p j = false) -> foldl (fun v j => if p j then f j else v) v s = v.
Proof.
elim: s v => //= j s IH v H; rewrite H ?mem_head // IH // => i i1; by apply: H; rewrite in_cons i1 orbT.
Qed.
Lemma foldl_one (T : eqType) (V : Type) (p : T -> bool) (f : T -> V) v s j0 : j0 \in s -> p j0 -> (forall j, p j -> j = j0) ->
  foldl (fun v j => if p j then f j else v) v s = f j0.
Proof.
move=> + pj U; elim: s v => //= j s IH v; rewrite in_cons; case: (boolP (j0 \in s)) => [m _|m]; first exact: IH.
rewrite orbF => /eqP <-; rewrite pj foldl_none // => i i1; apply/negP => /U E; by rewrite -E i1 in m.
Qed.
(** traces *)
Lemma tr_kron (F : comUnitRingType) G n (A : 'M[F]_G) (B : 'M[F]_n) : \tr (kron A B) = \tr A * \tr B.
Proof.
rewrite /mxtrace big_pix big_distrl /=; apply: eq_bigr => t _; rewrite big_distrr /=; apply: eq_bigr => i _; by rewrite kronE.
Qed.
Lemma tr_delta (F : comRingType) G (A : 'M[F]_G) i j : \tr (A *m delta_mx i j) = A j i.
Proof.
rewrite /mxtrace (bigD1 j) //= big1 ?addr0 => [|k kj].
  rewrite mxE (bigD1 i) //= big1 ?addr0 => [|k ki]; first by rewrite mxE !eqxx mulr1.
  by rewrite mxE (negbTE ki) mulr0.
by rewrite mxE big1 // => l _; rewrite mxE (negbTE kj) andbF mulr0.
Qed.
Lemma delta_mid (F : comRingType) G (A B : 'M[F]_G) i j k l : (A *m delta_mx i j *m B) k l = A k i * B j l.
Proof.
have -> : A *m delta_mx i j *m B = col i A *m row j B by rewrite colE rowE !mulmxA -[in RHS](mulmxA A) mul_delta_mx.
by rewrite mxE big_ord1 !mxE.
Qed.
Lemma tr_delta2 (F : comRingType) G (A B : 'M[F]_G) i j k l : \tr (A *m delta_mx i j *m B *m delta_mx k l) = A l i * B j k.
Proof. by rewrite tr_delta delta_mid. Qed.

Lemma half2 (x : R) : 1 / 2%:R * x + 1 / 2%:R * x = x.
Proof. by rewrite -mulrDl -splitr mul1r. Qed.

Lemma foldl_ext (T V : Type) (f g : V -> T -> V) v s : (forall v j, f v j = g v j) -> foldl f v s = foldl g v s.
Proof. by move=> H; elim: s v => //= j s IH v; rewrite H IH. Qed.

Section Deriv.
Variables (G n : nat) (W : 'M[R]_n) (lam : 'cV[R]_G) (Sig : 'M[R]_G).
Let Bi r : 'M[R]_n := invmx (1%:M - lam r 0 *: W).
(** the derivative of (I - a W)^-1 with respect to a is (I - a W)^-1 W (I - a W)^-1; product rule in sue_sigma *)
Definition sigma_dlam (i : 'I_G) : 'M[R]_(G * n) := \matrix_(p, q) (Sig (pt p) (pt q) *
  ((if pt p == i then Bi (pt p) *m W *m Bi (pt p) *m (Bi (pt q))^T else 0) +
   (if pt q == i then Bi (pt p) *m (Bi (pt q) *m W *m Bi (pt q))^T else 0)) (pu p) (pu q)).
Definition sigma_dsig (hk : 'I_G * 'I_G) : 'M[R]_(G * n) :=
  sue_sigma W lam (\matrix_(r, t) (((r, t) == hk) || ((t, r) == hk))%:R).
Lemma shift_dlam i : (forall r, 1%:M - lam r 0 *: W \in unitmx) -> mx_deriv (sue_shift W lam Sig (inl i)) 0 (sigma_dlam i).
Proof.
move=> U; have D r : mx_deriv (fun t => invmx (1%:M - (lam + t *: delta_mx i 0) r 0 *: W)) 0 (if r == i then Bi r *m W *m Bi r else 0).
  have L : mx_deriv (fun t => 1%:M - (lam + t *: delta_mx i 0) r 0 *: W) 0 (- ((r == i)%:R *: W)).
    apply: (md_ext (md_line (1%:M - lam r 0 *: W) (- ((r == i)%:R *: W)) 0)) => // t.
    by rewrite !mxE andbT scalerN scalerA scalerDl opprD addrA.
  have E0 : (lam + 0 *: delta_mx i 0) r 0 = lam r 0 by rewrite scale0r addr0.
  have := md_inv L; rewrite E0 => /(_ (U r)) H; apply: (md_ext H) => //.
  rewrite mulmxN mulNmx opprK -scalemxAr -scalemxAl; case: eqP => _; by rewrite ?scale1r ?scale0r.
move=> p q /=; rewrite [sigma_dlam i p q]mxE.
have := md_mul (D (pt p)) (md_tr (D (pt q))) (pu p) (pu q); rewrite scale0r addr0 -/(Bi (pt p)) -/(Bi (pt q)) => H.
apply: (dl_ext (dl_mul (dl_const (Sig (pt p) (pt q)) 0) H)) => [t|]; first by rewrite [RHS]mxE.
rewrite mul0r add0r; congr (_ * _); rewrite [LHS]mxE [RHS]mxE; congr (_ + _); case: eqP => _ //; rewrite ?mul0mx ?trmx0 ?mulmx0 //.
Qed.
Lemma shift_dsig hk : mx_deriv (sue_shift W lam Sig (inr hk)) 0 (sigma_dsig hk).
Proof.
move=> p q; rewrite /sigma_dsig /=; set H := (\matrix_(r, s) _ : 'M[R]_G).
apply: (dl_ext (dl_line (sue_sigma W lam Sig p q) (sue_sigma W lam H p q) 0)) => // t; rewrite ![sue_sigma _ _ _ p q]mxE.
by rewrite [(Sig + _) _ _]mxE [(t *: H) _ _]mxE mulrDl mulrA.
Qed.
End Deriv.

Section Info.
Variables (G n : nat) (W : 'M[R]_n) (lam : 'cV[R]_G) (Sig : 'M[R]_G).
Hypothesis PS : pd Sig.
Hypothesis UB : forall r, 1%:M - lam r 0 *: W \in unitmx.
Let D := suv_D W lam.
Let Si := invmx Sig.
Let US : Sig \in unitmx := pd_unit PS.
Let sySig : Sig^T = Sig. Proof. by case: PS. Qed.
Let sySi : Si^T = Si. Proof. by case: (pd_inv PS). Qed.
Definition suv_H (hk : 'I_G * 'I_G) : 'M[R]_G := \matrix_(r, t) (((r, t) == hk) || ((t, r) == hk))%:R.
Lemma suv_HE h k : suv_H (h, k) = if h == k then delta_mx h k else delta_mx h k + delta_mx k h.
Proof.
apply/matrixP => r t; rewrite mxE -!pair_eqE /= /pair_eq /=; case: (eqVneq h k) => [->|N]; rewrite !mxE; first by rewrite [(t == k) && _]andbC orbb.
case: (eqVneq r h) => [->|_] /=; case: (eqVneq t k) => [->|_] /=; rewrite ?(negbTE N) ?[k == h]eq_sym ?(negbTE N) ?andbF ?orbF ?addr0 ?add0r //=.
by rewrite andbC.
Qed.
(** the derivatives of Sigma, between the filters *)
Definition Klam i : 'M[R]_(G * n) := kron (delta_mx i i *m Sig) (D i) + kron (Sig *m delta_mx i i) (D i)^T.
Definition Ksig hk : 'M[R]_(G * n) := kron (suv_H hk) 1%:M.
Definition Bb : 'M[R]_(G * n) := bdiag (fun r => invmx (sB W lam r)).
Definition mid K : 'M[R]_(G * n) := Bb *m K *m Bb^T.
Lemma sigma_mid : sue_sigma W lam Sig = mid (kron Sig 1%:M).
Proof. by rewrite sue_sigmaE /mid /Bb bdiag_tr. Qed.
Lemma dsig_mid hk : sigma_dsig W lam hk = mid (Ksig hk).
Proof. by rewrite /sigma_dsig sue_sigmaE /mid /Bb bdiag_tr. Qed.
Lemma midE K r i t j : mid K (pix r i) (pix t j) = (invmx (sB W lam r) *m (\matrix_(a, b) K (pix r a) (pix t b)) *m (invmx (sB W lam t))^T) i j.
Proof.
rewrite /mid [LHS]mxE big_pix (bigD1 t) //= [X in _ + X]big1 ?addr0 => [|s st]; last first.
  by apply: big1 => l _; rewrite [Bb^T _ _]mxE bdiagE eq_sym (negbTE st) mulr0.
rewrite [RHS]mxE; apply: eq_bigr => l _; rewrite [Bb^T _ _]mxE bdiagE eqxx [_^T l j]mxE; congr (_ * _).
rewrite mxE big_pix (bigD1 r) //= [X in _ + X]big1 ?addr0 => [|s st]; last first.
  by apply: big1 => u _; rewrite bdiagE eq_sym (negbTE st) mul0r.
rewrite [RHS]mxE; apply: eq_bigr => u _; by rewrite bdiagE eqxx mxE.
Qed.
Lemma dlam_mid i : sigma_dlam W lam Sig i = mid (Klam i).
Proof.
apply/matrixP => p q; rewrite -[p]pix_pt_pu -[q]pix_pt_pu; move: (pt p) (pu p) (pt q) (pu q) => r a t b.
rewrite midE.
have -> : (\matrix_(a, b) Klam i (pix r a) (pix t b)) = Sig r t *: ((if r == i then D i else 0) + (if t == i then (D i)^T else 0)).
  apply/matrixP => u v; rewrite mxE /Klam [LHS]mxE !kronE [RHS]mxE [X in Sig r t * X]mxE mulrDr; congr (_ + _).
    have := delta_mid 1%:M Sig i i r t; rewrite mul1mx => ->; rewrite mxE; case: eqP => [->|]; rewrite ?mul1r // !mul0r mxE mulr0 //.
  have := delta_mid Sig 1%:M i i r t; rewrite mulmx1 => ->; rewrite [1%:M _ _]mxE [i == t]eq_sym; case: eqP => [->|]; rewrite ?mulr1 // mulr0 mul0r mxE mulr0 //.
rewrite -scalemxAr -scalemxAl [RHS]mxE /sigma_dlam [LHS]mxE !pt_pix !pu_pix; congr (_ * _); rewrite mulmxDr mulmxDl.
rewrite [LHS]mxE [RHS]mxE; congr (_ + _).
  case: eqP => [->|_]; last by rewrite mulmx0 mul0mx.
  by rewrite /D /suv_D !mulmxA.
case: eqP => [->|_]; last by rewrite mulmx0 mul0mx.
by rewrite /D /suv_D !trmx_mul !mulmxA.
Qed.
Lemma Bb_inv : Bb \in unitmx /\ invmx Bb = bdiag (sB W lam).
Proof.
have E : bdiag (sB W lam) *m Bb = 1%:M by rewrite /Bb bdiag_mul -bdiag1; apply: eq_bdiag => r; rewrite mulmxV //; exact: UB.
have [_ U] := mulmx1_unit E; split=> //; by rewrite -[LHS]mul1mx -E -mulmxA mulmxV // mulmx1.
Qed.
Lemma gauss_mid K K' : gauss_info (sue_sigma W lam Sig) (mid K) (mid K') = 1 / 2%:R * \tr (kron Si 1%:M *m K *m kron Si 1%:M *m K').
Proof.
have [U _] := Bb_inv; rewrite /gauss_info sigma_mid; congr (_ * _).
have [Uk Ik] : kron Sig (1%:M : 'M[R]_n) \in unitmx /\ invmx (kron Sig (1%:M : 'M[R]_n)) = kron Si 1%:M.
  by have := kron_unit US (unitmx1 _ n); rewrite invmx1.
have UT : Bb^T \in unitmx by rewrite unitmx_tr.
have I : invmx (mid (kron Sig 1%:M)) = invmx Bb^T *m kron Si 1%:M *m invmx Bb.
  rewrite /mid; apply: (can_inj (mulKmx (_ : Bb *m kron Sig 1%:M *m Bb^T \in unitmx))); first by rewrite !unitmx_mul U Uk.
  by rewrite mulmxV ?unitmx_mul ?U ?Uk // -!mulmxA mulKVmx // -Ik mulKVmx // mulmxV.
rewrite I /mid -!mulmxA !mulKmx // mulKVmx // [LHS]mxtrace_mulC -!mulmxA mulmxV // mulmx1 //.
Qed.
Lemma info_ll i j : gauss_info (sue_sigma W lam Sig) (sigma_dlam W lam Sig i) (sigma_dlam W lam Sig j) = suv_ll Sig Si D i j.
Proof.
rewrite !dlam_mid gauss_mid /Klam; move: D => DD; rewrite -!mulmxA !mulmxDr !kron_mul !mul1mx !mulmxDl !mulmxDr !kron_mul !mxtraceD !tr_kron.
rewrite !mulmxA /Si !(mulmxK US) !(mulmxKV US) mulVmx // !mul1mx -/Si.
have t2 : \tr (delta_mx i i *m Si *m delta_mx j j *m Sig) = Si i j * Sig i j.
  by rewrite mxtrace_mulC !mulmxA mxtrace_mulC !mulmxA mxtrace_mulC !mulmxA tr_delta2 -[in Sig i j]sySig mxE.
have t3 : \tr (Si *m delta_mx i i *m Sig *m delta_mx j j) = Si i j * Sig i j by rewrite tr_delta2 -[in LHS]sySi mxE.
have t4 : \tr (delta_mx i i *m delta_mx j j : 'M[R]_G) = (i == j)%:R.
  have := tr_delta2 (1%:M : 'M[R]_G) 1%:M i i j j; rewrite mul1mx mulmx1 => ->; rewrite !mxE eq_sym; case: eqP => _; by rewrite ?mulr1 ?mulr0.
have t1 : \tr (Si *m delta_mx i i *m delta_mx j j *m Sig) = (i == j)%:R by rewrite mxtrace_mulC !mulmxA mulmxV // mul1mx t4.
rewrite t1 t2 t3 t4 /suv_ll [RHS]mxE [diag_mx _ i j]mxE [_ 0 i]mxE [had _ _ i j]mxE [had _ _ i j]mxE.
have trT (A : 'M[R]_n) (B : 'M[R]_n) : \tr (A^T *m B^T) = \tr (A *m B) by rewrite -trmx_mul mxtrace_tr mxtrace_mulC.
have -> : suv_trDTD DD i j = \tr ((DD i)^T *m DD j).
  rewrite mxE; case: ltngtP => // [_|/val_inj -> //]; by rewrite -mxtrace_tr trmx_mul trmxK.
have -> : \tr (DD i *m (DD j)^T) = \tr ((DD i)^T *m DD j) by rewrite -{1}[DD i]trmxK trT.
rewrite trT; case: (eqVneq i j) => [<-|_]; rewrite ?mulr1n ?mulr0n !mulrDr [X in _ + X]addrC addrACA !half2 ?mul1r ?mul0r //.
Qed.
Lemma info_ls i a : gauss_info (sue_sigma W lam Sig) (sigma_dlam W lam Sig i) (sigma_dsig W lam (pair G a)) = suv_lsig Si D i a.
Proof.
have le := pair_le a; have ip (j : 'I_G) : (index (if (val j < val i)%N then (j, i) else (i, j)) (suv_tlist G) == val a) = ((if (val j < val i)%N then (j, i) else (i, j)) == pair G a).
  by rewrite index_pair //; case: ltnP => //= /ltnW.
rewrite dlam_mid dsig_mid gauss_mid /Klam /Ksig /suv_lsig [RHS]mxE.
rewrite (foldl_ext _ (g := fun v j => if (if (val j < val i)%N then (j, i) else (i, j)) == pair G a then Si i j * \tr (D i) else v)); last by move=> v j; rewrite ip.
move: D => DD; case: (pair G a) le => h k /= le {ip}.
rewrite mulmxDr !mulmxDl !kron_mul !mul1mx !mxtraceD !tr_kron !mulmxA !mulmx1 mxtrace_tr.
have -> : \tr (Si *m delta_mx i i *m Sig *m Si *m suv_H (h, k)) = (Si *m suv_H (h, k)) i i.
  rewrite /Si mulmxK // -/Si -mulmxA mxtrace_mulC -mulmxA mxtrace_mulC tr_delta.
  have HT : (suv_H (h, k))^T = suv_H (h, k) by apply/matrixP => r t; rewrite !mxE orbC.
  by rewrite -[in LHS]HT -[in LHS]sySi -trmx_mul mxE.
have -> : \tr (Si *m Sig *m delta_mx i i *m Si *m suv_H (h, k)) = (Si *m suv_H (h, k)) i i by rewrite mulVmx // mul1mx -mulmxA mxtrace_mulC tr_delta.
rewrite mulrDr half2.
have dE r t : (Si *m delta_mx r t) i i = (t == i)%:R * Si i r.
  by have := delta_mid Si 1%:M r t i i; rewrite mulmx1 => ->; rewrite [1%:M _ _]mxE mulrC.
case: (eqVneq h i) => [hi|hi].
  rewrite (@foldl_one _ _ _ _ _ _ k) ?mem_enum //; last first.
  - move=> j; subst h; case: ltnP => [ji|_] /eqP [] // E; by rewrite E ltnn in ji.
  - by subst h; rewrite ltnNge le.
  subst h; congr (_ * _); rewrite suv_HE; case: (eqVneq i k) => [<-|N]; first by rewrite dE eqxx mul1r.
  by rewrite mulmxDr mxE !dE eqxx eq_sym (negbTE N) mul0r mul1r add0r.
case: (eqVneq k i) => [ki|ki].
  subst k; have lt : (h < i)%N by rewrite ltn_neqAle le andbT.
  rewrite (@foldl_one _ _ _ _ _ _ h) ?mem_enum ?lt //; last first.
  - move=> j; case: ltnP => [_|ji] /eqP [] // E; by rewrite E eqxx in hi.
  congr (_ * _); rewrite suv_HE (negbTE hi) mulmxDr mxE !dE eqxx (negbTE hi) mul0r mul1r addr0 //.
rewrite foldl_none => [|j _]; last first.
  by case: ifP => _; apply/eqP => -[]; [move=> _ E; rewrite E eqxx in ki|move=> E; rewrite E eqxx in hi].
rewrite suv_HE; case: (eqVneq h k) => _; first by rewrite dE (negbTE ki) !mul0r.
by rewrite mulmxDr mxE !dE (negbTE hi) (negbTE ki) !mul0r addr0 mul0r.
Qed.
Lemma info_ss a c : gauss_info (sue_sigma W lam Sig) (sigma_dsig W lam (pair G a)) (sigma_dsig W lam (pair G c)) = suv_sig n Si a c.
Proof.
rewrite !dsig_mid gauss_mid /Ksig /suv_sig [RHS]mxE [X in _ = _ * X]mxE.
case: (pair G a) => i j; case: (pair G c) => h k.
rewrite !kron_mul !mulmx1 tr_kron mxtrace1 !suv_HE.
have sy x y : Si x y = Si y x by rewrite -[in LHS]sySi mxE.
rewrite mulrA mulrC; congr (_ * _); rewrite -[RHS]half2 -mulrDr; congr (_ * _).
case: (eqVneq i j) => [<-|_]; case: (eqVneq h k) => [<-|_]; rewrite ?mulmxDr ?mulmxDl ?mulmxDr ?mxtraceD !tr_delta2.
- by rewrite expr2 [Si h i]sy -[(2%:R)^-1]div1r half2.
- by rewrite [Si k i]sy [Si h i]sy ![Si i k * _]mulrC.
- by rewrite [Si h i]sy [Si h j]sy ![Si j h * _]mulrC.
- rewrite [Si k i]sy [Si h i]sy [Si k j]sy [Si h j]sy ![Si j k * _]mulrC ![Si j h * _]mulrC.
  by rewrite [X in X + _]addrC.
Qed.
Definition suv_V : 'M[R]_(G + size (suv_tlist G)) := block_mx (suv_ll Sig Si D) (suv_lsig Si D) (suv_lsig Si D)^T (suv_sig n Si).
Lemma bigE : suv_big W lam Sig = Some suv_V.
Proof. by rewrite /suv_big la_inv_unit //; case: forallP. Qed.
Definition suv_par (p : 'I_(G + size (suv_tlist G))) : 'I_G + 'I_G * 'I_G := match split p with inl i => inl i | inr a => inr (pair G a) end.
Definition suv_K p := match suv_par p with inl i => Klam i | inr hk => Ksig hk end.
Lemma shift_K p : mx_deriv (sue_shift W lam Sig (suv_par p)) 0 (mid (suv_K p)).
Proof.
rewrite /suv_K; case: (suv_par p) => [i|hk]; first by rewrite -dlam_mid; apply: shift_dlam.
by rewrite -dsig_mid; apply: shift_dsig.
Qed.
Lemma gauss_sym m (V Vp Vq : 'M[R]_m) : gauss_info V Vp Vq = gauss_info V Vq Vp :> R.
Proof. by rewrite /gauss_info -mulmxA mxtrace_mulC !mulmxA. Qed.
Lemma V_K p q : suv_V p q = gauss_info (sue_sigma W lam Sig) (mid (suv_K p)) (mid (suv_K q)).
Proof.
rewrite /suv_K /suv_par /suv_V -[in LHS](splitK p) -[in LHS](splitK q).
case: split => i; case: split => j; rewrite /= ?block_mxEul ?block_mxEur ?block_mxEdl ?block_mxEdr.
- by rewrite -!dlam_mid info_ll.
- by rewrite -dlam_mid -dsig_mid info_ls.
- by rewrite -dlam_mid -dsig_mid gauss_sym info_ls mxE.
- by rewrite -!dsig_mid info_ss.
Qed.
End Info.

Theorem C86_info : forall G n (W : 'M[R]_n) (lam : 'cV[R]_G) (Sig : 'M[R]_G), pd Sig -> (forall r, 1%:M - lam r 0 *: W \in unitmx) ->
  exists2 V, suv_big W lam Sig = Some V & forall p q Vp Vq,
    mx_deriv (sue_shift W lam Sig (suv_par p)) 0 Vp -> mx_deriv (sue_shift W lam Sig (suv_par q)) 0 Vq ->
    V p q = gauss_info (sue_sigma W lam Sig) Vp Vq.
Proof.
move=> G n W lam Sig PS U; exists (suv_V W lam Sig); first exact: bigE.
by move=> p q Vp Vq Dp Dq; rewrite V_K // (md_uniq Dp (shift_K Sig U p)) (md_uniq Dq (shift_K Sig U q)).
Qed.
(** the parameters are the lambdas, in order, followed by every covariance of two equations once *)
Theorem C86_parameters : forall G,
  [/\ forall i, suv_par (lshift _ i) = inl i :> 'I_G + 'I_G * 'I_G,
   forall h k : 'I_G, (h <= k)%N -> exists p, suv_par p = inr (h, k), forall p (h k : 'I_G), suv_par p = inr (h, k) -> (h <= k)%N
   & injective (@suv_par G)].
Proof.
move=> G; split.
- by move=> i; rewrite /suv_par (unsplitK (inl _ i)).
- by move=> h k /pair_ex [a E]; exists (rshift G a); rewrite /suv_par (unsplitK (inr _ a)) E.
- by move=> p h k; rewrite /suv_par; case: split => // a [] E; have := pair_le a; rewrite E.
- move=> p q; rewrite /suv_par => E; rewrite -(splitK p) -(splitK q); move: E; case: split => i; case: split => j //= [].
    by move=> ->.
  move=> E; congr (rshift _ _); apply/val_inj => /=.
  have := index_pair i (pair_le i); have := index_pair j (pair_le j); rewrite E !eqxx => /eqP <- /eqP <- //.
Qed.
