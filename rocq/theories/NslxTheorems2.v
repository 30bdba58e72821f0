(** C53 (an instance), C68: the nonlinear SLX fit, its weights and its names. *)
From Coq Require Import Reals Ring Field Lra.
From mathcomp Require Import all_ssreflect all_algebra.
From Verif Require Import Rinst Mring LinRegModel LinRegProofs LinRegProofs2 ProbitSpec ProbitTheorems2 NslxModel NslxTheorems.
Set Implicit Arguments.
Unset Strict Implicit.
Unset Printing Implicit Defensive.
Import Order.TTheory GRing.Theory Num.Theory.
Local Open Scope ring_scope.
Add Field Rf : (@p_ft R_realFieldType).

Section Fit.
Variables (n k h : nat) (y : 'cV[R]_n) (x : 'M[R]_(n, k)) (xw : 'M[R]_(n, h)) (ws : seq (spw n * transf)).
(** when minimize returns the value of the objective at the parameters it returns: fitted values and residuals add up to y, utu is the sum
    of squared residuals, sig2 = utu / n; vm is sig2 times the inverse of the diagonal blocks of J'J, J = (x, gradient) *)
Theorem C68_fit : forall b alpha fval r, base_nslx y x xw ws b alpha fval = NOk r -> nslxobj y x xw ws b alpha = Some fval ->
  exists u : 'cV[R]_n,
  [/\ forall i, ns_u r i = Some (u i 0) /\ ns_predy r i = Some (y i 0 - u i 0),
      ns_utu r = \sum_i u i 0 ^+ 2, ns_sig2 r = ns_utu r / n%:R, 0 <= ns_sig2 r &
      if ns_vm r is Some vm then exists2 wax, nl_wax xw ws alpha = Some wax &
        vm *m block_mx (x^T *m x) 0 0 (wax^T *m wax) = (ns_sig2 r)%:M
      else nl_wax xw ws alpha = None].
Proof.
move=> b alpha fval r; rewrite /base_nslx; case: ifP => // _; case Ex: la_inv => [xtxi|//] H O.
have [P|[i N]] : (forall i, nslx_pred x xw ws b alpha i) \/ exists i, nslx_pred x xw ws b alpha i = None.
  case: (boolP [forall i, nslx_pred x xw ws b alpha i : bool]) => [/forallP|]; first by left.
  by rewrite negb_forall => /existsP [i]; case E: (nslx_pred x xw ws b alpha i) => //; right; exists i.
- pose p i := odflt 0 (nslx_pred x xw ws b alpha i).
  have EP i : nslx_pred x xw ws b alpha i = Some (p i) by rewrite /p; case: nslx_pred (P i).
  have SU : fval = \sum_i (\col_i (y i 0 - p i)) i 0 ^+ 2.
    move: O; rewrite /nslxobj (@foldr_oadd _ _ _ (fun i => (y i 0 - p i) ^+ 2)) => [[<-]|i]; last by rewrite EP.
    by rewrite big_enum; apply: eq_bigr => i _; rewrite mxE.
  have S0 : 0 <= fval / n%:R by rewrite SU divr_ge0 ?ler0n // sumr_ge0 // => i _; apply: sqr_ge0.
  have U i : omap (fun p => y i 0 - p) (nslx_pred x xw ws b alpha i) = Some ((\col_i (y i 0 - p i)) i 0) by rewrite EP mxE.
  have Q i : nslx_pred x xw ws b alpha i = Some (y i 0 - (\col_i (y i 0 - p i)) i 0) by rewrite EP mxE opprB addrC subrK.
  have [Ux Exi] := la_invP Ex.
  case Ew: (nl_wax xw ws alpha) H => [wax|].
  + case Ei: la_inv => [waxi|//] [<-]; exists (\col_i (y i 0 - p i)); split=> //=.
    exists wax => //; have [Uw ->] := la_invP Ei; rewrite Exi -scalemxAl mulmx_block !mulmx0 !mul0mx !addr0 !add0r !mulVmx //.
    by rewrite -scalar_mx_block scalemx1.
  + by case=> <-; exists (\col_i (y i 0 - p i)); split=> //=.
- move: O; rewrite /nslxobj (@foldr_oaddN _ _ _ i) //; [by rewrite mem_enum|by rewrite N].
Qed.

(** vm leaves out the covariance between beta and alpha: it is the Gauss-Newton matrix sig2 (J'J)^-1 only when x and the gradient are
    orthogonal *)
Theorem C68_vm_gauss_newton_iff : forall b alpha fval r vm wax, base_nslx y x xw ws b alpha fval = NOk r -> ns_vm r = Some vm ->
  nl_wax xw ws alpha = Some wax -> ns_sig2 r != 0 ->
  (vm *m ((row_mx x wax)^T *m row_mx x wax) = (ns_sig2 r)%:M <-> x^T *m wax = 0).
Proof.
move=> b alpha fval r vm wax; rewrite /base_nslx; case: ifP => // _; case Ex: la_inv => [xtxi|//] H Ev Ew nz; move: H; rewrite Ew.
case Ei: la_inv => [waxi|//] [Er]; move: Ev nz; rewrite -Er /= => -[<-] nz.
have [Ux Exi] := la_invP Ex; have [Uw Ewi] := la_invP Ei.
rewrite tr_row_mx mul_col_row -scalemxAl mulmx_block !mul0mx !addr0 !add0r Exi Ewi !mulVmx //.
split=> [E|E].
- have : block_mx 1%:M (invmx (x^T *m x) *m (x^T *m wax)) (invmx (wax^T *m wax) *m (wax^T *m x)) 1%:M = 1%:M :> 'M[R]_(k + h).
    by apply: (scalerI nz); rewrite E scalemx1.
  rewrite scalar_mx_block => /eq_block_mx [_ Z _ _].
  by rewrite -[LHS](mulKVmx Ux) Z mulmx0.
- have T : wax^T *m x = 0 by apply: trmx_inj; rewrite trmx_mul trmxK E trmx0.
  by rewrite E T !mulmx0 -scalar_mx_block scalemx1.
Qed.
End Fit.

(** the weights *)
Lemma foldr_max_ge (s : seq R) d : d \in s -> d <= foldr Num.max 0 s.
Proof. elim: s => //= a s IH; rewrite inE le_maxr => /orP [/eqP ->|/IH ->]; by rewrite ?lexx ?orbT. Qed.
Lemma foldr_max_ge0 (s : seq R) : 0 <= foldr Num.max 0 s.
Proof. elim: s => //= a s IH; by rewrite le_maxr IH orbT. Qed.
Lemma path_last (s : seq R) d z : path (fun a b : R => a <= b) z s -> d \in z :: s -> z <= d <= last z s.
Proof.
elim: s z d => [|a s IH] z d /=; first by move=> _; rewrite inE => /eqP ->; rewrite lexx.
case/andP => za P; rewrite inE => /orP [/eqP ->|I]; first by rewrite lexx; have /andP [_ H] := IH a a P (mem_head _ _); apply: le_trans za H.
by have /andP [H1 ->] := IH a d P I; rewrite (le_trans za H1).
Qed.
(** every stored weight is between 0 and 1; a nearer neighbour has a larger power weight and a smaller distance fraction *)
Theorem C68_weights : forall n tr bounded (ans : seq (option (R * 'I_n))) s, wn_row tr bounded ans = Some s -> nearest_first ans ->
  (forall e, e \in s -> 0 <= e.2 <= 1) /\
  exists2 mx : R, 0 <= mx & s = [seq (e.2, if tr is TPower then 1 - e.1 / mx else e.1 / mx) | e <- pmap id (behead ans)] /\
    forall e, e \in pmap id (behead ans) -> e.1 <= mx.
Proof.
move=> n tr bounded ans s W S.
have [mx m0 [Es M]] : exists2 mx : R, 0 <= mx & s = [seq (e.2, if tr is TPower then 1 - e.1 / mx else e.1 / mx) | e <- pmap id (behead ans)] /\
    forall e, e \in pmap id (behead ans) -> e.1 <= mx.
  move: W; rewrite /wn_row; case: bounded.
  - case=> <-; set mx := foldr _ _ _; exists mx; first exact: foldr_max_ge0.
    split.
    + clear; move: mx => mx; elim: (behead ans) => //= e l IH; case: e => [[d j]|] /=; rewrite IH //; congr (_ :: _).
      by case: (tr); rewrite // addrC.
    + move=> [d j]; rewrite mem_pmap => /mapP [e I] /= E; apply: foldr_max_ge; apply/mapP; exists e => //; by rewrite -E.
  - case: ifP => // _ [<-]; set q := pmap id _; exists (last 0 (map fst q)).
      by have /andP [] := @path_last (map fst q) (last 0 (map fst q)) 0 S (mem_last _ _).
    split; first by apply: eq_map => e; case: tr; rewrite // addrC.
    move=> e I; have := @path_last (map fst q) e.1 0 S; rewrite inE map_f ?orbT // => /(_ isT) /andP [_ ->] //.
split; last by exists mx.
move=> e; rewrite Es => /mapP [a I ->] /=.
have a0 : 0 <= a.1 by have := @path_last _ a.1 0 S; rewrite inE map_f ?orbT // => /(_ isT) /andP [].
have F : 0 <= a.1 / mx <= 1.
  rewrite divr_ge0 //=; case: (mx =P 0) => [->|/eqP nz]; first by rewrite invr0 mulr0 ler01.
  by rewrite ler_pdivr_mulr ?mul1r ?M // lt_neqAle eq_sym nz m0.
by case: (tr) => //; case/andP: F => F0 F1; rewrite subr_ge0 F1 ler_subl_addr ler_addl.
Qed.

(** the shape of the weights is inferred from the neighbours that occur: if the last observation is nobody's neighbour the fit raises *)
Lemma ncols_le n (w : spw n.+1) : (forall i e, List.In e (w i) -> e.1 != ord_max) -> (ncols w <= n)%N.
Proof.
move=> H; apply/bigmax_leqP => i _; have := H i; elim: (w i) => //= e s IH Hs.
rewrite geq_max IH ?andbT; last by move=> f F; apply: Hs; right.
by have := Hs e (or_introl erefl); rewrite -val_eqE /= => ne; rewrite ltn_neqAle ne -ltnS ltn_ord.
Qed.
Theorem C68_outlier_refuted : forall n k h (y : 'cV[R]_n.+1) (x : 'M[R]_(n.+1, k)) (xw : 'M[R]_(n.+1, h.+1)) tr query w,
  make_wnslx tr false query = Some w -> (forall i d, Some (d, ord_max) \notin behead (query i)) ->
  forall b alpha fval, base_nslx y x xw [:: (w, tr)] b alpha fval = NErr NBadDims.
Proof.
move=> n k h y x xw tr query w; rewrite /make_wnslx; case: forallP => // F [Ew] N b alpha fval.
rewrite /base_nslx /nl_ok /= andbT.
have -> : square w = false; last by [].
apply/negP => /andP [_ /eqP C]; have := @ncols_le n w; rewrite C ltnn => H; apply: notF; apply: H => i e.
have -> : w i = odflt [::] (wn_row tr false (query i)) by rewrite -Ew.
rewrite /wn_row; case: ifP => //= _ I; apply/eqP => E.
have {I} : e \in [seq (e.2, if tr is TPower then - (e.1 / last 0 [seq i.1 | i <- pmap id (behead (query i))]) + 1
    else e.1 / last 0 [seq i.1 | i <- pmap id (behead (query i))]) | e <- pmap id (behead (query i))].
  move: I; elim: (map _ _) => //= a s IH [->|/IH H]; by rewrite inE ?eqxx ?H ?orbT.
case/mapP => -[d j]; rewrite mem_pmap => /mapP [a Ia /= Ea] Ee; move: E; rewrite Ee /= => Ej.
by move: Ia; rewrite -Ea Ej (negbTE (N i d)).
Qed.

(** the exponential gradient at the level of the fit: two points, each other's neighbour, so both weights are 1; at alpha = 1 the gradient
    of the code is zero although the predictions change with alpha, and the fit raises *)
Definition two_query (i : 'I_2) : seq (option (R * 'I_2)) := [:: Some (0, i); Some (2%:R, rev_ord i)].
Theorem C53_exponential_refuted : exists w, make_wnslx TExp false two_query = Some w /\
  let x : 'M[R]_(2, 1) := const_mx 1 in
  [/\ nl_ok 1 [:: (w, TExp)], nl_wax x [:: (w, TExp)] (const_mx 1) = Some 0,
      forall b i, derivable_pt_lim (fun t => odflt 0 (nslx_pred x x [:: (w, TExp)] b (const_mx t) i)) 1 (- exp (- 1)) &
      forall y b fval, base_nslx y x x [:: (w, TExp)] b (const_mx 1) fval = NErr NSingular].
Proof.
have two : (2%:R : R) / 2%:R = 1 by rewrite divff // pnatr_eq0.
pose w : spw 2 := fun i => [:: (rev_ord i, (2%:R : R) / 2%:R)].
have SQ : square w.
  apply/andP; split; apply/eqP; first by rewrite /nrows !big_ord_recl big_ord0 /=.
  by rewrite /ncols !big_ord_recl big_ord0 /=.
have W0 : nl_wax (const_mx 1 : 'M[R]_(2, 1)) [:: (w, TExp)] (const_mx 1) = Some 0.
  have E i c : nl_entry (const_mx 1 : 'M[R]_(2, 1)) [:: (w, TExp)] true (const_mx 1) i c = Some 0.
    by rewrite /nl_entry /= /sprow /= two !mxE mulr1 /np_ln ltr01 /= ln1 mul0r mulr0 oppr0 mul0r addr0.
  rewrite /nl_wax; case: forallP => [_|H]; last by exfalso; apply: H => i; apply/forallP => c; rewrite E.
  by congr Some; apply/matrixP => i c; rewrite !mxE E.
have OK : nl_ok 1 [:: (w, TExp)] by rewrite /nl_ok /= SQ.
exists w; split; first by rewrite /make_wnslx; case: forallP => [_|H] //; exfalso; apply: H.
split=> //.
- move=> b i; apply: (dl_ext (dl_add (dl_const (((const_mx 1 : 'M[R]_(2, 1)) *m b) i 0) 1) (exp_deriv 1 1))) => [t|].
  + rewrite /nslx_pred enum_ordS /=; have -> : enum 'I_0 = [::] by apply/eqP; rewrite -size_eq0 size_enum_ord.
    by rewrite /nl_entry /= /sprow /= two !mxE mulr1 !addr0.
  + by rewrite add0r mulN1r mulr1.
- move=> y b fval; rewrite /base_nslx OK /=; case: la_inv => // xi; rewrite W0 /la_inv trmx0 mul0mx unitmxE det0 unitr0 //.
Qed.

(** names: one for each lagged column, W, the letter of its transformation, and the name of the variable *)
From Coq Require Import Strings.String.
Section Names.
Variables (P : Type) (letter : P -> string) (p0 : P).
(** the parameters used for column i, as in nl_weights *)
Definition used (ps : seq P) (i : nat) : P := nth p0 ps (if size ps == 1%N then 0%N else i).
(* partial; missing: a mask that keeps one variable with one parameter tuple per variable (C68_names_refuted) *)
Theorem C68_names_partial : forall xnames mask params ps names,
  nslx_setup letter xnames mask params = NOk (ps, names) -> size params != 0%N ->
  (if mask is Some m then ~~ [&& (1 < size params)%N, size params == size m & (count id m <= 1)%N] else true) ->
  let cols := if mask is Some m then seq.mask m xnames else xnames in
  size names = size cols /\
  forall i, (i < size cols)%N -> nth ""%string names i = append "W" (append (letter (used ps i)) (append "_" (nth ""%string cols i))).
Proof.
move=> xnames mask params ps names H g0 M cols; rewrite /used; move: H.
have ONE l : size params = 1%N -> (if params is p :: _ then NOk (params, [seq append "W" (append (letter p) (append "_" j)) | j <- l]) else NErr NIndex) = NOk (ps, names) ->
   size names = size l /\ forall i, (i < size l)%N -> nth ""%string names i = append "W" (append (letter (nth p0 ps (if size ps == 1%N then 0%N else i))) (append "_" (nth ""%string l i))).
  case: params {g0 M} => [|p [|]] //= _ [<- <-] /=; split=> [|i il]; first by rewrite size_map.
  by rewrite (nth_map ""%string).
have MANY (qs : seq P) l : (1 < size qs)%N -> (if size qs != size l then NErr NBadDims else NOk (qs, [seq append "W" (append (letter p.1) (append "_" p.2)) | p <- zip qs l])) = NOk (ps, names) ->
   size names = size l /\ forall i, (i < size l)%N -> nth ""%string names i = append "W" (append (letter (nth p0 ps (if size ps == 1%N then 0%N else i))) (append "_" (nth ""%string l i))).
  move=> S2; case: eqP => //= E [<- <-]; split=> [|i il]; first by rewrite size_map size_zip E minnn.
  rewrite (nth_map (p0, ""%string)) ?size_zip ?E ?minnn // nth_zip //= -E; by case: eqP S2 => [->|].
rewrite /nslx_setup; move: M; rewrite /cols {cols}; case: mask => [m|] M /=.
- case: ifP => G1; last first.
    have G : size params = 1%N by case: (size params) g0 G1 => [|[|]].
    by rewrite G /=; apply: ONE.
  case: eqP => Gm.
  + have G2 : (1 < size (seq.mask m params))%N by rewrite size_mask //; move: M; rewrite G1 Gm eqxx /= -ltnNge.
    by case: eqP => [E|_]; [rewrite E in G1|rewrite G2; apply: MANY].
  + case: ifP => // _; case: eqP => [E|_]; [by rewrite E in G1|by rewrite G1; apply: MANY].
- case: eqP => [E|/eqP G]; first exact: ONE.
  have G1 : (1 < size params)%N by case: (size params) g0 G => [|[|]].
  by rewrite G1; apply: MANY.
Qed.
(** one parameter tuple per variable with a mask that keeps a single variable: its lag gets the name of the variable itself *)
Theorem C68_names_refuted : forall (p q : P),
  nslx_setup letter [:: "a"; "b"]%string (Some [:: false; true]) [:: p; q] = NOk ([:: q], [:: "b"%string]).
Proof. by []. Qed.
Theorem C68_names_example : forall (p : P), letter p = "e"%string ->
  nslx_setup letter [:: "a"; "b"]%string (Some [:: false; true]) [:: p] = NOk ([:: p], [:: "We_b"%string]).
Proof. by move=> p E; rewrite /nslx_setup /= E. Qed.
End Names.
(** the hypotheses of C53_power_partial can be met (weights passed to BaseNSLX) *)
Theorem C53_power_example : let w : spw 2 := fun i => [:: (rev_ord i, 2%:R^-1 : R)] in
  [/\ nl_ok 1 [:: (w, TPower)], positive [:: (w, TPower)] & all_power [:: (w, TPower)]].
Proof.
move=> w; split=> [|p [<-|//] i e [<-|//]|p [<-|//]] //=; last by rewrite invr_gt0 ltr0n.
rewrite /nl_ok /= andbT; apply/andP; split; apply/eqP; first by rewrite /nrows !big_ord_recl big_ord0 /=.
by rewrite /ncols !big_ord_recl big_ord0 /=.
Qed.
Theorem C68_weights_example : exists s, wn_row TExp true (two_query ord0) = Some s /\ nearest_first (two_query ord0) /\ size s = 1%N.
Proof. by eexists; split; [reflexivity|split]; rewrite // /nearest_first /= ler0n. Qed.
