(** C30: the Jacobian methods of the maximum likelihood models. *)
From Coq Require Import Reals Ring Field.
From mathcomp Require Import all_ssreflect all_algebra.
From mathcomp.fingroup Require Import perm.
From mathcomp.real_closed Require Import complex.
From Verif Require Import Rinst Mring LinRegModel LinRegProofs LinRegProofs2 FilterModel MLModel MLSpec MLProofs.
Set Implicit Arguments.
Unset Strict Implicit.
Unset Printing Implicit Defensive.
Import Order.TTheory GRing.Theory Num.Theory.
Local Open Scope ring_scope.

(** C30: for row standardised weights the Jacobian determinant is positive over the whole search range, so no method takes the
    logarithm of a non-positive number. *)
Theorem C30_jacobian_positive : forall n (W : 'M[R]_n) rho, zero_diag W -> substochastic W -> `|rho| < 1 ->
  0 < \det (a_of W rho) /\ a_of W rho = 1%:M - rho *: W.
Proof. by move=> n W rho Wd [W0 W1] r1; rewrite a_ofE //; split=> //; exact: det_pos. Qed.

(** C30: FULL and LU.  L, U, s, t is any factorisation with row and column permutations, as computed by SuperLU. *)
Theorem C30_full_lu : forall n (W L U : 'M[R]_n) (s t : 'S_n) ssr rho, zero_diag W ->
  perm_mx s *m (1%:M - rho *: W) *m perm_mx t = L *m U -> (forall i, L i i = 1) -> is_trig_mx L -> is_trig_mx U^T ->
  0 < \det (1%:M - rho *: W) -> c_loglik_sp ssr U = c_loglik_full ssr rho W.
Proof.
move=> n W L U s t ssr rho Wd H L1 HL HU D0; rewrite /c_loglik_sp /c_loglik_full a_ofE //.
have E := det_LU H L1 HL HU; rewrite gtr0_norm // in E.
rewrite osum_log_In.
  by rewrite big_enum /= -E /np_log D0.
move=> i _; rewrite normr_gt0; apply/negP => /eqP Ui; move: D0; rewrite E (bigD1 i) //= Ui normr0 mul0r ltxx //.
Qed.

(** C30: FULL and ORD with real eigenvalues (with multiplicity): the roots of the characteristic polynomial. *)
Theorem C30_full_ord : forall n (W : 'M[R]_n) (evals : seq R) ssr rho, zero_diag W -> substochastic W -> `|rho| < 1 ->
  char_poly W = \prod_(e <- evals) ('X - e%:P) -> c_loglik_ord n ssr rho evals = c_loglik_full ssr rho W.
Proof.
move=> n W evals ssr rho Wd [W0 W1] r1 H; rewrite /c_loglik_ord /c_loglik_full a_ofE //.
have D0 := det_pos W0 W1 r1; have E := det_charpoly rho H.
rewrite osum_log_In ?(=^~ E); first by rewrite /np_log D0.
move=> e He; rewrite ltNge; apply/negP => Le.
have re1 : 1 <= rho * e by rewrite -subr_le0.
have e0 : e != 0 by apply/eqP => e0; move: re1; rewrite e0 mulr0 ler10.
have L1 : `|e^-1| < 1.
  have Ne : 0 < `|e| by rewrite normr_gt0.
  rewrite normfV invf_lt1 // ltNge; apply/negP => Le1.
  have : 1 <= `|rho| * `|e| by rewrite -normrM; apply: le_trans re1 (ler_norm _).
  by rewrite leNgt; move/negP; apply; apply: le_lt_trans r1; rewrite ler_pimulr.
have := dominance W0 W1 L1; rewrite unitmxE unitfE (det_charpoly e^-1 H) prodf_seq_eq0 => /hasPn /(_ e He).
by rewrite mulVf // subrr eqxx.
Qed.

(** C30: FULL and ORD with complex eigenvalues. *)
Theorem C30_full_ord_complex : forall n (W : 'M[R]_n) (evals : seq (complex R)) ssr rho, zero_diag W ->
  0 < \det (1%:M - rho *: W) -> char_poly (map_mx (real_complex R) W) = \prod_(e <- evals) ('X - e%:P) ->
  c_loglik_ord_c n ssr rho evals = c_loglik_full ssr rho W.
Proof.
move=> n W evals ssr rho Wd D0 H; rewrite /c_loglik_ord_c /c_loglik_full a_ofE //.
have modM z z' : modc (z * z') = modc z * modc z'.
  have modE (u : complex R) : modc u = ComplexField.Normc.normc u by case: u.
  by rewrite !modE ComplexField.Normc.normcM.
have mod1 : modc 1 = 1 by rewrite /modc /= expr1n expr0n addr0 sqrtr1.
have E := det_charpoly (rho%:C)%C H.
have E2 : \det (1%:M - (rho%:C)%C *: map_mx (real_complex R) W) = (real_complex R (\det (1%:M - rho *: W))).
  rewrite -det_map_mx; congr (\det _); apply/matrixP => i j; rewrite !mxE rmorphB rmorphM rmorphMn rmorph1 //.
have E3 : \det (1%:M - rho *: W) = \prod_(e <- evals) modc (1 - (rho%:C)%C * e).
  have -> : \det (1%:M - rho *: W) = modc (real_complex R (\det (1%:M - rho *: W))).
    by rewrite /modc /= expr0n addr0 sqrtr_sqr gtr0_norm.
  by rewrite -E2 E; elim: (evals) => [|e l IH]; rewrite ?big_nil ?big_cons // modM IH.
rewrite osum_log_In ?(=^~ E3); first by rewrite /np_log D0.
move=> e He; rewrite lt_def sqrtr_ge0 andbT; apply/eqP => M0; move: D0; rewrite E3.
have -> : \prod_(e <- evals) modc (1 - (rho%:C)%C * e) = 0.
  by apply/eqP; rewrite prodf_seq_eq0; apply/hasP; exists e => //; rewrite M0 eqxx.
by rewrite ltxx.
Qed.

(** Similar matrices *)
Section Similar.
Variables (F : fieldType) (n : nat) (P A B : 'M[F]_n).
Hypotheses (UP : P \in unitmx) (HB : B = P *m A *m invmx P).
Lemma sim_char : char_poly B = char_poly A.
Proof.
rewrite /char_poly /char_poly_mx HB !map_mxM.
have E : 'X%:M - map_mx polyC P *m map_mx polyC A *m map_mx polyC (invmx P) =
  map_mx polyC P *m ('X%:M - map_mx polyC A) *m map_mx polyC (invmx P).
  rewrite mulmxBr mulmxBl; congr (_ - _).
  have -> : map_mx polyC P *m 'X%:M = 'X%:M *m map_mx polyC P by rewrite scalar_mxC.
  by rewrite -mulmxA -map_mxM mulmxV // map_mx1 mulmx1.
by rewrite E !det_mulmx mulrAC -det_mulmx -map_mxM mulmxV // map_mx1 det1 mul1r.
Qed.
Lemma sim_det rho : \det (1%:M - rho *: B) = \det (1%:M - rho *: A).
Proof.
have -> : 1%:M - rho *: B = P *m (1%:M - rho *: A) *m invmx P.
  by rewrite mulmxBr mulmx1 mulmxBl mulmxV // HB -scalemxAr -scalemxAl.
by rewrite !det_mulmx mulrAC -det_mulmx mulmxV // det1 mul1r.
Qed.
Lemma sim_wai rho : 1%:M - rho *: A \in unitmx -> B *m invmx (1%:M - rho *: B) = P *m (A *m invmx (1%:M - rho *: A)) *m invmx P.
Proof.
move=> UA.
have E : 1%:M - rho *: B = P *m (1%:M - rho *: A) *m invmx P.
  by rewrite mulmxBr mulmx1 mulmxBl mulmxV // HB -scalemxAr -scalemxAl.
have UB : 1%:M - rho *: B \in unitmx by rewrite E !unitmx_mul UP UA unitmx_inv UP.
apply: (can_inj (mulmxK UB)); rewrite mulmxKV // E HB.
by rewrite !mulmxA mulmxKV // -!mulmxA mulKmx // !mulmxA mulmxKV // .
Qed.
End Similar.

(** the 'ord' branch; binary original weights *)
Definition binary_links n (A : 'M[R]_n) := forall i j, A i j = 0 \/ A i j = 1.
Section Sym.
Variables (n : nat) (A : 'M[R]_n).
Hypothesis HA : binary_links A.
Let d i := \sum_l A i l.
Lemma w_binaryE : w_binary A = A.
Proof. by apply/matrixP => i j; rewrite mxE; case: (HA i j) => ->; rewrite ?eqxx ?oner_eq0. Qed.
Lemma A_ge0 i j : 0 <= A i j. Proof. by case: (HA i j) => ->; rewrite ?ler01. Qed.
Lemma d_ge0 i : 0 <= d i. Proof. by apply: sumr_ge0 => j _; exact: A_ge0. Qed.
Lemma d_gt0 i j : A i j != 0 -> 0 < d i.
Proof.
move=> H; rewrite /d (bigD1 j) //= ltr_paddr //; first by apply: sumr_ge0 => l _; exact: A_ge0.
by rewrite lt_def H A_ge0.
Qed.
Lemma rowstd_sub : substochastic (w_rowstd A).
Proof.
split=> [i j|i]; first by rewrite mxE divr_ge0 ?A_ge0 // d_ge0.
under eq_bigr do rewrite mxE.
by rewrite -mulr_suml; have [->|N] := eqVneq (\sum_i0 A i i0) 0; rewrite ?mul0r ?ler01 // divff.
Qed.
Lemma symE i j tr : (symmetrize (WObj A tr)).1 i j = A i j / Num.sqrt (d i) / Num.sqrt (d j).
Proof.
rewrite /symmetrize /= !mxE.
have -> : \sum_j0 w_binary A i j0 = d i by rewrite w_binaryE.
have -> : \sum_j0 w_binary A j j0 = d j by rewrite w_binaryE.
congr (_ / _); rewrite -/(d i).
have [E|N] := eqVneq (Num.sqrt (d i)) 0; first by rewrite E mul0r invr0 mulr0.
by rewrite -{2}[d i]sqr_sqrtr ?d_ge0 // expr2 invfM mulrCA; congr (_ * _); rewrite mulrA divff // mul1r.
Qed.
Hypothesis HS : A^T = A.
Lemma A_sym i j : A i j = A j i. Proof. by rewrite -{1}HS mxE. Qed.
Lemma sym_sym tr : lower_sym (symmetrize (WObj A tr)).1 = (symmetrize (WObj A tr)).1.
Proof. by apply/matrixP => i j; rewrite mxE; case: ifP => // _; rewrite !symE A_sym -!mulrA [_^-1 * _]mulrC. Qed.
Let p i := if d i == 0 then 1 else Num.sqrt (d i).
Lemma p_neq0 i : p i != 0.
Proof. by rewrite /p; have [_|N] := eqVneq (d i) 0; rewrite ?oner_neq0 // sqrtr_eq0 -ltNge lt_def N d_ge0. Qed.
Lemma P_unit : diag_mx (\row_i p i) \in unitmx.
Proof. by rewrite unitmxE unitfE det_diag; apply/prodf_neq0 => i _; rewrite mxE p_neq0. Qed.
Lemma sym_similar tr : (symmetrize (WObj A tr)).1 = diag_mx (\row_i p i) *m w_rowstd A *m invmx (diag_mx (\row_i p i)).
Proof.
apply: (can_inj (mulmxK P_unit)); rewrite mulmxKV ?P_unit //; apply/matrixP => i j.
rewrite mul_mx_diag mul_diag_mx mxE [RHS]mxE symE !mxE -/(d i).
have [->|N] := eqVneq (A i j) 0; first by rewrite !mul0r mulr0.
have Di : 0 < d i by exact: d_gt0 N.
have Dj : 0 < d j by apply: (@d_gt0 j i); rewrite -A_sym.
have Sj : Num.sqrt (d j) != 0 by rewrite sqrtr_eq0 -ltNge.
have Si : Num.sqrt (d i) != 0 by rewrite sqrtr_eq0 -ltNge.
rewrite /p !gt_eqF // mulfVK // -{3}[d i]sqr_sqrtr ?d_ge0 // expr2 invfM mulrCA; congr (_ * _).
by rewrite mulrA divff // mul1r.
Qed.
End Sym.

(** C30: with binary links and the row standardised transform, ORD computes the eigenvalues of the weights matrix itself, leaves the
    weights object as it was, and the traces of W A^-1 and (W A^-1)^2 in the information matrix are those of the weights matrix. *)
Theorem C30_ord_setup : forall n (A : 'M[R]_n), binary_links A ->
  let w := WObj A TrR in let W := w_mat w in let o := ord_setup w in let wi := o.1.2 in
  [/\ o.2 = w, char_poly o.1.1 = char_poly W, o.1.1 = wi
    & forall rho, `|rho| < 1 -> zero_diag A ->
      [/\ \det (a_of wi rho) = \det (a_of W rho), tr1_of (wai_of wi rho) = tr1_of (wai_of W rho)
        & tr2_of (wai_of wi rho) = tr2_of (wai_of W rho)]].
Proof.
move=> n A HA w W o wi; rewrite /wi /o /ord_setup.
have -> : w_struct_sym w = (A^T == A) by rewrite /w_struct_sym [wo_orig w]/= w_binaryE.
case: eqP => // HS; rewrite (surjective_pairing (symmetrize w)); set ww := (symmetrize w).1.
have E := sym_similar HA HS TrR; rewrite -/w -/ww in E.
have UP := P_unit HA.
split=> //; first by rewrite sym_sym // (sim_char UP E).
  exact: sym_sym.
move=> rho r1 Ad; have [W0 W1] := rowstd_sub HA.
have Wd : zero_diag W by move=> i; rewrite mxE Ad mul0r.
have wd : zero_diag ww by move=> i; rewrite symE // Ad !mul0r.
have UA := dominance W0 W1 r1.
rewrite /wai_of !a_ofE //; split; first exact: sim_det UP E rho.
- rewrite (sim_wai UP E UA) -[LHS]/(\tr _) -[RHS]/(\tr _) mxtrace_mulC mulKmx //.
- rewrite (sim_wai UP E UA) /tr2_of -[LHS]/(\tr _) -[RHS]/(\tr _).
  set P := diag_mx _; set G := w_rowstd A *m _.
  have -> : P *m G *m invmx P *m (P *m G *m invmx P) = P *m (G *m G) *m invmx P by rewrite !mulmxA mulmxKV.
  by rewrite mxtrace_mulC mulKmx.
Qed.
(** hence the ORD objective is the FULL objective *)
(* partial; missing: weights that are not row standardised contiguity weights (C30_unequal_weights_refuted) *)
Theorem C30_ord_objective_partial : forall n (A : 'M[R]_n) evals ssr rho, binary_links A -> zero_diag A -> `|rho| < 1 ->
  let w := WObj A TrR in
  char_poly (ord_setup w).1.1 = \prod_(e <- evals) ('X - e%:P) ->
  c_loglik_ord n ssr rho evals = c_loglik_full ssr rho (w_mat w).
Proof.
move=> n A evals ssr rho HA Ad r1 w H.
have [_ Hc _ _] := C30_ord_setup HA.
apply: C30_full_ord => //; first by move=> i; rewrite mxE Ad mul0r.
  exact: rowstd_sub.
by rewrite -H Hc.
Qed.

(** C30: the trace of (W A^-1)'(W A^-1) is not invariant: at rho = 0 the symmetrised matrix gives a smaller value than the weights
    matrix unless all linked units have the same number of neighbours. *)
Lemma tr3E n (G : 'M[R]_n) : tr3_of G = \sum_i \sum_j G i j ^+ 2.
Proof.
rewrite /tr3_of exchange_big; apply: eq_bigr => i _; rewrite mxE; apply: eq_bigr => j _; by rewrite mxE expr2.
Qed.
Lemma wai0 n (W : 'M[R]_n) : zero_diag W -> wai_of W 0 = W.
Proof. by move=> H; rewrite /wai_of a_ofE // scale0r subr0 invmx1 mulmx1. Qed.

Theorem C30_tr3 : forall n (A : 'M[R]_n), binary_links A -> A^T = A -> zero_diag A ->
  let w := WObj A TrR in let ww := (ord_setup w).1.2 in
  tr3_of (wai_of ww 0) <= tr3_of (wai_of (w_mat w) 0) /\
  (tr3_of (wai_of ww 0) = tr3_of (wai_of (w_mat w) 0) <-> forall i j, A i j != 0 -> \sum_l A i l = \sum_l A j l).
Proof.
move=> n A HA HS Ad w ww; set d := fun i => \sum_l A i l.
have Ew : ww = (symmetrize w).1.
  rewrite /ww /ord_setup; have -> : w_struct_sym w = true by rewrite /w_struct_sym [wo_orig w]/= w_binaryE // HS eqxx.
  by rewrite (surjective_pairing (symmetrize w)).
have wd : zero_diag ww by move=> i; rewrite Ew symE // Ad !mul0r.
have Wd : zero_diag (w_mat w) by move=> i; rewrite mxE Ad mul0r.
rewrite !wai0 // !tr3E.
have AA i j : A i j ^+ 2 = A i j by case: (HA i j) => ->; rewrite ?expr0n ?expr1n.
have E1 : \sum_i \sum_j ww i j ^+ 2 = \sum_i \sum_j A i j * ((d i)^-1 * (d j)^-1).
  apply: eq_bigr => i _; apply: eq_bigr => j _; rewrite Ew symE // !exprMn AA !exprVn !sqr_sqrtr ?d_ge0 // mulrA //.
have E2 : \sum_i \sum_j w_mat w i j ^+ 2 = \sum_i \sum_j A i j * ((d i)^-1 * (d i)^-1).
  by apply: eq_bigr => i _; apply: eq_bigr => j _; rewrite mxE exprMn AA expr2.
have E3 : \sum_i \sum_j A i j * ((d i)^-1 * (d i)^-1) = \sum_i \sum_j A i j * ((d j)^-1 * (d j)^-1).
  rewrite exchange_big /=; apply: eq_bigr => i _; apply: eq_bigr => j _; by rewrite (A_sym HS).
have E4 : \sum_i \sum_j A i j * ((d i)^-1 - (d j)^-1) ^+ 2 = 2%:R * (\sum_i \sum_j w_mat w i j ^+ 2 - \sum_i \sum_j ww i j ^+ 2).
  rewrite E1 E2 mulrBr {1}mulr2n mulrDl mul1r {2}E3 mulr2n [in X in _ = _ - X]mulrDl !mul1r.
  rewrite -!big_split /= -sumrB; apply: eq_bigr => i _; rewrite -!big_split /= -sumrB; apply: eq_bigr => j _.
  by move: (A i j) (d i)^-1 (d j)^-1 => a b c; mring R_realFieldType.
have G0 : 0 <= \sum_i \sum_j A i j * ((d i)^-1 - (d j)^-1) ^+ 2.
  by do 2 (apply: sumr_ge0 => ? _); rewrite mulr_ge0 ?sqr_ge0 // A_ge0.
split.
- by move: G0; rewrite E4 pmulr_rge0 ?ltr0n // subr_ge0.
- split.
  + move=> H i j Aij; move: E4; rewrite H subrr mulr0 => /eqP; rewrite psumr_eq0 => [|i' _]; last first.
      by apply: sumr_ge0 => ? _; rewrite mulr_ge0 ?sqr_ge0 // A_ge0.
    move/allP => /(_ i (mem_index_enum _)) /=; rewrite psumr_eq0 => [|j' _]; last by rewrite mulr_ge0 ?sqr_ge0 // A_ge0.
    move/allP => /(_ j (mem_index_enum _)) /=; rewrite mulf_eq0 (negbTE Aij) /= expf_eq0 /= subr_eq0 => /eqP E.
    exact: (can_inj (@invrK _)).
  + move=> H; rewrite E1 E2; apply: eq_bigr => i _; apply: eq_bigr => j _.
    by have [->|Aij] := eqVneq (A i j) 0; rewrite ?mul0r // -/(d j) /d (H i j Aij).
Qed.

(** C30, the covariance part fails: on the path 0 - 1 - 2 the information matrix of the error model computed by ORD differs from the
    one computed by FULL, although the estimates are the same. *)
Definition path3 : 'M[R]_3 := \matrix_(i, j) ((i == 1) (+) (j == 1))%:R.
Lemma path3_binary : binary_links path3.
Proof. by move=> i j; rewrite mxE; case: (_ (+) _); [right|left]. Qed.
Lemma path3_sym : path3^T = path3. Proof. by apply/matrixP => i j; rewrite !mxE addbC. Qed.
Lemma path3_diag : zero_diag path3. Proof. by move=> i; rewrite mxE addbb. Qed.
Lemma path3_deg i : \sum_l path3 i l = if i == 1 then 2%:R else 1.
Proof.
rewrite !big_ord_recl big_ord0 !mxE; case: (i == 1) => /=; rewrite ?addr0 ?add0r //.
Qed.
Theorem C30_vm_refuted : let w := WObj path3 TrR in
  forall sig2 : R, err_info (wai_of (ord_setup w).1.2 0) sig2 <> err_info (wai_of (w_mat w) 0) sig2.
Proof.
move=> w sig2 H.
have [_ _ _ HT] := C30_ord_setup path3_binary.
have [_ T1 T2] : [/\ \det (a_of (ord_setup w).1.2 0) = \det (a_of (w_mat w) 0),
    tr1_of (wai_of (ord_setup w).1.2 0) = tr1_of (wai_of (w_mat w) 0)
    & tr2_of (wai_of (ord_setup w).1.2 0) = tr2_of (wai_of (w_mat w) 0)] by apply: HT; [rewrite normr0 ltr01|exact: path3_diag].
have := congr1 (fun M : 'M_(1 + 1) => M (lshift 1 0) (lshift 1 0)) H.
rewrite /= !block_mxEul !mxE eqxx !mulr1n T2 => /addrI T3.
have [_ [/(_ T3) /(_ 0 1) Hd _]] := C30_tr3 path3_binary path3_sym path3_diag.
move: Hd; rewrite !path3_deg mxE /= oner_eq0 => /(_ isT) /eqP; rewrite eq_sym -subr_eq0 [2%:R]mulrS addrAC subrr add0r oner_eq0 //.
Qed.
(** equivalently, the two covariance matrices differ whenever they are both defined *)
Lemma la_inv_inj k (A B : 'M[R]_k) V : la_inv A = Some V -> la_inv B = Some V -> A = B.
Proof. by move=> /la_invP [UA ->] /la_invP [UB] /(congr1 invmx); rewrite !invmxK. Qed.
Theorem C30_vm1_refuted : let w := WObj path3 TrR in forall sig2 V V',
  la_inv (err_info (wai_of (ord_setup w).1.2 0) sig2) = Some V -> la_inv (err_info (wai_of (w_mat w) 0) sig2) = Some V' -> V <> V'.
Proof. by move=> w sig2 V V' H H' E; apply: (@C30_vm_refuted sig2); rewrite -E in H'; exact: la_inv_inj H H'. Qed.

(** C30 fails for links with unequal weights: the matrix whose eigenvalues ORD computes is not similar to the weights matrix.
    Path 0 - 1 - 2 with weights 1 and 3: the row standardised matrix has eigenvalue 1, the matrix used by ORD does not. *)
Definition wpath3 : 'M[R]_3 := \matrix_(i, j) (if (i == 1) (+) (j == 1) then (if (i == 2%:R) || (j == 2%:R) then 3%:R else 1) else 0).
Lemma wpath3_bin : w_binary wpath3 = path3.
Proof.
apply/matrixP => i j; rewrite !mxE; case: (_ (+) _); rewrite ?eqxx //.
by case: (_ || _); rewrite ?oner_neq0 // pnatr_eq0.
Qed.
Lemma wpath3_row i : \sum_l wpath3 i l = if i == 1 then 4%:R else if i == 2%:R then 3%:R else 1.
Proof.
rewrite !big_ord_recl big_ord0 !mxE; case: i => -[|[|[|//]]] ? /=; rewrite ?addr0 ?add0r //.
Qed.
Lemma char_poly_at1 n (W : 'M[R]_n) : (char_poly W).[1] = \det (1%:M - W).
Proof.
rewrite /char_poly -horner_evalE -det_map_mx; congr (\det _); apply/matrixP => i j.
by rewrite [LHS]mxE [LHS]horner_evalE !mxE hornerD hornerN hornerC hornerMn hornerX.
Qed.
Theorem C30_unequal_weights_refuted : let w := WObj wpath3 TrR in
  [/\ wpath3^T = wpath3, w_struct_sym w, root (char_poly (w_mat w)) 1 & ~~ root (char_poly (ord_setup w).1.1) 1].
Proof.
have S : wpath3^T = wpath3 by apply/matrixP => i j; rewrite !mxE addbC orbC.
have SS : w_struct_sym (WObj wpath3 TrR) by rewrite /w_struct_sym wpath3_bin path3_sym.
move=> w; split=> //.
- rewrite /root char_poly_at1 -[_ == 0]negbK -unitfE -unitmxE; apply/negP => /unitmx_inj /(_ (const_mx 1)) H.
  have : const_mx 1 = 0 :> 'cV[R]_3.
    apply: H; rewrite mulmxBl mul1mx; apply/matrixP => i j; rewrite [LHS]mxE [in X in _ + X]mxE [X in - X]mxE [RHS]mxE [X in X - _]mxE.
    under eq_bigr do rewrite !mxE mulr1.
    rewrite -mulr_suml; have := wpath3_row i; under eq_bigr do rewrite mxE.
    move=> ->; rewrite divff ?subrr //; case: ifP => _; rewrite ?pnatr_eq0 //; case: ifP => _; rewrite ?pnatr_eq0 // oner_eq0 //.
  by move/matrixP => /(_ 0 0); rewrite !mxE => /eqP; rewrite oner_eq0.
- rewrite /ord_setup SS (surjective_pairing (symmetrize w)) /root char_poly_at1 -unitfE -unitmxE [X in lower_sym X]/=.
  set m := lower_sym _.
  have sE i : \sum_j w_binary wpath3 i j = if i == 1 then 2%:R else 1 by rewrite wpath3_bin path3_deg.
  pose al : R := 4%:R^-1 * Num.sqrt 2%:R; pose be : R := (Num.sqrt 2%:R)^-1.
  have mE i j : m i j = if (i == 1) (+) (j == 1) then (if (i == 2%:R) || (j == 2%:R) then be else al) else 0.
    rewrite /m !mxE [wo_orig _]/= !sE !wpath3_row.
    case: i => -[|[|[|//]]] Hi; case: j => -[|[|[|//]]] Hj /=; rewrite ?mul0r ?mulr0 ?mul0r // ?sqrtr1 ?divr1 ?mul1r /al /be;
      rewrite ?divff ?pnatr_eq0 ?mul1r //; by rewrite mulrC.
  rewrite -[(m, _, _).1.1]/m; apply/unitmx_inj => c Hc.
  have Hci i : c i 0 = \sum_j m i j * c j 0.
    have := congr1 (fun M : 'cV_3 => M i 0) Hc; rewrite mulmxBl mul1mx mxE [X in _ + X]mxE [X in - X]mxE [RHS]mxE => /eqP.
    by rewrite subr_eq0 => /eqP.
  have := Hci 0; have := Hci 1; have := Hci 2%:R; rewrite !big_ord_recl !big_ord0 !mE /= !mul0r !addr0 ?add0r.
  have -> : lift ord0 (ord0 : 'I_2) = 1 :> 'I_3 by apply/val_inj.
  have -> : lift ord0 (lift ord0 (ord0 : 'I_1)) = 2%:R :> 'I_3 by apply/val_inj.
  have -> : ord0 = 0 :> 'I_3 by apply/val_inj.
  move=> H2 H1 H0.
  have S2 : Num.sqrt (2%:R : R) ^+ 2 = 2%:R by rewrite sqr_sqrtr // ler0n.
  have C1 : c 1 0 = (8%:R^-1 + 2%:R^-1) * c 1 0.
    rewrite {1}H1 H0 H2 !mulrA -mulrDl; congr (_ * _); congr (_ + _).
    + rewrite /al -[_ * _ / _ * _]mulrA mulrACA -expr2 S2 -invfM -natrM; apply: (@mulfI _ 8%:R); first by rewrite pnatr_eq0.
      by rewrite mulfV ?pnatr_eq0 // mulrA mulrAC -natrM -[(8 * 2)%N]/(4 * 4)%N mulfV // pnatr_eq0.
    + by rewrite /be -invfM -expr2 S2.
  have C0 : c 1 0 = 0.
    apply/eqP; move/eqP: C1; rewrite -subr_eq0 -{1}[c 1 0]mul1r -mulrBl mulf_eq0 => /orP [|//].
    rewrite subr_eq0 => /eqP E; exfalso; have := congr1 (fun t => 8%:R * t) E.
    rewrite /= mulrDr mulfV ?pnatr_eq0 // mulr1 -[8%N]/(4 * 2)%N natrM mulfK ?pnatr_eq0 // -natrM -[1]/(1%:R) -natrD => /eqP.
    by rewrite eqr_nat.
  apply/matrixP => i j; rewrite [RHS]mxE ord1; case: i => -[|[|[|//]]] Hi.
  + have -> : Ordinal Hi = 0 :> 'I_3 by apply/val_inj.
    by rewrite H0 C0 mulr0.
  + have -> : Ordinal Hi = 1 :> 'I_3 by apply/val_inj.
    by rewrite C0.
  + have -> : Ordinal Hi = 2%:R :> 'I_3 by apply/val_inj.
    by rewrite H2 C0 mulr0.
Qed.

(** C30 fails when the weights object is not row standardised: ORD replaces the transform by row standardisation, in the caller's
    object, and uses the eigenvalues of that matrix.  Three mutual neighbours with binary weights: 2 is an eigenvalue of the weights
    matrix, but not of the one used. *)
Theorem C30_transform_refuted : exists A : 'M[R]_3, let w := WObj A TrB in
  [/\ binary_links A, w_struct_sym w, wo_tr (ord_setup w).2 = TrR, \det (1%:M - 2%:R^-1 *: w_mat w) = 0
    & \det (1%:M - 2%:R^-1 *: (ord_setup w).1.1) != 0].
Proof.
pose A : 'M[R]_3 := \matrix_(i, j) (i != j)%:R.
have HA : binary_links A by move=> i j; rewrite mxE; case: (_ != _); [right|left].
have S : A^T = A by apply/matrixP => i j; rewrite !mxE eq_sym.
exists A => w.
have SS : w_struct_sym w by rewrite /w_struct_sym [wo_orig w]/= w_binaryE // S.
split=> //.
- by rewrite /ord_setup SS.
- apply/eqP; rewrite -[_ == 0]negbK -unitfE -unitmxE; apply/negP => /unitmx_inj /(_ (const_mx 1)) H.
  have : const_mx 1 = 0 :> 'cV[R]_3.
    apply: H; rewrite /w_mat /= w_binaryE // mulmxBl mul1mx -scalemxAl; apply/matrixP => i j.
    rewrite [LHS]mxE [in X in _ + X]mxE [X in - X]mxE [X in _ * X]mxE [RHS]mxE [X in X - _]mxE.
    under eq_bigr do rewrite !mxE mulr1.
    have -> : \sum_(l < 3) ((i != l)%:R : R) = 2%:R.
      by rewrite !big_ord_recl big_ord0; case: i => -[|[|[|//]]] Hi /=; rewrite ?addr0 ?add0r.
    by rewrite mulVf ?pnatr_eq0 // subrr.
  by move/matrixP => /(_ 0 0); rewrite !mxE => /eqP; rewrite oner_eq0.
- rewrite -unitfE -unitmxE.
  have -> : (ord_setup w).1.1 = (symmetrize w).1.
    by rewrite /ord_setup SS (surjective_pairing (symmetrize w)) [LHS]sym_sym.
  rewrite unitmxE unitfE (sim_det (P_unit HA) (sym_similar HA S TrB)) -unitfE -unitmxE.
  have [W0 W1] := rowstd_sub HA; apply: dominance => //.
  by rewrite normfV normr_nat invf_lt1 ?ltr0n // ltr1n.
Qed.
Print Assumptions C30_full_ord.
Print Assumptions C30_ord_setup.
Print Assumptions C30_unequal_weights_refuted.
