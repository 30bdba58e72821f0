(** Derivatives of matrices, entry by entry: sums, products, determinants, inverses. *)
From Coq Require Import Reals Lra.
From mathcomp Require Import all_ssreflect all_algebra.
From mathcomp.fingroup Require Import fingroup perm.
From Verif Require Import Rinst ProbitTheorems2 MxDerivSpec.
Set Implicit Arguments.
Unset Strict Implicit.
Unset Printing Implicit Defensive.
Import Order.TTheory GRing.Theory Num.Theory.
Local Open Scope ring_scope.

(** a derivative depends on the function near the point only *)
Lemma dl_local (f g : R -> R) (a l d : R) : 0 < d -> (forall t : R, `|t - a| < d -> f t = g t) -> derivable_pt_lim f a l -> derivable_pt_lim g a l.
Proof.
move=> /ltRP d0 E D e e0; have [[d' d'0] /= H] := D e e0.
have m0 : Rlt 0 (Rmin d d') by apply: Rmin_glb_lt.
exists (mkposreal _ m0) => h h0 /= hd.
have h1 : Rlt (Rabs h) d by apply: Rlt_le_trans hd (Rmin_l _ _).
have h2 : Rlt (Rabs h) d' by apply: Rlt_le_trans hd (Rmin_r _ _).
have := H h h0 h2; rewrite E; last first.
  have -> : (Rplus a h) - a = h :> R by change (Rplus (Rplus a h) (Ropp a) = h); ring.
  by apply/ltRP.
rewrite (E a) //; by rewrite subrr normr0; apply/ltRP.
Qed.
(** a differentiable function that is not 0 at a point is not 0 near it *)
Lemma dl_neq0 (f : R -> R) (a l : R) : derivable_pt_lim f a l -> f a != 0 -> exists2 d : R, 0 < d & forall t, `|t - a| < d -> f t != 0.
Proof.
move=> D N; have C : continuity_pt f a by apply: derivable_continuous_pt; exists l.
have e0 : Rgt (Rabs (f a)) 0 by apply: Rabs_pos_lt; apply/eqP.
have [d [d0 H]] := C _ e0; exists d; first exact/ltRP.
move=> t td; apply/eqP => F; case: (Req_dec t a) => ta; first by rewrite -ta F eqxx in N.
have := H t; rewrite F /dist /= /R_dist => {H} /(_ _) H.
have : Rlt (Rabs (Rminus 0 (f a))) (Rabs (f a)).
  apply: H; split; first by split=> // ; exact: not_eq_sym.
  by have /ltRP := td.
by rewrite Rminus_0_l Rabs_Ropp => /Rlt_irrefl.
Qed.
Section Mx.
Lemma md_ext m n (f g : R -> 'M[R]_(m, n)) a M M' : mx_deriv f a M -> (forall t, f t = g t) -> M = M' -> mx_deriv g a M'.
Proof. by move=> D E <- i j; apply: (dl_ext (D i j)) => // t; rewrite E. Qed.
Lemma md_const m n (M : 'M[R]_(m, n)) a : mx_deriv (fun=> M) a 0.
Proof. by move=> i j; rewrite mxE; apply: dl_const. Qed.
Lemma md_add m n (f g : R -> 'M[R]_(m, n)) a M N : mx_deriv f a M -> mx_deriv g a N -> mx_deriv (fun t => f t + g t) a (M + N).
Proof. by move=> F G i j; apply: (dl_ext (dl_add (F i j) (G i j))) => [t|]; rewrite mxE. Qed.
Lemma md_tr m n (f : R -> 'M[R]_(m, n)) a M : mx_deriv f a M -> mx_deriv (fun t => (f t)^T) a M^T.
Proof. by move=> F i j; apply: (dl_ext (F j i)) => [t|]; rewrite mxE. Qed.
Lemma md_mul m n p (f : R -> 'M[R]_(m, n)) (g : R -> 'M[R]_(n, p)) a M N : mx_deriv f a M -> mx_deriv g a N ->
  mx_deriv (fun t => f t *m g t) a (M *m g a + f a *m N).
Proof.
move=> F G i j; have D := @dl_sum _ (index_enum (ordinal_finType n)) (fun k t => f t i k * g t k j) _ a (fun k => dl_mul (F i k) (G k j)).
by apply: (dl_ext D) => [t|]; rewrite !mxE // -big_split.
Qed.
Lemma md_line m n (M N : 'M[R]_(m, n)) a : mx_deriv (fun t => M + t *: N) a N.
Proof. by move=> i j; apply: (dl_ext (dl_line (M i j) (N i j) a)) => // t; rewrite !mxE. Qed.
Lemma md_uniq m n (f : R -> 'M[R]_(m, n)) a M M' : mx_deriv f a M -> mx_deriv f a M' -> M = M'.
Proof. move=> D E; apply/matrixP => i j; exact: uniqueness_limite (D i j) (E i j). Qed.
Lemma md_local m n (f g : R -> 'M[R]_(m, n)) (a : R) M (d : R) : 0 < d -> (forall t : R, `|t - a| < d -> f t = g t) -> mx_deriv f a M -> mx_deriv g a M.
Proof. by move=> d0 E D i j; apply: (dl_local d0 _ (D i j)) => t /E ->. Qed.
(** determinants *)
Lemma dl_prod (I : Type) (s : seq I) (F : I -> R -> R) a : (forall i, exists l, derivable_pt_lim (F i) a l) ->
  exists l, derivable_pt_lim (fun t => \prod_(i <- s) F i t) a l.
Proof.
move=> H; elim: s => [|i s [l IH]].
  by exists 0; apply: (dl_ext (dl_const 1 a)) => // t; rewrite big_nil.
by have [m D] := H i; eexists; apply: (dl_ext (dl_mul D IH)) => [t|]; [rewrite big_cons|reflexivity].
Qed.
Lemma dl_sum_ex (I : finType) (F : I -> R -> R) a : (forall i, exists l, derivable_pt_lim (F i) a l) -> exists l, derivable_pt_lim (fun t => \sum_i F i t) a l.
Proof.
move=> H; have [L HL] : exists L : {ffun I -> R}, forall i, derivable_pt_lim (F i) a (L i).
  have : forall s : seq I, exists L : I -> R, forall i, i \in s -> derivable_pt_lim (F i) a (L i).
    elim=> [|i s [L IH]]; first by exists (fun=> 0).
    have [l D] := H i; exists (fun j => if j == i then l else L j) => j; rewrite in_cons; case: eqP => [-> _ //|_ /=]; exact: IH.
  by move=> /(_ (enum I)) [L HL]; exists (finfun L) => i; rewrite ffunE; apply: HL; rewrite mem_enum.
exists (\sum_i L i); exact: dl_sum.
Qed.
Lemma det_deriv n (f : R -> 'M[R]_n) a : (forall i j, exists l, derivable_pt_lim (fun t => f t i j) a l) -> exists l, derivable_pt_lim (fun t => \det (f t)) a l.
Proof.
move=> H; have [l D] : exists l, derivable_pt_lim (fun t => \sum_(s : 'S_n) (-1) ^+ s * \prod_i f t i (s i)) a l; last by exists l; apply: (dl_ext D).
pose F (s : 'S_n) (t : R) : R := (-1) ^+ s * \prod_i f t i (s i).
have [l D] : exists l, derivable_pt_lim (fun t => \sum_s F s t) a l; last by exists l.
apply: dl_sum_ex => s; rewrite /F.
have [l D] := @dl_prod _ (index_enum (ordinal_finType n)) (fun i t => f t i (s i)) a (fun i => H i (s i)).
by eexists; apply: (dl_mul (dl_const _ a) D).
Qed.
Lemma inv_deriv_ex n (f : R -> 'M[R]_n) a M : mx_deriv f a M -> f a \in unitmx -> exists2 N, mx_deriv (fun t => invmx (f t)) a N &
  exists2 d : R, 0 < d & forall t, `|t - a| < d -> f t \in unitmx.
Proof.
move=> D U; have Dx i j : exists l, derivable_pt_lim (fun t => f t i j) a l by exists (M i j).
have [l Dl] := det_deriv Dx; have N0 : \det (f a) != 0 by rewrite -unitfE -unitmxE.
have [d d0 Hd] := dl_neq0 Dl N0.
have Ud t : `|t - a| < d -> f t \in unitmx by move=> /Hd; rewrite unitmxE unitfE.
have [x Di] : exists x, derivable_pt_lim (fun t => (\det (f t))^-1) a x.
  eexists; apply: (@dl_local _ _ _ _ d d0 _ (derivable_pt_lim_div _ _ _ _ _ (dl_const 1 a) Dl (elimN eqP N0))) => t td.
  by rewrite /div_fct RdivE ?Hd // div1r.
have A i j : exists x, derivable_pt_lim (fun t => (\adj (f t)) i j) a x.
  have [z Dc] : exists l, derivable_pt_lim (fun t => \det (row' j (col' i (f t)))) a l by apply: det_deriv => u v; have [w Dc] := Dx (lift j u) (lift i v); exists w; apply: (dl_ext Dc) => // t; rewrite !mxE.
  eexists; apply: (dl_ext (dl_mul (dl_const ((-1) ^+ (j + i)) a) Dc)) => [t|]; [by rewrite mxE|reflexivity].
have [N HN] : exists N : 'M[R]_n, forall i j, derivable_pt_lim (fun t => (\det (f t))^-1 * (\adj (f t)) i j) a (N i j).
  have : forall s : seq ('I_n * 'I_n), exists N : 'M[R]_n, forall p, p \in s -> derivable_pt_lim (fun t => (\det (f t))^-1 * (\adj (f t)) p.1 p.2) a (N p.1 p.2).
    elim=> [|p s [N IH]]; first by exists 0.
    have [y Dy] := A p.1 p.2; exists (\matrix_(i, j) if (i, j) == p then x * (\adj (f a)) p.1 p.2 + (\det (f a))^-1 * y else N i j) => q; rewrite in_cons mxE -surjective_pairing.
    case: eqP => [-> _|_ /=]; [exact: dl_mul|exact: IH].
  by move=> /(_ (enum [finType of 'I_n * 'I_n])) [N HN]; exists N => i j; apply: (HN (i, j)); rewrite mem_enum.
exists N; last by exists d.
apply: (@md_local _ _ (fun t => (\det (f t))^-1 *: \adj (f t)) _ _ _ d) => // [t td|i j].
  by rewrite /invmx Ud.
by apply: (dl_ext (HN i j)) => // t; rewrite [RHS]mxE.
Qed.
(** the derivative of the inverse *)
Lemma md_inv n (f : R -> 'M[R]_n) a M : mx_deriv f a M -> f a \in unitmx -> mx_deriv (fun t => invmx (f t)) a (- (invmx (f a) *m M *m invmx (f a))).
Proof.
move=> D U; have [N DN [d d0 Ud]] := inv_deriv_ex D U.
have E : mx_deriv (fun=> 1%:M) a (M *m invmx (f a) + f a *m N).
  by apply: (@md_local _ _ (fun t => f t *m invmx (f t)) _ _ _ d) => // [t td|]; [rewrite mulmxV ?Ud|apply: md_mul].
have := md_uniq (md_const 1%:M a) E => /esym /eqP; rewrite addrC addr_eq0 => /eqP H.
have -> : - (invmx (f a) *m M *m invmx (f a)) = N by rewrite -mulmxA -mulmxN -H mulKmx.
by [].
Qed.
End Mx.
