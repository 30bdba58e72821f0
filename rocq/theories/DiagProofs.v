(** Lemmas about lists of columns and the spaces they span. *)
From mathcomp Require Import all_ssreflect all_algebra.
From Verif Require Import LinRegModel LinRegProofs DiagModel.
Set Implicit Arguments.
Unset Strict Implicit.
Unset Printing Implicit Defensive.
Import Order.TTheory GRing.Theory Num.Theory.
Local Open Scope ring_scope.

(** the first occurrence of every distinct element, in the original order *)
Definition firsts (T : eqType) (s : seq T) : seq T := rev (undup (rev s)).
Lemma firsts_rcons (T : eqType) (s : seq T) c : firsts (rcons s c) = if c \in s then firsts s else rcons (firsts s) c.
Proof. rewrite /firsts rev_rcons /= mem_rev; case: ifP => // _; by rewrite rev_cons. Qed.
Lemma firsts_uniq (T : eqType) (s : seq T) : uniq (firsts s).
Proof. by rewrite /firsts rev_uniq undup_uniq. Qed.
Lemma firsts_mem (T : eqType) (s : seq T) : firsts s =i s.
Proof. by move=> c; rewrite /firsts mem_rev mem_undup mem_rev. Qed.
Lemma firsts_id (T : eqType) (s : seq T) : uniq s -> firsts s = s.
Proof. by move=> U; rewrite /firsts undup_id ?rev_uniq // revK. Qed.

Lemma del_rcons (A : Type) (s : seq A) a c : (c < size s)%N -> del (rcons s a) c = rcons (del s c) a.
Proof. move=> H; rewrite /del -!cats1 -catA takel_cat ?(ltnW H) // drop_cat; case: ltnP => // H2.
have -> : c.+1 = size s by apply/eqP; rewrite eqn_leq H.
by rewrite subnn drop0 drop_size. Qed.
Lemma size_del (A : Type) (s : seq A) c : (c < size s)%N -> size (del s c) = (size s).-1.
Proof. move=> H; rewrite /del size_cat size_takel ?(ltnW H) // size_drop; by move: H; case: (size s) => // m H /=; rewrite subSS subnKC. Qed.
Lemma foldl_del_rcons (A : Type) (l : seq nat) (s : seq A) a :
  sorted gtn l -> all (fun c => (c < size s)%N) l -> foldl (@del A) (rcons s a) l = rcons (foldl (@del A) s l) a.
Proof.
elim: l s => [|c l IH] s //= P /andP[cs al]; rewrite del_rcons // IH //; first by exact: path_sorted P.
rewrite size_del //; have := order_path_min (T:=nat) (leT:=gtn) (fun _ _ _ a b => ltn_trans b a) P.
by apply: sub_all => d /= dc; case: (size s) cs => // m cm; apply: leq_trans dc _.
Qed.
Lemma foldl_del (A : Type) (l : seq nat) (s : seq A) :
  sorted gtn l -> all (fun c => (c < size s)%N) l -> foldl (@del A) s l = np_delete s l.
Proof.
have np_rcons : forall (s : seq A) a om, np_delete (rcons s a) om = if size s \in om then np_delete s om else rcons (np_delete s om) a.
{ move=> s0 a om; rewrite /np_delete size_rcons -addn1 iotaD map_cat -cats1 mask_cat ?size_map ?size_iota //= add0n.
  by case: (size s0 \in om); rewrite /= ?cats0 ?cats1. }
have np_ext : forall (s : seq A) om om', (forall i, (i < size s)%N -> (i \in om) = (i \in om')) -> np_delete s om = np_delete s om'.
{ move=> s0 o o' H; rewrite /np_delete; congr (mask _ _); apply/eq_in_map => i; rewrite mem_iota => /andP[_ Hi] /=; by rewrite H. }
elim/last_ind: s l => [|s a IH] l P al; first by case: l P al => // c l _ /=.
rewrite np_rcons; case: l P al => [|c l] P al /=.
- by rewrite -(IH [::]).
- move: al; rewrite /= size_rcons => /andP[]; rewrite ltnS leq_eqVlt => /orP[/eqP cs|cs] al.
  + have -> : del (rcons s a) c = s by rewrite /del -cats1 cs take_size_cat // drop_oversize ?size_cat ?addn1 // cats0.
    have lo := order_path_min (T:=nat) (leT:=gtn) (fun _ _ _ a b => ltn_trans b a) P.
    rewrite cs inE eqxx /= IH.
    * apply: np_ext => i Hi; rewrite inE; by case: (i =P _) Hi => [->|//]; rewrite ltnn.
    * exact: path_sorted P.
    * by rewrite -cs.
  + have lo := order_path_min (T:=nat) (leT:=gtn) (fun _ _ _ a b => ltn_trans b a) P.
    have al' : all (fun d => (d < size s)%N) (c :: l) by rewrite /= cs /=; apply: sub_all lo => d /= dc; apply: ltn_trans dc cs.
    have N : (size s \in c :: l) = false.
    { apply/negP => H; by have := allP al' _ H; rewrite ltnn. }
    by rewrite N -[LHS]/(foldl (@del A) (rcons s a) (c :: l)) foldl_del_rcons // IH.
Qed.
Lemma np_deleteE (A : Type) (s : seq A) om x0 : np_delete s om = [seq nth x0 s i | i <- iota 0 (size s) & i \notin om].
Proof.
rewrite /np_delete -[s in mask _ s](mkseq_nth x0) /mkseq -map_mask; congr map.
by rewrite filter_mask.
Qed.
Lemma drop_colsE (A : Type) (s : seq A) om : all (fun c => (c < size s)%N) om -> drop_cols s om = np_delete s om.
Proof.
move=> H; rewrite /drop_cols foldl_del.
- rewrite /np_delete; congr (mask _ _); apply: eq_map => i; by rewrite mem_rev mem_sort mem_undup.
- rewrite rev_sorted; have := sort_sorted leq_total (undup om); rewrite ltn_sorted_uniq_leq sort_uniq undup_uniq /=; exact.
- by rewrite all_rev all_sort; apply/allP => c; rewrite mem_undup => /(allP H).
Qed.

Section Cols.
Variables (R : realFieldType) (n : nat).
Implicit Types (z : seq 'cV[R]_n) (c : 'cV[R]_n).
Lemma same_colE (a b : 'cV[R]_n) : same_col a b = (a == b).
Proof.
rewrite /same_col psumr_eq0 => [|i _]; last exact: normr_ge0.
apply/allP/eqP => [H|-> i _]; last by rewrite subrr normr0 eqxx.
by apply/colP => i; apply/eqP; rewrite -subr_eq0 -normr_eq0; apply: H; rewrite mem_index_enum.
Qed.
Lemma mem_omit z i : (i < size z)%N -> (i \in omit z) = (nth 0 z i \in take i z).
Proof.
move=> Hi; apply/flattenP/idP.
- case=> l /mapP[j]; rewrite mem_iota => /andP[_ Hj] ->; rewrite mem_filter same_colE => /andP[/andP[ji /eqP E] _].
  by rewrite -E -(nth_take 0 ji) mem_nth // size_takel // ltnW.
- move/(nthP 0) => [j]; rewrite size_takel ?(ltnW Hi) // => ji E.
  exists (dup_of z j); first by apply/mapP; exists j => //; rewrite mem_iota /= add0n; apply: ltn_trans ji Hi.
  by rewrite mem_filter ji same_colE mem_iota /= add0n Hi andbT -E nth_take.
Qed.
Lemma np_delete_gen z (p : pred 'cV[R]_n) om : (forall i, (i < size z)%N -> (i \in om) = (nth 0 z i \in take i z) || p (nth 0 z i)) ->
  np_delete z om = [seq c <- firsts z | ~~ p c].
Proof.
rewrite (np_deleteE _ _ 0); elim/last_ind: z => [|z c IH] H //.
rewrite size_rcons -[(size z).+1]addn1 iotaD filter_cat map_cat /= add0n firsts_rcons.
have -> : [seq nth 0 (rcons z c) i | i <- iota 0 (size z) & i \notin om] = [seq x <- firsts z | ~~ p x].
{ rewrite -IH => [|i Hi].
  - apply/eq_in_map => i; rewrite mem_filter mem_iota /= add0n => /andP[_ Hi]; by rewrite nth_rcons Hi.
  - rewrite H ?size_rcons ?ltnS ?(ltnW Hi) // nth_rcons Hi -cats1 takel_cat // ltnW //. }
have := H (size z); rewrite size_rcons ltnSn => /(_ isT) ->.
rewrite nth_rcons ltnn eqxx -cats1 take_size_cat //.
case: (c \in z) => /=; first by rewrite cats0.
rewrite filter_rcons; case: (p c) => /=; first by rewrite cats0.
by rewrite nth_cat ltnn subnn /= cats1.
Qed.
Lemma dedupE z : dedup z = firsts z.
Proof.
rewrite /dedup drop_colsE.
- rewrite (@np_delete_gen z pred0) => [|i Hi]; first by rewrite filter_predT.
  by rewrite orbF mem_omit.
- apply/allP => i /flattenP[l /mapP[j _ ->]]; by rewrite mem_filter mem_iota => /andP[_ /andP[]].
Qed.
Lemma white_del z : np_delete z (white_omit z) = [seq c <- firsts z | ~~ const_col c].
Proof.
apply: np_delete_gen => i Hi; rewrite -mem_omit //; apply/flattenP/orP.
- case=> l /mapP[j Hj ->]; rewrite mem_cat => /orP[].
  + by case C: (const_col _); rewrite ?inE // => /eqP ->; right.
  + by move=> H; left; apply/flattenP; exists (dup_of z j) => //; apply/mapP; exists j.
- case=> [/flattenP[l /mapP[j Hj ->]] H|C].
  + exists ((if const_col (nth 0 z j) then [:: j] else [::]) ++ dup_of z j); first by apply/mapP; exists j.
    by rewrite mem_cat H orbT.
  + exists ((if const_col (nth 0 z i) then [:: i] else [::]) ++ dup_of z i).
    * by apply/mapP; exists i => //; rewrite mem_iota.
    * by rewrite C mem_cat inE eqxx.
Qed.

(** the linear combinations of the columns *)
Definition inspan z c : Prop := exists a : 'cV[R]_(size z), c = of_cols z *m a.
Lemma of_colsE z (a : 'cV[R]_(size z)) : of_cols z *m a = \sum_(i < size z) a i 0 *: nth 0 z i.
Proof. by apply/colP => r; rewrite mxE summxE; apply: eq_bigr => i _; rewrite !mxE mulrC. Qed.
Lemma span0 z : inspan z 0.
Proof. by exists 0; rewrite mulmx0. Qed.
Lemma spanD z c d : inspan z c -> inspan z d -> inspan z (c + d).
Proof. by move=> [a ->] [b ->]; exists (a + b); rewrite mulmxDr. Qed.
Lemma spanZ z c k : inspan z c -> inspan z (k *: c).
Proof. by move=> [a ->]; exists (k *: a); rewrite scalemxAr. Qed.
Lemma span_sum z (I : finType) (F : I -> 'cV[R]_n) : (forall i, inspan z (F i)) -> inspan z (\sum_i F i).
Proof. move=> H; apply: (big_ind (inspan z)) => //; [exact: span0|exact: spanD]. Qed.
Lemma span_mem z c : c \in z -> inspan z c.
Proof.
move/(nthP 0) => [i Hi <-]; exists (delta_mx (Ordinal Hi) 0); rewrite of_colsE (bigD1 (Ordinal Hi)) //= big1 => [|j Hj].
- by rewrite !mxE !eqxx scale1r addr0.
- by rewrite !mxE (negbTE Hj) scale0r.
Qed.
Lemma span_trans z z' c : (forall d, d \in z -> inspan z' d) -> inspan z c -> inspan z' c.
Proof. move=> H [a ->]; rewrite of_colsE; apply: span_sum => i; apply: spanZ; apply: H; exact: mem_nth. Qed.
Lemma span_ext z z' : z =i z' -> forall c, inspan z c -> inspan z' c.
Proof. move=> E c; apply: span_trans => d; rewrite E; exact: span_mem. Qed.
Lemma span_factor z z' : (forall d, d \in z -> inspan z' d) -> exists A : 'M[R]_(size z', size z), of_cols z = of_cols z' *m A.
Proof.
move=> H; have H' (i : 'I_(size z)) : exists a : 'cV[R]_(size z'), nth 0 z i = of_cols z' *m a by apply: H; exact: mem_nth.
have [f Hf] : exists f : 'I_(size z) -> 'cV[R]_(size z'), forall i : 'I_(size z), nth 0 z i = of_cols z' *m f i by apply: (fin_all_exists H').
exists (\matrix_(i, j) f j i 0); apply/matrixP => r j; rewrite !mxE Hf !mxE; by apply: eq_bigr => i _; rewrite !mxE.
Qed.
Lemma gram_rank n' k (x : 'M[R]_(n', k)) : x^T *m x \in unitmx -> \rank x = k.
Proof.
move=> U; apply/eqP; rewrite eqn_leq rank_leq_col /=.
by apply: leq_trans (mxrankM_maxr x^T x); rewrite mxrank_unit.
Qed.
Lemma span_size z z' : (of_cols z)^T *m of_cols z \in unitmx -> (forall d, d \in z -> inspan z' d) -> (size z <= size z')%N.
Proof.
move=> U /span_factor[A E]; rewrite -[size z](gram_rank U) E; apply: leq_trans (mxrankM_maxl _ _) _; exact: rank_leq_col.
Qed.
(** projections on the same space agree *)
Lemma proj_unique z z' (g : 'cV[R]_n) b b' :
  (forall d, d \in z -> inspan z' d) -> (forall d, d \in z' -> inspan z d) ->
  (of_cols z)^T *m (g - of_cols z *m b) = 0 -> (of_cols z')^T *m (g - of_cols z' *m b') = 0 ->
  of_cols z *m b = of_cols z' *m b'.
Proof.
move=> /span_factor[A E] /span_factor[B F] o o'; apply/eqP; rewrite -subr_eq0 -utu_eq0 utuE.
set d := _ - _.
have dE : d = of_cols z' *m (A *m b - b') by rewrite /d mulmxBr mulmxA -E.
have dE' : d = of_cols z *m (b - B *m b') by rewrite /d mulmxBr mulmxA -F.
have -> : d^T *m d = d^T *m (g - of_cols z' *m b') - d^T *m (g - of_cols z *m b).
{ rewrite -mulmxBr; congr (_ *m _); by rewrite opprB [RHS]addrC addrA subrK. }
rewrite {1}dE dE' !trmx_mul -!mulmxA o o' !mulmx0 subrr mxE eqxx. by [].
Qed.
End Cols.
