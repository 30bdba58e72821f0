(** C96: endogenous regimes: which labels reach the regression *)
From mathcomp Require Import all_ssreflect all_algebra.
From Verif Require Import SkaterModel SkaterProofs SkaterProofs2 SkaterTheorems SkaterTheorems2 OptkModel OptkSpec OptkTheorems EndModel.
Set Implicit Arguments.
Unset Strict Implicit.
Unset Printing Implicit Defensive.
Import Order.TTheory GRing.Theory Num.Theory.
Local Open Scope ring_scope.

(* ---------- lists ---------- *)
Lemma count_sum (l : seq nat) : (\sum_(x <- undup l) count_mem x l)%N = size l.
Proof.
rewrite -(sum1_size l); under eq_bigr => x _ do rewrite -sum1_count big_mkcond.
rewrite exchange_big big_seq_cond [RHS]big_seq_cond; apply: eq_bigr => y; rewrite andbT => yl.
have yu : y \in undup l by rewrite mem_undup.
rewrite (big_rem y yu) /= eqxx big_seq_cond big1 ?addn0 // => x; rewrite andbT mem_rem_uniq ?undup_uniq // inE => /andP [/negbTE h _].
by rewrite eq_sym h.
Qed.
Lemma count_big q (l : seq nat) : at_least q l -> (q * size (undup l) <= size l)%N.
Proof.
move=> h; rewrite -(count_sum l); have : forall u, {subset u <= l} -> (q * size u <= \sum_(x <- u) count_mem x l)%N; last first.
  by apply=> x; rewrite mem_undup.
elim=> [|a u IH] s; first by rewrite muln0.
rewrite big_cons /= mulnS; apply: leq_add; first by apply: h; apply: s; rewrite mem_head.
by apply: IH => x xu; apply: s; rewrite inE xu orbT.
Qed.
Lemma labels_count n labs E m : labelling n labs E m -> size (undup labs) = m.
Proof.
case=> _ h _; rewrite -(size_iota 0 m); apply/perm_size/uniq_perm; rewrite ?undup_uniq ?iota_uniq // => l.
by rewrite mem_undup h mem_iota.
Qed.

Section T.
Variables (R : rcfType) (n : nat) (ssr : seq nat -> option R).
Local Notation endog := (endog n ssr).
Implicit Types (E : forest_t) (tr : seq (seq nat * edge * R)).

(* ---------- specification ---------- *)
(** the labels are the clusters of the forest left by cutting the m given cuts one at a time from E, each legal for the quorum *)
Definition regimes_of (q : nat) E tr (labs : seq nat) : Prop :=
  exists E', [/\ history n q (n_subtrees n E) E tr E', labelling n labs E' (n_subtrees n E + size tr) & at_least q labs].
(** the scores of the cuts, and np.inf for a cut that was not found *)
Definition ssr_list tr (stuck : bool) : seq (option R) := [seq Some p.2 | p <- tr] ++ (if stuck then [:: None] else [::]).

(* ---------- the search ---------- *)
Lemma fit_all k q E labs msf tr w : (0 < k)%N -> forest E -> within n E -> fit n ssr k q false E = Fitted labs msf tr w ->
  [/\ history n q (n_subtrees n E) E tr msf, legal n q msf &
  if w then labs = None /\ (n_subtrees n msf < asked n k false E)%N
  else labs = Some (labels n msf) /\ n_subtrees n msf = maxn (asked n k false E) (n_subtrees n E)].
Proof.
move=> k0 FE Wn; rewrite /fit; case: ifP => // /negbT Hn; case: ifP => // /negbT Hi; rewrite -/(asked n k false E).
have L := start_legal false k0 Hn Hi.
have := @loop_ok _ _ ssr (asked n k false E).+1 (asked n k false E) q E None None [::] FE Wn L.
have -> : (asked n k false E < n_subtrees n E + (asked n k false E).+1)%N by rewrite addnS ltnS leq_addl.
move=> /(_ isT); case: fit_loop => // labs' msf' tr' w' [tr'' -> [H1 H2 H3 HL H4]] [e1 e2 e3 e4]; rewrite e4 in H4; subst labs' msf'.
rewrite -e3; split=> //; case: (w) H4 => //; by case=> -> [].
Qed.
Lemma history_split q m E tr1 tr2 E' : history n q m E (tr1 ++ tr2) E' ->
  exists F, history n q m E tr1 F /\ history n q (m + size tr1) F tr2 E'.
Proof.
elim: tr1 m E => [|[[l e] s] tr IH] m E /=; first by exists E; rewrite addn0.
by case=> a b c /IH [F [h1 h2]]; exists F; split=> //; rewrite addnS -addSn.
Qed.
Lemma history_last q m E tr l e s E' : history n q m E (rcons tr (l, e, s)) E' -> labelling n l E' (m + size tr).+1 /\ at_least q l.
Proof.
elim: tr m E => [|[[l' e'] s'] tr IH] m E /=; first by rewrite addn0 => -[_ h1 h2 ->].
by case=> _ _ _ /IH; rewrite addnS addSn.
Qed.
Lemma greedy_split q E tr1 tr2 : greedy n ssr q E (tr1 ++ tr2) -> greedy n ssr q E tr1.
Proof. by elim: tr1 E => [|[[l e] s] tr IH] E //= [a b /IH]. Qed.
Lemma greedy_last q m E tr l e s E' : history n q m E (rcons tr (l, e, s)) E' -> greedy n ssr q E (rcons tr (l, e, s)) -> s = total n ssr E'.
Proof.
elim: tr m E => [|[[l' e'] s'] tr IH] m E /=; first by move=> [_ _ _ ->] [-> _ _].
by move=> [_ _ _ h] [_ _ g]; apply: IH h g.
Qed.

(* ---------- the choice ---------- *)
Lemma scoresE tr w : scores (py_trace tr w) = ssr_list tr w.
Proof. by rewrite /scores /py_trace /ssr_list /= map_cat -map_comp; case: w. Qed.
Lemma pass_all (l : seq R) : pass [seq Some x | x <- l] = l.
Proof. by elim: l => //= x l ->. Qed.
Lemma loop_le (l : seq (option R)) w f i b : (i <= size l - w)%N -> (optk_loop_inf l w f i b <= size l - w)%N.
Proof. by elim: f i b => //= f IH i b h; case: ifP => // /andP [_ h']; apply: IH. Qed.
Lemma window_le N : (optk_window None N <= N)%N.
Proof. by rewrite /optk_window; case: ifP => // _; rewrite leq_div. Qed.
Lemma window_ge N : (0 < N)%N -> (minn 2 N <= optk_window None N)%N.
Proof. by move=> N0; rewrite /optk_window; case: ltnP => h; rewrite ?geq_minr // geq_min h. Qed.
Lemma choice_range (l : seq (option R)) r : optim_k_inf l = Some r -> (minn 2 (size l) <= r <= size l)%N.
Proof.
rewrite /optim_k_inf; case: eqP => // /eqP; rewrite -lt0n => N0 /Some_inj <-; apply/andP; split.
  by apply: leq_trans (window_ge N0) (leq_addl _ _).
have := window_le (size l); set w := optk_window _ _ => wl; rewrite -[X in (_ <= X)%N](subnK wl) leq_add2r; exact: loop_le.
Qed.

Lemma choice_finite (l : seq R) : optim_k_inf [seq Some x | x <- l] = optim_k l None.
Proof.
rewrite /optim_k_inf /optim_k size_map; set w := optk_window _ _; case: eqP => // /eqP N0; rewrite -lt0n in N0.
have -> : (w == 1%N) && (w < size l)%N = false.
  apply/negbTE; rewrite negb_and -leqNgt; case: eqP => //= w1; rewrite w1; have := window_ge N0; rewrite -/w w1.
  by rewrite /minn; case: ltnP.
clear N0; congr (Some (_ + _)%N); move: (size l - w)%N.+1 0%N true => f; elim: f => [//|f IH] i b /=; rewrite size_map pass_all.
case: ifP => // /andP [_ h]; rewrite IH; congr optk_loop.
by have -> : (i + w < size l)%N by rewrite addnC -ltn_subRL.
Qed.

(* ---------- the automatic number of regimes ---------- *)
Definition searched (q : nat) : nat := (7 * n) %/ (10 * q).

Lemma start_run k K labs (sc : option R) S warn c : start n k K labs sc S warn = Run c ->
  exists l, [/\ labs = Some l, size l = n, (2 <= size (undup l))%N, ((K + 1) * size (undup l) <= n)%N & c = Call l true true (err_flag k) sc S warn].
Proof.
rewrite /start; case: labs => // l; case: eqP => // sl; case: ltnP => // h2; case: ltnP => // h3 [<-].
by exists l; split.
Qed.

(** The automatic choice, when it returns: the search looked for [searched q] regimes (one more per island); the regimes are those left after r-1 cuts of that
    search, where r is the number chosen from the scores, at least 2 and at most the number of scores; the score is that of the same cut. *)
Theorem C96_auto : forall k cols consts quorum trace cm ca es E c, forest E -> within n E ->
  endog k cols consts None quorum trace cm ca es E = Run c ->
  let q := quorum_of k cols consts quorum in
  exists tr stuck r, [/\ a_SSR c = ssr_list tr stuck, optim_k_inf (a_SSR c) = Some r, (2 <= r <= size (a_SSR c))%N,
    regimes_of q E (take r.-1 tr) (c_regimes c) & a_score c = nth None (a_SSR c) r.-2] /\
    [/\ (r.-1 <= size tr)%N, (n_subtrees n E + size (a_SSR c) <= asked n (searched q) false E)%N,
      stuck = false -> (n_subtrees n E + size tr)%N = asked n (searched q) false E & n_subtrees n E = 1%N -> greedy n ssr q E tr].
Proof.
move=> k cols consts quorum trace cm ca es E c FE Wn; rewrite /endog; set q := quorum_of _ _ _ _ => /=.
case: eqP => // /eqP q0; case: ltnP => // m2.
case EF : fit => [|labs msf tr w] //; have m0 : (0 < searched q)%N by apply: leq_trans m2.
have [H Lg Hw] := fit_all m0 FE Wn EF; rewrite scoresE.
case EO : optim_k_inf => [r|] //; have /andP [r1 r2] := choice_range EO.
have nS := C39_cuts FE Wn erefl H.
have sz : size (py_trace tr w) = (size (ssr_list tr w)).+1 by rewrite /ssr_list /py_trace /= !size_cat !size_map; case: (w).
case: ltnP => // rl /start_run [l [El sl u2 _ ->]] /=.
have sS : size (ssr_list tr w) = (size tr + w)%N by rewrite /ssr_list size_cat size_map; case: (w).
case: r EO r1 r2 rl El => [|[|r]] EO r1 r2 rl El.
- by move: El sl u2; rewrite /py_trace /= => -[<-] /= _.
- by move: El sl u2; rewrite /py_trace /= => -[<-] /= _.
have rt : (r < size tr)%N by move: r2; rewrite sS; case: (w) => /=; rewrite ?addn1 ?addn0 // => /ltnW.
have El' : l = (nth ([::], (0%N, 0%N), 0) tr r).1.1.
  by move: El; rewrite /py_trace /= nth_cat size_map rt (nth_map ([::], (0%N, 0%N), 0)) // => -[<-].
have Ht : take r.+1 tr = rcons (take r tr) (nth ([::], (0%N, 0%N), 0) tr r) by rewrite -take_nth.
exists tr, w, r.+2; split; split=> //.
- have [F [H1 H2]] : exists F, history n q (n_subtrees n E) E (take r.+1 tr) F /\ history n q (n_subtrees n E + size (take r.+1 tr)) F (drop r.+1 tr) msf.
    by apply: history_split; rewrite cat_take_drop.
  exists F; have H1' := H1; rewrite Ht in H1'; case: (nth _ _ _) H1' El' => -[l' e'] s' H1' /= El'; subst l'.
  have [L1 L2] := history_last H1'; split=> //.
  by move: L1; rewrite !size_take rt -addnS; move: rt; rewrite leq_eqVlt => /orP [/eqP -> | ->] //; rewrite ltnn.
- by rewrite /py_trace /ssr_list /= !nth_cat !size_map !rt !(nth_map ([::], (0%N, 0%N), 0)).
- rewrite sS; case: (w) Hw => -[_]; rewrite nS ?addn1 ?addn0; first by rewrite -addnS.
  move=> ->; rewrite geq_max leqnn /= /asked; case: ifP => [_|]; first by rewrite leq_addl.
  by rewrite andbT ltnNge => /negbFE h; apply: leq_trans h m0.
- move=> w0; move: Hw; rewrite w0 nS => -[_ ->]; apply/maxn_idPl; rewrite /asked; case: ifP => [_|]; first by rewrite leq_addl.
  by rewrite andbT ltnNge => /negbFE h; apply: leq_trans h m0.
- by move=> E1; apply: (C39_greedy m0 FE Wn E1 EF).
Qed.

(** when every cut was found, the number is the one optim_k (C89) chooses from the scores *)
Theorem C96_choice : forall tr r, optim_k_inf (ssr_list tr false) = Some r -> optim_k [seq p.2 | p <- tr] None = Some r.
Proof. by move=> tr r; rewrite /ssr_list cats0 -choice_finite -map_comp. Qed.

Lemma regimes_number q E tr labs : regimes_of q E tr labs -> size (undup labs) = (n_subtrees n E + size tr)%N.
Proof. by case=> E' [_ /labels_count -> _]. Qed.

(** On a connected map the largest number of regimes searched for is never chosen: with room for m regimes at most m-1 are used *)
Theorem C96_never_all : forall k cols consts quorum trace cm ca es E c, forest E -> within n E -> n_subtrees n E = 1%N ->
  endog k cols consts None quorum trace cm ca es E = Run c ->
  (2 <= size (undup (c_regimes c)) < searched (quorum_of k cols consts quorum))%N.
Proof.
move=> k cols consts quorum trace cm ca es E c FE Wn E1 H; have [tr [w [r [[_ _ /andP [r2 rS] G _] [rt a _ _]]]]] := C96_auto FE Wn H.
rewrite (regimes_number G) E1 size_take.
have -> : (if (r.-1 < size tr)%N then r.-1 else size tr) = r.-1.
  by move: rt; rewrite leq_eqVlt => /orP [/eqP -> | -> //]; rewrite ltnn.
rewrite add1n prednK ?(ltnW r2) // r2 /=; move: a; rewrite E1 /asked E1 /= add1n => a; exact: leq_ltn_trans rS a.
Qed.

(** ... so when 0.7 n / quorum allows two regimes but not three (and the map is connected) the automatic choice always ends in an exception *)
Theorem C96_two_refuted : forall k cols consts quorum trace cm ca es E, forest E -> within n E -> n_subtrees n E = 1%N ->
  searched (quorum_of k cols consts quorum) = 2%N -> exists e, endog k cols consts None quorum trace cm ca es E = Exn e.
Proof.
move=> k cols consts quorum trace cm ca es E FE Wn E1 m2; case H : (endog _ _ _ _ _ _ _ _ _ _) => [e|c]; first by exists e.
by have /andP [a] := C96_never_all FE Wn E1 H; rewrite m2 ltnNge a.
Qed.

(** too little room for two regimes: ValueError before any search *)
Theorem C96_no_room : forall k cols consts quorum trace cm ca es E, (0 < quorum_of k cols consts quorum)%N ->
  (7 * n < 20 * quorum_of k cols consts quorum)%N -> endog k cols consts None quorum trace cm ca es E = Exn NotCompatible.
Proof.
move=> k cols consts quorum trace cm ca es E q0 h; rewrite /endog eqn0Ngt q0 /= -/(searched _).
have -> : (searched (quorum_of k cols consts quorum) < 2)%N => //.
by rewrite /searched ltn_divLR ?muln_gt0 // mulnA.
Qed.

(** n_clusters=0 is read as n_clusters=None *)
Theorem C96_zero_is_none : forall k cols consts quorum trace cm ca es E,
  endog k cols consts (Some 0%N) quorum trace cm ca es E = endog k cols consts None quorum trace cm ca es E.
Proof. by []. Qed.

(** n_clusters given: if the class returns, the search was complete, and the regimes are exactly those it found: n_clusters of them, plus one per island if
    the map is not connected *)
Theorem C96_given : forall k cols consts m quorum trace cm ca es E c, (0 < m)%N -> forest E -> within n E ->
  endog k cols consts (Some m) quorum trace cm ca es E = Run c ->
  let q := quorum_of k cols consts quorum in
  exists tr, [/\ regimes_of q E tr (c_regimes c), a_SSR c = ssr_list tr false, size (undup (c_regimes c)) = maxn (asked n m false E) (n_subtrees n E),
    a_score c = last None (a_SSR c) & trace /\ (n_subtrees n E = 1%N -> greedy n ssr q E tr)].
Proof.
move=> k cols consts m quorum trace cm ca es E c m0 FE Wn; rewrite /endog eqn0Ngt m0 /=; set q := quorum_of _ _ _ _.
case EF : fit => [|labs msf tr w] //; have [H Lg Hw] := fit_all m0 FE Wn EF; rewrite scoresE.
case: trace => // /start_run [l [El sl u2 _ ->]] /=; case: w Hw EF => [[e1 _]|[e1 e2]] EF; first by rewrite e1 in El.
exists tr; have nS := C39_cuts FE Wn erefl H.
have L := labelling_ok n msf; rewrite El in e1; case: e1 => e1; subst l; split=> //.
- exists msf; split=> //; first by rewrite -nS.
  by apply/at_least_ok.
- by rewrite (labels_count L).
- by rewrite /py_trace /ssr_list !cats0 /=; case: (tr) => /= [ | p t] //; elim: t p => /=.
- by split=> // E1; apply: (C39_greedy m0 FE Wn E1 EF).
Qed.

(** on a connected map: n_clusters regimes *)
Corollary C96_given_number : forall k cols consts m quorum trace cm ca es E c, (0 < m)%N -> forest E -> within n E -> n_subtrees n E = 1%N ->
  endog k cols consts (Some m) quorum trace cm ca es E = Run c -> size (undup (c_regimes c)) = m.
Proof.
move=> k cols consts m quorum trace cm ca es E c m0 FE Wn E1 H; have [tr [_ _ -> _ _]] := C96_given m0 FE Wn H.
by rewrite /asked E1 /=; apply/maxn_idPl.
Qed.

(** trace=False with n_clusters always ends in an exception *)
Theorem C96_trace_refuted : forall k cols consts m quorum cm ca es E, (0 < m)%N ->
  exists e, endog k cols consts (Some m) quorum false cm ca es E = Exn e.
Proof. by move=> k cols consts m quorum cm ca es E m0; rewrite /endog eqn0Ngt m0 /=; case: fit => *; eexists. Qed.

(** the regimes regression is always called with constant_regi='many', cols2regi='all' and the class's own regime_err_sep: the arguments change the warning only *)
Theorem C96_arguments_ignored : forall k cols consts m quorum trace cm ca es E c, endog k cols consts m quorum trace cm ca es E = Run c ->
  [/\ c_const_many c, c_cols_all c, c_err_sep c = (if k is EGMLag then false else true), a_warn c = ~~ [&& cm, ca & es == (if k is EGMLag then false else true)] &
    forall cm' ca' es', exists2 c', endog k cols consts m quorum trace cm' ca' es' E = Run c' &
      [/\ c_regimes c' = c_regimes c, a_score c' = a_score c, a_SSR c' = a_SSR c & c_err_sep c' = c_err_sep c]].
Proof.
move=> k cols consts m quorum trace cm ca es E c; rewrite /endog.
have st K labs sc S w : start n k K labs sc S w = Run c -> [/\ c_const_many c, c_cols_all c, c_err_sep c = err_flag k, a_warn c = w &
    forall w', exists2 c', start n k K labs sc S w' = Run c' & [/\ c_regimes c' = c_regimes c, a_score c' = a_score c, a_SSR c' = a_SSR c & c_err_sep c' = c_err_sep c]].
  by rewrite /start; case: labs => // l; do 3!case: ifP => // _; move=> [<-]; split=> // w'; eexists.
have wE : regi_warn k cm ca es = ~~ [&& cm, ca & es == (if k is EGMLag then false else true)] by rewrite /regi_warn !negb_and orbA.
set q := quorum_of _ _ _ _; set K := (cols - consts)%N.
have fin labs sc S : start n k K labs sc S (regi_warn k cm ca es) = Run c ->
    [/\ c_const_many c, c_cols_all c, c_err_sep c = (if k is EGMLag then false else true), a_warn c = ~~ [&& cm, ca & es == (if k is EGMLag then false else true)] &
    forall cm' ca' es', exists2 c', start n k K labs sc S (regi_warn k cm' ca' es') = Run c' &
      [/\ c_regimes c' = c_regimes c, a_score c' = a_score c, a_SSR c' = a_SSR c & c_err_sep c' = c_err_sep c]].
  by move=> /st [h1 h2 h3 -> h5]; split=> // cm' ca' es'; apply: h5.
have auto : forall m', m' = None \/ m' = Some 0%N -> endog k cols consts m' quorum trace cm ca es E = Run c ->
  [/\ c_const_many c, c_cols_all c, c_err_sep c = (if k is EGMLag then false else true), a_warn c = ~~ [&& cm, ca & es == (if k is EGMLag then false else true)] &
    forall cm' ca' es', exists2 c', endog k cols consts m' quorum trace cm' ca' es' E = Run c' &
      [/\ c_regimes c' = c_regimes c, a_score c' = a_score c, a_SSR c' = a_SSR c & c_err_sep c' = c_err_sep c]].
  move=> m' [-> | ->]; rewrite /endog -/q -/K /=;
    (case: ifP => // _; case: ifP => // _; case: fit => // labs msf tr w; case: optim_k_inf => // r; case: ifP => // _; exact: fin).
case: m => [m'|]; last exact: (auto None (or_introl erefl)).
case E0 : (m' == 0%N); first exact: (auto (Some 0%N) (or_intror erefl)).
by case: fit => // labs msf tr w; case: trace auto => // _; exact: fin.
Qed.

(** the default quorum leaves enough observations for the regression in every regime: no exception about too few of them *)
Theorem C96_enough : forall k cols consts m quorum trace cm ca es E, forest E -> within n E ->
  (cols - consts < quorum_of k cols consts quorum)%N ->
  endog k cols consts m quorum trace cm ca es E <> Exn FewObs.
Proof.
move=> k cols consts m quorum trace cm ca es E FE Wn; rewrite /endog; set q := quorum_of _ _ _ _; set K := (cols - consts)%N => Kq.
have st labs sc S w : (forall l, labs = Some l -> at_least q l) -> start n k K labs sc S w <> Exn FewObs.
  rewrite /start; case: labs => // l /(_ l erefl) /count_big h; case: eqP => // sl; case: ifP => // _; case: ltnP => // h'.
  by move: h; rewrite sl leqNgt (leq_trans h') // leq_mul2r addn1 Kq orbT.
have hl m' tr E' : history n q m' E tr E' -> forall p, p \in tr -> at_least q p.1.1.
  elim: tr m' E {FE Wn} => [|[[l e] s] tr IH] m' E //= [_ _ a /IH h] p; by rewrite inE => /orP [/eqP -> | /h].
have auto : (if q == 0%N then Exn DivZero else if (searched q < 2)%N then Exn NotCompatible else
    match fit n ssr (searched q) q false E with
    | Raise => Exn Search
    | Fitted _ _ tr warned =>
      match optim_k_inf (scores (py_trace tr warned)) with
      | None => Exn BadChoice
      | Some r => if (r.-1 < size (py_trace tr warned))%N then let e := nth (None, None) (py_trace tr warned) r.-1 in
          start n k K e.1 e.2 (scores (py_trace tr warned)) (regi_warn k cm ca es) else Exn BadIndex
      end
    end) <> Exn FewObs.
  case: ifP => // _; case: ltnP => // m2; case EF : fit => [|labs msf tr w] //; case: optim_k_inf => // r; case: ifP => // rl.
  have [H _ _] := fit_all (leq_trans (isT : (0 < 2)%N) m2) FE Wn EF; apply: st => l El.
  have : nth (None, None) (py_trace tr w) r.-1 \in py_trace tr w by apply: mem_nth.
  move: El; case: (nth _ _ _) => lo so /= -> {lo}; rewrite inE => /orP [/eqP [-> _] | ] //; rewrite mem_cat => /orP [/mapP [p pin [-> _]] | ].
    exact: hl H p pin.
  by case: (w); rewrite // inE => /eqP.
case: m => [m|]; last exact: auto.
case: eqP => [_ | /eqP m0]; first exact: auto.
case EF : fit => [|labs msf tr w] //; case: (trace) => //; apply: st => l El; rewrite El in EF.
rewrite -lt0n in m0; have [_ Lg] := fit_all m0 FE Wn EF; case: (w) => -[e1 _] //; case: e1 => ->.
by apply/at_least_ok.
Qed.

(** with the default quorum that is always so (for GM_Lag as well) *)
Theorem C96_default_quorum : forall k cols consts, (cols - consts < quorum_of k cols consts None)%N /\ (30 <= quorum_of k cols consts None)%N.
Proof.
move=> k cols consts; rewrite /quorum_of; split; last by rewrite leq_maxr.
apply: leq_trans (leq_maxl _ _); case: k; rewrite addn1; (apply: leq_trans (leq_pmulr _ _); last by []); by rewrite ltnS ?leq_subr.
Qed.

(** On a connected map the automatic choice returns exactly when there is room for two regimes, the search ends without an exception, and it made two attempts at
    cutting (the second may have failed).  Otherwise the class raises. *)
Theorem C96_runs_iff : forall k cols consts quorum trace cm ca es E, forest E -> within n E -> n_subtrees n E = 1%N ->
  let q := quorum_of k cols consts quorum in (cols - consts < q)%N ->
  (exists c, endog k cols consts None quorum trace cm ca es E = Run c) <->
  (2 <= searched q)%N /\ exists labs msf tr w, fit n ssr (searched q) q false E = Fitted labs msf tr w /\ (2 <= size tr + w)%N.
Proof.
move=> k cols consts quorum trace cm ca es E FE Wn E1 q Kq; have q0 : (0 < q)%N by apply: leq_ltn_trans Kq.
split.
- case=> c H; have [tr0 [w0 [r0 [[S0 _ /andP [a b] _ _] _]]]] := C96_auto FE Wn H; move: H.
  rewrite /endog -/q eqn0Ngt q0 /= -/(searched q); case: ltnP => // m2; case EF : fit => [|labs msf tr w] //; rewrite scoresE.
  case: optim_k_inf => // r; case: ifP => // _ /start_run [l [_ _ _ _ Ec]]; split=> //; exists labs, msf, tr, w; split=> //.
  by move: (leq_trans a b); rewrite Ec /= /ssr_list size_cat size_map; case: (w).
- case=> m2 [labs [msf [tr [w [EF sz]]]]].
  case H : (endog k cols consts None quorum trace cm ca es E) => [e|c]; last by exists c.
  have m0 : (0 < searched q)%N by apply: leq_trans m2.
  have [Hh _ _] := fit_all m0 FE Wn EF.
  have sS : size (ssr_list tr w) = (size tr + w)%N by rewrite /ssr_list size_cat size_map; case: (w).
  have FO := @C96_enough k cols consts None quorum trace cm ca es E FE Wn Kq.
  move: H FO; rewrite /endog -/q eqn0Ngt q0 /= -/(searched q) ltnNge m2 /= EF scoresE.
  case EO : optim_k_inf => [r|]; last by move: EO; rewrite /optim_k_inf sS; case: eqP sz => // ->.
  have /andP [r1 r2] := choice_range EO; rewrite sS in r1 r2; rewrite (minn_idPl sz) in r1.
  have -> : (r.-1 < size (py_trace tr w))%N.
    by rewrite /py_trace /= size_cat size_map ltnS (leq_trans (leq_pred _)) //; move: r2; case: (w).
  case: r r1 r2 {EO} => [|[|r]] // _ r2.
  have rt : (r < size tr)%N by move: r2; case: (w) => /=; rewrite ?addn1 ?addn0 // => /ltnW.
  rewrite /py_trace /= !nth_cat !size_map !rt !(nth_map ([::], (0%N, 0%N), 0)) //.
  have Ht : take r.+1 tr = rcons (take r tr) (nth ([::], (0%N, 0%N), 0) tr r) by rewrite -take_nth.
  have [F [H1 _]] : exists F, history n q (n_subtrees n E) E (take r.+1 tr) F /\ history n q (n_subtrees n E + size (take r.+1 tr)) F (drop r.+1 tr) msf.
    by apply: history_split; rewrite cat_take_drop.
  rewrite Ht in H1; case: (nth _ _ _) H1 => -[l e'] s' H1 /=; have [L1 _] := history_last H1; have cl := labels_count L1; case: L1 => L1 _ _.
  by rewrite /start L1 eqxx /= cl E1; case: ifP => // _ _ /(_ erefl).
Qed.
End T.

(* ---------- witnesses ---------- *)
(** five observations on a path, one constant column, quorum 1, a fit that is always perfect: a run with the automatic choice *)
Section W.
Variable R : rcfType.
Definition w_ssr (c : seq nat) : option R := Some 0.
Lemma w_forest : forest path5.
Proof.
split=> // e; rewrite !inE => /or4P [] /eqP -> /comps_conn /eqP; by vm_compute.
Qed.
Lemma w_within : within 5 path5. Proof. by []. Qed.
Lemma w_one : n_subtrees 5 path5 = 1%N. Proof. by vm_compute. Qed.
Lemma w_valid E i e : (i < 5)%N -> SkaterTheorems.valid 5 w_ssr E 1 e.
Proof.
by move=> i5; split=> // j j5; have : j \in cluster 5 (without e E) j; [rewrite cluster_mem j5 eqxx | case: (cluster _ _ _)].
Qed.
Example C96_auto_witness : exists c, endog 5 w_ssr EOLS 1 1 None (Some 1%N) true true true true path5 = Run c.
Proof.
have H := @C96_runs_iff R 5 w_ssr EOLS 1 1 (Some 1%N) true true true true path5 w_forest w_within w_one isT; apply: (proj2 H) => {H}.
have sub : subadditive w_ssr by move=> c c1 c2 v1 v2 _ [<-] [<-]; exists 0; rewrite ?addr0.
have := C39_no_raise_partial (ssr := w_ssr) (n := 5) (k := 3) (q := 1) (ig := false) isT isT sub w_forest w_within w_one.
case EF : fit => [|labs msf tr w] // _; split=> //; exists labs, msf, tr, w; split=> //.
have [Hh _ Hw] := fit_all (isT : (0 < 3)%N) w_forest w_within EF; have nS := C39_cuts w_forest w_within w_one Hh.
case: w EF Hw => EF [_ h]; last by move: h; rewrite nS /asked w_one /= addn0 => -[->].
case: tr Hh {nS} EF => [|p tr] Hh EF; last by rewrite addn1.
have [_ _ _ h'] := C39_labels_lost_refuted (isT : (0 < 3)%N) w_forest w_within EF.
by move: Hh => /= Em; case: (h' (0, 1)%N); [rewrite Em | exact: (@w_valid _ 0)].
Qed.
(** ... and with the number given *)
Example C96_given_witness : exists c, endog 5 w_ssr EOLS 1 1 (Some 2%N) (Some 1%N) true true true true path5 = Run c.
Proof.
have sub : subadditive w_ssr by move=> c c1 c2 v1 v2 _ [<-] [<-]; exists 0; rewrite ?addr0.
have := C39_no_raise_partial (ssr := w_ssr) (n := 5) (k := 2) (q := 1) (ig := false) isT isT sub w_forest w_within w_one.
rewrite /endog /=; case EF : fit => [|labs msf tr w] // _.
have [Hh _ Hw] := fit_all (isT : (0 < 2)%N) w_forest w_within EF; have nS := C39_cuts w_forest w_within w_one Hh.
case: w EF Hw => EF [-> h]; last first.
  by rewrite /start size_labels eqxx (labels_count (labelling_ok 5 msf)) h /asked w_one /=; eexists.
have [_ _ _ h'] := C39_labels_lost_refuted (isT : (0 < 2)%N) w_forest w_within EF.
move: h; rewrite nS /asked w_one /=; case: tr Hh nS EF => // Em _ EF _.
by move: Em => /= Em; case: (h' (0, 1)%N); [rewrite Em | exact: (@w_valid _ 0)].
Qed.
End W.
