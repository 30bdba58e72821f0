(** C39: what Skater_reg.fit guarantees *)
From mathcomp Require Import all_ssreflect all_algebra.
From Verif Require Import SkaterModel SkaterProofs SkaterProofs2 SkaterTheorems.
Set Implicit Arguments.
Unset Strict Implicit.
Unset Printing Implicit Defensive.
Import Order.TTheory GRing.Theory Num.Theory.
Local Open Scope ring_scope.

Section T.
Variables (R : realDomainType) (n : nat) (ssr : seq nat -> option R).
Local Notation legal := (legal n).
Local Notation within := (within n).
Local Notation finite := (finite n ssr).
Local Notation total := (total n ssr).
Local Notation valid := (valid n ssr).

(* ---------- specification ---------- *)
(** a labelling of the nodes 0..n-1 by the m clusters of a forest: total, exactly the labels 0..m-1, equal labels = linked in the forest *)
Definition labelling (labs : seq nat) (E : forest_t) (m : nat) : Prop :=
  [/\ size labs = n, forall l, (l \in labs) = (l < m)%N & forall i j, (i < n)%N -> (j < n)%N -> nth 0%N labs i = nth 0%N labs j <-> conn E i j].
(** every label is used at least q times *)
Definition at_least (q : nat) (labs : seq nat) : Prop := forall l, l \in labs -> (q <= count_mem l labs)%N.
(** a history of cuts from forest E with m clusters to forest E': each cut removes one edge, gives one cluster more, and leaves every cluster legal *)
Fixpoint history (q m : nat) (E : forest_t) (tr : seq (seq nat * edge * R)) (E' : forest_t) : Prop :=
  match tr with
  | [::] => E' = E
  | (labs, e, _) :: tr' => [/\ e \in E, labelling labs (without e E) m.+1, at_least q labs & history q m.+1 (without e E) tr' E']
  end.
(** each cut is the best one: the recorded score is the total score of the new clusters, and no other legal cut of that forest has a lower total *)
Fixpoint greedy (q : nat) (E : forest_t) (tr : seq (seq nat * edge * R)) : Prop :=
  match tr with
  | [::] => True
  | (_, e, s) :: tr' => [/\ s = total (without e E), forall e', e' \in E -> valid E q e' -> s <= total (without e' E) & greedy q (without e E) tr']
  end.

(* ---------- proofs ---------- *)
Lemma labelling_ok E : labelling (labels n E) E (n_subtrees n E).
Proof. by split=> [|l|i j Hi Hj]; [rewrite size_labels | rewrite mem_labels | apply: lab_conn]. Qed.
Lemma at_least_ok q E : legal q E <-> at_least q (labels n E).
Proof.
split=> [L l|A i Hi].
  rewrite mem_labels => /lab_onto [i Hi <-]; rewrite count_labels; exact: L.
have := A (lab n E i); rewrite mem_labels lab_lt // count_labels => /(_ isT); exact.
Qed.

Lemma loop_ok fuel k q E ts prev trace : forest E -> within E -> legal q E -> (k < n_subtrees n E + fuel)%N ->
  match fit_loop n ssr fuel k q E (n_subtrees n E) (labels n E) ts prev trace with
  | Raise => True
  | Fitted labs msf tr warned => exists2 tr', tr = trace ++ tr' &
      [/\ history q (n_subtrees n E) E tr' msf, forest msf, within msf, legal q msf
        & if warned then labs = None /\ (n_subtrees n msf < k)%N /\ (forall e, e \in msf -> ~ valid msf q e)
          else labs = Some (labels n msf) /\ n_subtrees n msf = maxn k (n_subtrees n E)]
  end.
Proof.
elim: fuel E ts prev trace => [|fuel IH] E ts prev trace FE Wn L Hf //=.
case: ltnP => Hk; last by exists [::]; rewrite ?cats0 //; split=> //; split=> //; apply/esym/maxn_idPr.
have [r -> Hr] := find_cut_good ssr q ts FE Wn.
case: r Hr => [[b n'] [G ->]|G]; last first.
  exists [::]; rewrite ?cats0 //; split=> //; split=> //; split=> // e He /(sc_valid Wn He) [p]; by rewrite G.
case: ifP => // _; case: G => [He -> -> [p [P1 P2 P3 P4]] _].
have nF := n_sub_without FE Wn He; have Fo := forest_without (b_edge b) FE; have Wi := within_without (b_edge b) Wn.
have LF : legal q (without (b_edge b) E) by case: p P1 {P2 P3 P4} => ns d; apply: sc_legal.
have := IH _ (Some (b_dict b)) (Some (b_score b)) (rcons trace (labels n (without (b_edge b) E), b_edge b, b_score b)) Fo Wi LF.
rewrite nF addSn -addnS => /(_ Hf); case: fit_loop => // labs msf tr w [tr' -> [H1 H2 H3 HL H4]].
exists ((labels n (without (b_edge b) E), b_edge b, b_score b) :: tr'); first by rewrite -cat_rcons.
split=> //.
  split=> //; [rewrite -nF; exact: labelling_ok | exact/at_least_ok].
case: w H4 => // -[-> ->]; split=> //; move: Hk; rewrite -ltnS => Hk.
by rewrite (maxn_idPl _) 1?(maxn_idPl _) // ltnW.
Qed.

Lemma loop_greedy fuel k q E ts prev trace : forest E -> within E -> legal q E -> known n ssr E ts ->
  match fit_loop n ssr fuel k q E (n_subtrees n E) (labels n E) ts prev trace with
  | Raise => True
  | Fitted labs msf tr warned => exists2 tr', tr = trace ++ tr' & greedy q E tr'
  end.
Proof.
elim: fuel E ts prev trace => [|fuel IH] E ts prev trace FE Wn L K //=.
case: ltnP => Hk; last by exists [::]; rewrite ?cats0.
have [r -> Hr] := find_cut_good ssr q ts FE Wn.
case: r Hr => [[b n'] [G ->]|G]; last by exists [::]; rewrite ?cats0.
case: ifP => // _; case: G => [He -> -> [p [P1 P2 P3 P4]] D].
have nF := n_sub_without FE Wn He; have Fo := forest_without (b_edge b) FE; have Wi := within_without (b_edge b) Wn.
have LF : legal q (without (b_edge b) E) by case: p P1 {P2 P3 P4} => ns d; apply: sc_legal.
have := IH _ (Some (b_dict b)) (Some (b_score b)) (rcons trace (labels n (without (b_edge b) E), b_edge b, b_score b)) Fo Wi LF (D K).
rewrite nF; case: fit_loop => // labs msf tr w [tr' -> H].
exists ((labels n (without (b_edge b) E), b_edge b, b_score b) :: tr'); first by rewrite -cat_rcons.
case: p P1 P2 P3 P4 => ns d P1 P2 P3 P4; have [T2 T1] := dscore_total Wn K He P1.
split=> //; first by rewrite P3.
move=> e' He' V; have [[ns' d'] S'] := sc_valid Wn He' V; have [_ T1'] := dscore_total Wn K He' S'.
have := P4 e' _ He' S'; rewrite P2 T1 T1' ler_add2l ler_opp2; by rewrite P3 T2.
Qed.

(** splitting a cluster does not increase the score: true of least squares *)
Definition subadditive : Prop := forall c c1 c2 v1 v2, perm_eq c (c1 ++ c2) -> ssr c1 = Some v1 -> ssr c2 = Some v2 -> exists2 v, ssr c = Some v & v1 + v2 <= v.

Lemma cut_two e E : forest E -> within E -> e \in E -> let F := without e E in
  perm_eq (cluster n E e.1) (cluster n F e.1 ++ cluster n F e.2) /\
  perm_eq (undup (restrict n (labels n F) (labels n E) (lab n E e.1))) [:: lab n F e.1; lab n F e.2].
Proof.
move=> FE Wn He F; have /andP [H1 H2] := allP Wn _ He.
have ce : conn E e.1 e.2 by apply: conn_edge; case: (e) He => a b /= ->.
have N : lab n F e.1 != lab n F e.2.
  by apply/eqP => /(lab_conn F H1 H2); case: FE => _; apply.
have two i : (i < n)%N -> lab n E i = lab n E e.1 <-> (lab n F i = lab n F e.1 \/ lab n F i = lab n F e.2).
  move=> Hi; split.
    move=> /(lab_conn E Hi H1) /(conn_with _ _ He) /comps_conn /=; rewrite /merge_cls -/F.
    case: eqP => [/comps_conn c _|_]; first by right; apply/lab_conn.
    by case: eqP => _ c; left; apply/lab_conn => //; apply/comps_conn.
  case=> /lab_conn C; apply/lab_conn => //; first exact: conn_without (C Hi H1).
  exact: conn_trans (conn_without (C Hi H2)) (conn_sym ce).
split.
  apply: uniq_perm.
  - by apply: filter_uniq; apply: iota_uniq.
  - rewrite cat_uniq !filter_uniq ?iota_uniq //= andbT; apply/hasPn => i; rewrite cluster_mem => /andP [Hi /eqP ei].
    by apply/negP; rewrite inE cluster_mem Hi /= ei eq_sym (negbTE N).
  - move=> i; rewrite mem_cat !cluster_mem; case Hi: (i < n)%N => //=.
    by apply/eqP/orP => [/(two i Hi) [->|->]|H]; rewrite ?eqxx; [left | right | apply/(two i Hi); case: H => /eqP; [left | right]].
apply: uniq_perm; rewrite ?undup_uniq //=; first by rewrite inE andbT.
move=> l; rewrite mem_undup !inE; apply/idP/idP.
  by move=> /restrict_mem [i Hi [/(two i Hi) [->|->] <-]]; rewrite eqxx ?orbT.
case/orP => /eqP ->; apply/restrict_mem; first by exists e.1.
by exists e.2 => //; split=> //; apply/(two _ H2); right.
Qed.

Lemma total_mono e E q p : subadditive -> forest E -> within E -> e \in E -> sc n ssr E q e = Some p -> total (without e E) <= total E.
Proof.
case: p => ns d SA FE Wn He S; have [P1 P2] := cut_two FE Wn He; have [_ Kd _ A] := sc_sum S.
rewrite (total_cut ssr He Wn) (perm_big _ P2) /= !big_cons big_nil addr0 !members_cluster.
have mem l : l \in [:: lab n (without e E) e.1; lab n (without e E) e.2] -> ssr (members n (labels n (without e E)) l) <> None.
  by move=> Hl; apply: A; rewrite Kd (perm_mem P2).
have := mem _ (mem_head _ _); have := mem (lab n (without e E) e.2); rewrite !inE eqxx orbT => /(_ isT); rewrite !members_cluster /phi.
case E2: (ssr (cluster n (without e E) e.2)) => [v2|//] _; case E1: (ssr (cluster n (without e E) e.1)) => [v1|//] _ /=.
have [v -> /= Hv] := SA _ _ _ _ _ P1 E1 E2.
by rewrite -addrA ger_addl addrC subr_le0.
Qed.

Lemma loop_total fuel k q E ts prev trace : subadditive -> forest E -> within E -> legal q E -> known n ssr E ts ->
  (0 < fuel)%N -> (k < n_subtrees n E + fuel)%N ->
  (if prev is Some p then p = total E else True) -> fit_loop n ssr fuel k q E (n_subtrees n E) (labels n E) ts prev trace <> Raise R.
Proof.
move=> SA; elim: fuel E ts prev trace => [|fuel IH] E ts prev trace FE Wn L K // _ Hf Hp /=.
case: ltnP => Hk //.
have [r -> Hr] := find_cut_good ssr q ts FE Wn.
case: r Hr => [[b n'] [G ->]|G] //; case: G => [He -> -> [p [P1 P2 P3 P4]] D].
have nF := n_sub_without FE Wn He; have Fo := forest_without (b_edge b) FE; have Wi := within_without (b_edge b) Wn.
have LF : legal q (without (b_edge b) E) by case: p P1 {P2 P3 P4} => ns d; apply: sc_legal.
have Es : b_score b = total (without (b_edge b) E).
  by case: p P1 P2 P3 P4 => ns d P1 P2 P3 P4; have [T2 T1] := dscore_total Wn K He P1; rewrite P3.
have mono := total_mono SA FE Wn He P1.
have -> : (if prev is Some p then p < b_score b else false) = false.
  by case: prev Hp => // _ ->; rewrite Es; apply/negbTE; rewrite -leNgt.
rewrite -nF; apply: IH => //; [exact: D | | by rewrite nF addSn -addnS].
have := leq_ltn_trans Hk Hf; rewrite -addn1 ltn_add2l; by case: (fuel).
Qed.

(* ---------- the property ---------- *)
Definition asked (n_clusters : nat) (ignore_islands : bool) (E : forest_t) : nat :=
  if (1 < n_subtrees n E)%N && ~~ ignore_islands then (n_clusters + n_subtrees n E)%N else n_clusters.

Lemma start_legal k q (ig : bool) E : (0 < k)%N -> ~~ (n <= k * q)%N -> ~~ ((1 < n_subtrees n E)%N && has (fun l => (count_mem l (labels n E) < q)%N) (undup (labels n E))) -> legal q E.
Proof.
move=> k0 Hn H; apply/at_least_ok => l Hl; move: H; rewrite negb_and => /orP [H1|/hasPn /(_ l)]; last by rewrite mem_undup Hl -leqNgt => /(_ isT).
have n1 : (n_subtrees n E <= 1)%N by rewrite leqNgt.
rewrite count_labels; have -> : members n (labels n E) l = iota 0 n.
  apply/all_filterP/allP => i; rewrite mem_iota add0n => Hi; apply/eqP.
  have := lab_lt E Hi; move: Hl; rewrite mem_labels; case: (n_subtrees n E) n1 => [|[|]] // _; rewrite !ltnS !leqn0 => /eqP -> /eqP. by rewrite /lab => ->.
rewrite size_iota; rewrite -ltnNge in Hn; apply: leq_trans (ltnW Hn); by rewrite leq_pmull.
Qed.

(** a successful fit: the labels are a total labelling of the nodes by the trees of the returned forest, which is part of the given forest; the history
    of cuts leads to it one cluster at a time with every cluster legal; the number of clusters is the one asked for (or the initial one if larger) *)
(* partial; missing: labels when no cut is possible (C39_labels_lost_refuted) *)
Theorem C39_fit_partial : forall k q ig E labs msf tr, (0 < k)%N -> forest E -> within E -> fit n ssr k q ig E = Fitted (Some labs) msf tr false ->
  [/\ labelling labs msf (maxn (asked k ig E) (n_subtrees n E)), at_least q labs, {subset msf <= E} & history q (n_subtrees n E) E tr msf].
Proof.
move=> k q ig E labs msf tr k0 FE Wn; rewrite /fit; case: ifP => // /negbT Hn; case: ifP => // /negbT Hi; rewrite -/(asked k ig E).
have L := start_legal ig k0 Hn Hi.
have := @loop_ok (asked k ig E).+1 (asked k ig E) q E None None [::] FE Wn L.
have -> : (asked k ig E < n_subtrees n E + (asked k ig E).+1)%N by rewrite addnS ltnS leq_addl.
move=> /(_ isT); case: fit_loop => // labs' msf' tr' w [tr'' -> [H1 H2 H3 HL H4]] [e1 e2 e3 e4]; rewrite e4 in H4; subst labs' msf'.
case: H4 => [[->] Hc]; rewrite -Hc; split; [exact: labelling_ok | exact/at_least_ok | | by rewrite -e3].
suff sub : forall t m F, history q m F t msf -> {subset msf <= F} by apply: sub H1.
elim=> [|[[l e] s] t IHt] m F /=; first by move=> ->.
by move=> [_ _ _ /IHt H] x /H; rewrite mem_filter => /andP [].
Qed.

(** the number of accepted cuts is the number of clusters gained *)
Theorem C39_cuts : forall q m E (tr : seq (seq nat * edge * R)) E', forest E -> within E -> n_subtrees n E = m -> history q m E tr E' ->
  n_subtrees n E' = (m + size tr)%N.
Proof.
move=> q m E tr E'; elim: tr m E => [|[[l e] s] tr IH] m E FE Wn Em /=; first by move=> ->; rewrite addn0.
move=> [He _ _ H]; rewrite (IH m.+1 (without e E)) ?addnS ?addSn //; [exact: forest_without | exact: within_without | by rewrite n_sub_without ?Em].
Qed.

(** each history refines the clusters: nodes together after the cuts were together before *)
Theorem C39_refines : forall q m E (tr : seq (seq nat * edge * R)) E' i j, history q m E tr E' -> conn E' i j -> conn E i j.
Proof.
move=> q m E tr E' i j; elim: tr m E => [|[[l e] s] tr IH] m E /=; first by move=> ->.
by move=> [_ _ _ /IH H] /H /conn_without.
Qed.

(** from a connected map every accepted cut is the best legal one and its recorded score is the total score of the map *)
Theorem C39_greedy : forall k q ig E labs msf tr w, (0 < k)%N -> forest E -> within E -> n_subtrees n E = 1%N ->
  fit n ssr k q ig E = Fitted labs msf tr w -> greedy q E tr.
Proof.
move=> k q ig E labs msf tr w k0 FE Wn E1; rewrite /fit; case: ifP => // /negbT Hn; case: ifP => // /negbT Hi; rewrite -/(asked k ig E).
have L := start_legal ig k0 Hn Hi.
have := @loop_greedy (asked k ig E).+1 (asked k ig E) q E None None [::] FE Wn L E1.
by case: fit_loop => // labs' msf' tr' w' [tr'' -> H] [_ _ <- _].
Qed.

(** from a connected map, with a score that splitting does not increase, fit never raises (beyond the size check) *)
(* partial; missing: maps with islands, for which fit can raise (C39_islands_refuted) *)
Theorem C39_no_raise_partial : forall k q ig E, (0 < k)%N -> (k * q < n)%N -> subadditive -> forest E -> within E -> n_subtrees n E = 1%N ->
  fit n ssr k q ig E <> Raise R.
Proof.
move=> k q ig E k0 Hn SA FE Wn E1; have E1' : (1 < n_subtrees n E)%N = false by rewrite E1.
rewrite /fit leqNgt Hn E1' !andFb.
have L : legal q E by apply: (start_legal ig k0); rewrite ?E1 // -ltnNge.
change (fit_loop n ssr k.+1 k q E (n_subtrees n E) (labels n E) None None [::] <> Raise R); apply: loop_total => //.
by rewrite addnS ltnS leq_addl.
Qed.

(** when no edge of the forest can be cut any more fit warns and returns the forest so far, but the labels are lost (line 686) *)
Theorem C39_labels_lost_refuted : forall k q ig E labs msf tr, (0 < k)%N -> forest E -> within E -> fit n ssr k q ig E = Fitted labs msf tr true ->
  [/\ labs = None, (n_subtrees n msf < asked k ig E)%N, history q (n_subtrees n E) E tr msf & forall e, e \in msf -> ~ valid msf q e].
Proof.
move=> k q ig E labs msf tr k0 FE Wn; rewrite /fit; case: ifP => // /negbT Hn; case: ifP => // /negbT Hi; rewrite -/(asked k ig E).
have L := start_legal ig k0 Hn Hi.
have := @loop_ok (asked k ig E).+1 (asked k ig E) q E None None [::] FE Wn L.
have -> : (asked k ig E < n_subtrees n E + (asked k ig E).+1)%N by rewrite addnS ltnS leq_addl.
move=> /(_ isT); case: fit_loop => // labs' msf' tr' w [tr'' -> [H1 H2 H3 HL H4]] [e1 e2 e3 e4]; rewrite e4 in H4; subst labs' msf'.
by case: H4 => [-> [A B]]; split=> //; rewrite -e3.
Qed.
End T.

(* ---------- witnesses ---------- *)
(** sum of absolute differences within the cluster of the values 0, 1, 10, 11, 30 at the five nodes of a path *)
Definition wval (i : nat) : int := nth 0 [:: 0; 1; 10%:Z; 11%:Z; 30%:Z] i.
Definition wssr (c : seq nat) : option int := Some (foldr (fun i a => foldr (fun j b => `|wval i - wval j| + b) 0 c + a) 0 c).
Definition path5 : forest_t := [:: (0, 1); (1, 2); (2, 3); (3, 4)]%N.
Definition gives (r : fit_res [realDomainType of int]) (labs : option (seq nat)) (msf : forest_t) (scores : seq int) (w : bool) : bool :=
  if r is Fitted l m tr w' then [&& l == labs, m == msf, [seq t.2 | t <- tr] == scores & w' == w] else false.
(** two clusters of at least two nodes *)
Example C39_witness : gives (fit 5 wssr 2 2 true path5) (Some [:: 0; 0; 0; 1; 1]%N) [:: (0, 1); (1, 2); (3, 4)]%N [:: 78%:Z] false.
Proof. by vm_compute. Qed.
(** a star: any cut isolates a leaf, so with quorum 2 there is no legal cut; five observations are more than 2 * 2, fit only warns, and the labels are gone *)
Definition star5 : forest_t := [:: (0, 1); (0, 2); (0, 3); (0, 4)]%N.
Theorem C39_lost_refuted : gives (fit 5 wssr 2 2 true star5) None star5 [::] true.
Proof. by vm_compute. Qed.
(** two islands {0,1} and {2,3,4}: the scores of the first pass only cover the island that was cut; three clusters are found, but asking for four raises
    "The score increased with the number of clusters" although cutting {2,3,4} lowers its score from 80 to 2 *)
Definition islands5 : forest_t := [:: (0, 1); (2, 3); (3, 4)]%N.
Theorem C39_islands_refuted : gives (fit 5 wssr 3 1 true islands5) (Some [:: 0; 1; 2; 2; 2]%N) [:: (2, 3); (3, 4)]%N [:: 0] false /\
  (if fit 5 wssr 4 1 true islands5 is Raise then true else false) /\
  wssr [:: 2; 3; 4]%N = Some 80%:Z /\ wssr [:: 2; 3]%N = Some 2%:Z.
Proof. by split; [vm_compute | split; [vm_compute | split; apply/eqP; vm_compute]]. Qed.
