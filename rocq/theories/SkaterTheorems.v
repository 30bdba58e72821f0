(** C39: Skater_reg.fit *)
From mathcomp Require Import all_ssreflect all_algebra.
From Verif Require Import SkaterModel SkaterProofs SkaterProofs2.
Set Implicit Arguments.
Unset Strict Implicit.
Unset Printing Implicit Defensive.
Import Order.TTheory GRing.Theory Num.Theory.
Local Open Scope ring_scope.

Section T.
Variables (R : realDomainType) (n : nat) (ssr : seq nat -> option R).
Local Notation lab := (lab n).
Local Notation cluster := (cluster n).
Local Notation legal := (legal n).
Local Notation within := (within n).
Local Notation dict_ok := (dict_ok n ssr).
Local Notation finite := (finite n ssr).
Local Notation total := (total n ssr).

Section Step.
Variables (E : forest_t) (q : nat) (ts : option (dict R)).
Hypotheses (FE : forest E) (Wn : within E).

Definition sc e := score_spreg n ssr (labels n (without e E)) q (labels n E) (lab E e.1).
(** a cut that keeps every cluster legal and whose clusters all have a finite score *)
Definition valid e : Prop := legal q (without e E) /\ finite (without e E).

Lemma sc_valid e : e \in E -> valid e -> exists p, sc e = Some p.
Proof.
move=> He [L Fi]; rewrite /sc /score_spreg; set rs := restrict _ _ _ _.
have -> : has (fun l => (count_mem l rs < q)%N) (undup rs) = false.
  apply/negbTE/hasPn => l; rewrite mem_undup => Hl; rewrite /rs (restrict_count He Wn Hl) -leqNgt.
  by case/restrict_mem: Hl => i Hi [_ <-]; apply: L.
have := score_labelsP n ssr (labels n (without e E)) (undup rs); case: score_labels => [d _|[l]]; first by eexists.
by rewrite mem_undup => /restrict_mem [i Hi [_ <-]] /Fi; case.
Qed.
Lemma sc_legal e ns d : e \in E -> legal q E -> sc e = Some (ns, d) -> legal q (without e E).
Proof.
move=> He L; rewrite /sc /score_spreg; case: ifP => // /negbT H _; exact: legal_cut H.
Qed.
Lemma sc_sum e ns d : sc e = Some (ns, d) ->
  [/\ ns = \sum_(l <- undup (restrict n (labels n (without e E)) (labels n E) (lab E e.1))) phi ssr (members n (labels n (without e E)) l),
      keys d = undup (restrict n (labels n (without e E)) (labels n E) (lab E e.1)),
      forall l, l \in keys d -> dget d l = ssr (members n (labels n (without e E)) l)
    & forall l, l \in keys d -> ssr (members n (labels n (without e E)) l) <> None].
Proof.
rewrite /sc /score_spreg; case: ifP => // _; set rs := restrict _ _ _ _.
have := score_labelsP n ssr (labels n (without e E)) (undup rs); case: score_labels => // d0 [K [A G]] [<- <-].
rewrite K; split=> //. rewrite dsum_keys K ?undup_uniq //; apply: eq_big_seq => l Hl; by rewrite G.
Qed.

(** what find_cut knows about the current forest: the scores of its clusters, or (first pass) that it is one tree *)
Definition known : Prop := match ts with Some d => dict_ok d E | None => n_subtrees n E = 1%N end.
Definition dscore (e : edge) (ns : R) : R * R :=
  match (if ts is Some d then dget d (lab E e.1) else None) with
  | Some v => let d := v - ns in (d, dsum (odflt [::] ts) - d)
  | None => (- ns, ns)
  end.

Lemma e1_lt e : e \in E -> (e.1 < n)%N.
Proof. by move=> He; case/andP: (allP Wn _ He). Qed.

Lemma one_tree : n_subtrees n E = 1%N -> forall i j, (i < n)%N -> (j < n)%N -> lab E i = lab E j.
Proof. by move=> H i j Hi Hj; have := lab_lt E Hi; have := lab_lt E Hj; rewrite H !ltnS !leqn0 => /eqP -> /eqP ->. Qed.

Lemma total_one : n_subtrees n E = 1%N -> forall i, (i < n)%N -> total E = phi ssr (cluster E i).
Proof.
move=> H i Hi; rewrite total_labels H /= big_seq1; congr (phi _ _).
by rewrite -members_cluster; congr (members _ _ _); have := lab_lt E Hi; rewrite H; case: (lab E i).
Qed.

(** the score of a candidate is the total score of the new map, and its gain orders candidates by that total *)
Lemma dscore_total e ns d : known -> e \in E -> sc e = Some (ns, d) ->
  (dscore e ns).2 = total (without e E) /\ (dscore e ns).1 = (if ts is Some _ then total E else 0) - total (without e E).
Proof.
move=> K He S; have [Ens _ _ _] := sc_sum S; rewrite (total_cut ssr He Wn) -Ens /dscore.
move: K; rewrite /known; case: ts => [td|] K.
  have [_ _ G] := K; have Ht := lab_lt E (e1_lt He); rewrite G //= members_cluster (dict_sum K).
  case Ev: (ssr (cluster E e.1)) => [v|] /=; first by rewrite /phi Ev /=; split; [rewrite opprB addrA addrAC | rewrite opprD opprB addrA [total E + _]addrC subrK].
  case: K => U Kk _. have := dget_mem td (lab E e.1); by rewrite Kk G // members_cluster Ev Ht.
by rewrite -(total_one K (e1_lt He)) subrr add0r sub0r.
Qed.

(** the new dictionary *)
Lemma carry_ok (td prev : dict R) ll cur is_ : (forall i, i \in is_ -> dget td i <> None) ->
  exists p, carry prev td ll cur is_ = Some p /\ (uniq (keys prev) -> uniq (keys p)) /\
    (forall l, dget p l <> None -> dget prev l <> None \/ exists2 i, i \in is_ & l = nth 0%N ll (index i cur)) /\
    ({in is_ &, injective (fun i => nth 0%N ll (index i cur))} -> uniq is_ -> forall i, i \in is_ -> dget p (nth 0%N ll (index i cur)) = dget td i) /\
    (forall l, (forall i, i \in is_ -> l != nth 0%N ll (index i cur)) -> dget p l = dget prev l).
Proof.
elim: is_ prev => [|i is_ IH] prev H /=.
  by exists prev; split=> //; split=> //; split; [left | split].
case Ei: (dget td i) (H i (mem_head _ _)) => [v|//] _.
have [p [Ep [U [Dm [G N]]]]] := IH (dset prev (nth 0%N ll (index i cur)) v) (fun j Hj => H j (mem_behead (s := i :: is_) Hj)).
exists p; split=> //; split; first by move=> Up; apply: U; apply: uniq_set.
split.
  move=> l /Dm [|[j Hj ej]]; last by right; exists j; rewrite // in_cons Hj orbT.
  rewrite dget_set; case: eqP => [->|_] Hl; [by right; exists i; rewrite // mem_head | by left].
split.
  move=> inj /= /andP [Ni Ui] j; rewrite in_cons => /orP [/eqP ->|Hj].
    rewrite N; first by rewrite dget_set eqxx Ei.
    move=> m Hm; apply/negP => /eqP em; have: i = m by apply: inj; rewrite ?mem_head // in_cons Hm orbT.
    by move=> eim; rewrite eim Hm in Ni.
  by apply: G => // a b Ha Hb; apply: inj; rewrite in_cons ?Ha ?Hb orbT.
move=> l Hl; rewrite N => [|j Hj]; last by apply: Hl; rewrite in_cons Hj orbT.
by rewrite dget_set (negbTE (Hl i (mem_head _ _))).
Qed.
Lemma foldl_get (new p : dict R) l : uniq (keys new) -> dget (foldl (fun acc kv => dset acc kv.1 kv.2) p new) l = if l \in keys new then dget new l else dget p l.
Proof.
elim: new p => [|[k v] new IH] p //= /andP [Nk U]; rewrite IH // in_cons dget_set eq_sym.
case: (k =P l) => [ek|_] //=; by subst l; rewrite (negbTE Nk).
Qed.
Lemma foldl_uniq (new p : dict R) : uniq (keys p) -> uniq (keys (foldl (fun acc kv => dset acc kv.1 kv.2) p new)).
Proof. by elim: new p => [|[k v] new IH] p //= U; apply: IH; apply: uniq_set. Qed.

Lemma index_node l : (l < n_subtrees n E)%N -> (index l (labels n E) < n)%N /\ lab E (index l (labels n E)) = l.
Proof.
move=> H; have M : l \in labels n E by rewrite mem_labels.
by split; [rewrite -{2}(size_labels n E) index_mem | apply: nth_index].
Qed.

Lemma new_dict_ok e ns d prev : known -> e \in E -> sc e = Some (ns, d) -> uniq (keys prev) ->
  (forall l, l \in keys prev -> (l < (n_subtrees n E).+1)%N) ->
  dict_ok (new_dict prev ts d (labels n (without e E)) (labels n E)) (without e E).
Proof.
move=> K He S Up Kp; have [_ Kd G A] := sc_sum S; set F := without e E in Kd G A *.
have nF : n_subtrees n F = (n_subtrees n E).+1 by apply: n_sub_without.
have Ud : uniq (keys d) by rewrite Kd undup_uniq.
have inD i : (i < n)%N -> lab E i = lab E e.1 -> lab F i \in keys d.
  by move=> Hi Ht; rewrite Kd mem_undup; apply/restrict_mem; exists i.
have rng l : l \in keys d -> (l < n_subtrees n F)%N.
  by rewrite Kd mem_undup => /restrict_mem [i Hi [_ <-]]; apply: lab_lt.
move: K; rewrite /known /new_dict; case: ts => [td|] K; last first.
  split=> // l; last by move=> /lab_onto [i Hi <-]; apply: G; apply: inD => //; apply: one_tree => //; apply: e1_lt.
  apply/idP/idP => [/rng //|/lab_onto [i Hi <-]]; apply: inD => //; apply: one_tree => //; exact: e1_lt.
have [Ut Kt Gt] := K.
have mem_td i : i \in undup (labels n E) -> dget td i <> None.
  by rewrite mem_undup mem_labels -Kt -dget_mem => /eqP.
have [p [-> [Uq [Dm [Gp Np]]]]] := @carry_ok td prev (labels n F) (labels n E) _ mem_td.
have inj : {in undup (labels n E) &, injective (fun i => nth 0%N (labels n F) (index i (labels n E)))}.
  move=> a b; rewrite !mem_undup !mem_labels => /index_node [Ha ea] /index_node [Hb eb] H.
  rewrite -ea -eb; apply/lab_conn => //; apply: (@conn_without e); exact: ((lab_conn F Ha Hb).1 H).
set D := foldl _ _ _; have UD : uniq (keys D) by apply: foldl_uniq; apply: Uq.
have val l : (l < n_subtrees n F)%N -> dget D l = ssr (members n (labels n F) l) /\ dget D l <> None.
  rewrite /D foldl_get //; case: ifP => [Hl _|Hl /lab_onto [i Hi ei]]; first by split; rewrite G //; apply: A.
  have Nt : lab E i != lab E e.1 by apply/negP => /eqP /(inD _ Hi); rewrite ei Hl.
  have Ht := lab_lt E Hi; have [Hj ej] := index_node Ht.
  have elF : nth 0%N (labels n F) (index (lab E i) (labels n E)) = l.
    rewrite -ei -/(SkaterProofs.lab n F _); apply/lab_conn => //.
    have [//|[_ C]] := conn_split He ((lab_conn E Hj Hi).1 ej).
    by case/negP: Nt; apply/eqP/lab_conn => //; [exact: e1_lt | apply: conn_sym].
  have M : lab E i \in undup (labels n E) by rewrite mem_undup mem_labels.
  have := Gp inj (undup_uniq _) _ M; rewrite elF => ->; split; last exact: mem_td.
  by rewrite Gt // !members_cluster -ei members_cluster (untouched He Wn Hi Nt).
split=> //; last by move=> l /val [].
move=> l; rewrite -dget_mem; apply/idP/idP => [/eqP H|/val [_ /eqP]] //.
move: H; rewrite /D foldl_get //; case: ifP => [/rng //|_ /Dm [|[i]]].
  by rewrite nF => /eqP; rewrite dget_mem => /Kp.
by rewrite mem_undup mem_labels => /index_node [Hi _] ->; apply: lab_lt.
Qed.

(* ---------- one call of find_cut ---------- *)
Definition good (done : forest_t) (best : option (cand R)) : Prop :=
  match best with
  | None => forall e, e \in done -> sc e = None
  | Some b => let e := b_edge b in
    [/\ e \in done, b_msf b = without e E, b_labels b = labels n (without e E),
        exists p, [/\ sc e = Some p, b_d b = (dscore e p.1).1, b_score b = (dscore e p.1).2
                    & forall e' p', e' \in done -> sc e' = Some p' -> (dscore e' p'.1).1 <= b_d b]
      & known -> dict_ok (b_dict b) (without e E)]
  end.
Lemma try_edge_good done best e : e \in E -> {subset done <= E} -> good done best ->
  exists2 best', try_edge n ssr E (n_subtrees n E) (labels n E) q ts best e = Some best' & good (rcons done e) best'.
Proof.
move=> He Sd; rewrite /try_edge -/(without e E) -/(SkaterProofs.lab n E _) (n_sub_without FE Wn He) ltnn -/(sc e).
case Es: (sc e) => [[ns d]|] Hg; last first.
  exists best => //; case: best Hg => [b|] /=.
    move=> [H1 H2 H3 [p [P1 P2 P3 P4]] H5]; split=> //; first by rewrite mem_rcons in_cons H1 orbT.
    exists p; split=> // e' p'; rewrite mem_rcons in_cons => /orP [/eqP ->|]; [by rewrite Es | exact: P4].
  by move=> H e'; rewrite mem_rcons in_cons => /orP [/eqP ->|/H].
rewrite -/(dscore e ns); case Ed: (dscore e ns) => [ds s].
set prev := if best is Some b then b_dict b else [::].
have isgood : (forall e' p', e' \in done -> sc e' = Some p' -> (dscore e' p'.1).1 <= ds) ->
    (known -> uniq (keys prev) /\ forall l, l \in keys prev -> (l < (n_subtrees n E).+1)%N) ->
    good (rcons done e) (Some (Cand e s ds (new_dict prev ts d (labels n (without e E)) (labels n E)) (without e E) (labels n (without e E)))).
  move=> Hle Hk; split=> //=; first by rewrite mem_rcons mem_head.
    exists (ns, d); rewrite Ed; split=> // e' p'; rewrite mem_rcons in_cons => /orP [/eqP ->|/Hle]; last exact.
    by rewrite Es => -[<-] /=; rewrite Ed.
  by move=> K; have [U B] := Hk K; apply: (new_dict_ok K He Es).
case: best Hg @prev isgood => [b|] /= Hg isgood; last first.
  eexists; first by []. by apply: isgood => // e' p' /Hg ->.
case: (ltP (b_d b) ds) => Hb; last first.
  exists (Some b) => //; case: Hg => [H1 H2 H3 [p [P1 P2 P3 P4]] H5]; split=> //; first by rewrite mem_rcons in_cons H1 orbT.
  exists p; split=> // e' p'; rewrite mem_rcons in_cons => /orP [/eqP ->|]; last exact: P4.
  by rewrite Es => -[<-] /=; rewrite Ed.
eexists; first by []. case: Hg => [H1 H2 H3 [p [P1 P2 P3 P4]] H5]; apply: isgood.
  by move=> e' p' /P4 H /H /le_trans; apply; apply: ltW.
by move=> /H5 [U Kk _]; split=> // l; rewrite Kk n_sub_without //; apply: Sd.
Qed.
Lemma cut_loop_good es done best : {subset es <= E} -> {subset done <= E} -> good done best ->
  exists2 best', cut_loop n ssr E (n_subtrees n E) (labels n E) q ts best es = Some best' & good (done ++ es) best'.
Proof.
elim: es done best => [|e es IH] done best Se Sd Hg /=; first by exists best; rewrite ?cats0.
have He : e \in E by apply: Se; rewrite mem_head.
have [best1 -> Hg1] := try_edge_good He Sd Hg.
have [|x|best2 -> Hg2] := IH (rcons done e) best1 _ _ Hg1; last by exists best2; rewrite // -cat_rcons.
  by move=> x Hx; apply: Se; rewrite in_cons Hx orbT.
by rewrite mem_rcons in_cons => /orP [/eqP ->|/Sd].
Qed.
(** find_cut never finds the forest malformed; it returns a cut, or nothing when no edge is a possible cut *)
Lemma find_cut_good : exists2 r, find_cut n ssr E (n_subtrees n E) (labels n E) q ts = Some r &
  match r with
  | None => good E None
  | Some (b, n') => good E (Some b) /\ n' = (n_subtrees n E).+1
  end.
Proof.
have Hnil : {subset [::] <= E} by [].
have [best H G] := @cut_loop_good E [::] None (fun _ h => h) Hnil (fun e => @False_ind _ \o (elimF idP (in_nil e))).
rewrite /find_cut H; case: best H G => [b|] H G; last by exists None.
eexists; first by []. split=> //; apply: n_sub_without => //.
case: G => [Hin _ _ _ _]; move: Hin; case: (E) => [|e0 es] //= _; exact: mem_last.
Qed.
End Step.
End T.
