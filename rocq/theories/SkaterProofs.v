From mathcomp Require Import all_ssreflect all_algebra.
From Verif Require Import SkaterModel.
Set Implicit Arguments.
Unset Strict Implicit.
Unset Printing Implicit Defensive.
Import Order.TTheory GRing.Theory Num.Theory.
Local Open Scope ring_scope.

(* ---------- specification ---------- *)
(** i and j are linked by a path of edges of E, in either direction *)
Inductive conn (E : forest_t) : nat -> nat -> Prop :=
| conn_refl i : conn E i i
| conn_step i j k : conn E i j -> ((j, k) \in E) || ((k, j) \in E) -> conn E i k.
(** no cycles: without any one of its edges, the ends of that edge are not linked *)
Definition forest (E : forest_t) : Prop := uniq E /\ forall e, e \in E -> ~ conn [seq f <- E | f != e] e.1 e.2.
Definition within n (E : forest_t) : Prop := all (fun e => (e.1 < n)%N && (e.2 < n)%N) E.

Lemma conn_trans E i j k : conn E i j -> conn E j k -> conn E i k.
Proof. move=> H1 H2; elim: H2 H1 => // a b c _ IH H H1; apply: conn_step (IH H1) H. Qed.
Lemma conn_edge E i j : ((i, j) \in E) || ((j, i) \in E) -> conn E i j.
Proof. exact: conn_step (conn_refl _ _). Qed.
Lemma conn_sym E i j : conn E i j -> conn E j i.
Proof. elim=> [a|a b c _ IH H]; first exact: conn_refl. by apply: conn_trans IH; apply: conn_edge; rewrite orbC. Qed.
Lemma conn_sub E F i j : {subset E <= F} -> conn E i j -> conn F i j.
Proof. move=> S; elim=> [a|a b c _ IH H]; first exact: conn_refl. by apply: conn_step IH _; case/orP: H => /S ->; rewrite ?orbT. Qed.

Lemma comps_conn E i j : comps E i = comps E j <-> conn E i j.
Proof.
elim: E i j => [|[a b] E IH] i j /=.
  split=> [->|H]; first exact: conn_refl. by elim: H => // x y z _ ->; rewrite !in_nil.
have mono x y : conn E x y -> conn ((a, b) :: E) x y by apply: conn_sub => z Hz; rewrite in_cons Hz orbT.
have ab : conn ((a, b) :: E) a b by apply: conn_edge; rewrite in_cons eqxx.
rewrite /merge_cls /=; split.
  case: eqP => [/IH H1|N1]; case: eqP => [/IH H2|N2].
  - by move=> _; apply: conn_trans (mono _ _ H1) (conn_sym (mono _ _ H2)).
  - move=> /IH H; apply: conn_trans (mono _ _ H1) _. exact: conn_trans (conn_sym ab) (mono _ _ H).
  - move=> /IH H; apply: conn_trans (mono _ _ H) _. exact: conn_trans ab (conn_sym (mono _ _ H2)).
  - by move=> /IH /mono.
elim=> [//|x y z _ -> H].
have key u v : (u, v) \in (a, b) :: E -> (if comps E u == comps E b then comps E a else comps E u) = (if comps E v == comps E b then comps E a else comps E v).
  rewrite in_cons => /orP [/eqP [-> ->]|M]; first by rewrite eqxx; case: eqP.
  have -> // : comps E u = comps E v by apply/IH; apply: conn_edge; rewrite M.
by case/orP: H => /key.
Qed.

Lemma conn_dec E i j : conn E i j \/ ~ conn E i j.
Proof. by case: (comps E i =P comps E j) => [/comps_conn|H]; [left | right=> /comps_conn]. Qed.

(* first occurrences *)
Lemma mem_firsts s : firsts s =i s.
Proof. by move=> x; rewrite /firsts mem_rev mem_undup mem_rev. Qed.
Lemma firsts_uniq s : uniq (firsts s).
Proof. by rewrite /firsts rev_uniq undup_uniq. Qed.
Lemma size_firsts s : size (firsts s) = size (undup s).
Proof. by rewrite /firsts size_rev; apply: perm_size; apply: uniq_perm; rewrite ?undup_uniq // => x; rewrite !mem_undup mem_rev. Qed.

Section Lab.
Variable n : nat.
Definition lab E i := nth 0%N (labels n E) i.
Lemma size_labels E : size (labels n E) = n.
Proof. by rewrite size_map size_iota. Qed.
Lemma labE E i : (i < n)%N -> lab E i = index (comps E i) (cls_list n E).
Proof. by move=> H; rewrite /lab (nth_map 0%N) ?size_iota // nth_iota. Qed.
Lemma cls_mem E i : (i < n)%N -> comps E i \in cls_list n E.
Proof. by move=> H; rewrite mem_firsts; apply/mapP; exists i; rewrite // mem_iota. Qed.
Lemma lab_conn E i j : (i < n)%N -> (j < n)%N -> lab E i = lab E j <-> conn E i j.
Proof.
move=> Hi Hj; rewrite !labE //; rewrite -comps_conn; split=> [H|->] //.
by rewrite -[LHS](nth_index 0%N (cls_mem E Hi)) H nth_index // cls_mem.
Qed.
Lemma lab_lt E i : (i < n)%N -> (lab E i < n_subtrees n E)%N.
Proof. by move=> H; rewrite labE // index_mem cls_mem. Qed.
Lemma lab_onto E l : (l < n_subtrees n E)%N -> exists2 i, (i < n)%N & lab E i = l.
Proof.
move=> H; have: nth 0%N (cls_list n E) l \in cls_list n E by exact: mem_nth.
rewrite mem_firsts => /mapP [i]; rewrite mem_iota /= add0n => Hi e; exists i => //.
by rewrite labE // -e index_uniq // firsts_uniq.
Qed.
Lemma mem_labels E l : (l \in labels n E) = (l < n_subtrees n E)%N.
Proof.
apply/idP/idP => [/(nthP 0%N) [i]|H].
  by rewrite size_labels => Hi <-; apply: lab_lt.
have [i Hi <-] := lab_onto H. by apply: mem_nth; rewrite size_labels.
Qed.
Lemma n_sub_kernel E F : (forall i j, (i < n)%N -> (j < n)%N -> conn E i j <-> conn F i j) -> n_subtrees n E = n_subtrees n F.
Proof.
have gen (f g : nat -> nat) (s : seq nat) : {in s &, forall i j, (f i == f j) = (g i == g j)} -> size (undup (map f s)) = size (undup (map g s)).
  elim: s => //= x s IH H.
  have -> : (f x \in map f s) = (g x \in map g s).
    apply/mapP/mapP => [[y Hy e]|[y Hy e]]; exists y => //; apply/eqP.
      by rewrite -H ?in_cons ?eqxx ?Hy ?orbT // e.
    by rewrite H ?in_cons ?eqxx ?Hy ?orbT // e.
  have IH' := IH (fun i j Hi Hj => H i j (mem_behead (s := x :: s) Hi) (mem_behead (s := x :: s) Hj)).
  by case: ifP => _ /=; rewrite IH'.
move=> H; rewrite /n_subtrees /cls_list !size_firsts; apply: gen => i j; rewrite !mem_iota /= add0n => Hi Hj.
by apply/eqP/eqP => /comps_conn /(H _ _ Hi Hj) /comps_conn.
Qed.
Lemma n_sub_cons e E : (e.1 < n)%N -> (e.2 < n)%N -> ~ conn E e.1 e.2 -> n_subtrees n E = (n_subtrees n (e :: E)).+1.
Proof.
case: e => a b /= Ha Hb N; rewrite /n_subtrees /cls_list !size_firsts /=.
set f := comps E; have Nab : f a != f b by apply/eqP => /comps_conn.
set s := map f (iota 0 n).
have -> : [seq merge_cls (a, b) f i | i <- iota 0 n] = [seq (if x == f b then f a else x) | x <- s] by rewrite -map_comp.
have as_ : f a \in s by apply/mapP; exists a; rewrite // mem_iota.
have bs : f b \in s by apply/mapP; exists b; rewrite // mem_iota.
have -> : size (undup [seq (if x == f b then f a else x) | x <- s]) = size [seq x <- undup s | x != f b].
  apply: perm_size; apply: uniq_perm; rewrite ?undup_uniq ?filter_uniq ?undup_uniq // => x.
  rewrite mem_undup mem_filter mem_undup; apply/mapP/andP => [[y Hy ->]|[nx Hx]].
    by have [e|Ny] := eqVneq y (f b); split.
  by exists x; rewrite // (negbTE nx).
rewrite size_filter -(count_predC (pred1 (f b)) (undup s)) count_uniq_mem ?undup_uniq // mem_undup bs add1n.
by congr (_.+1); apply: eq_count => x.
Qed.

(** removing an edge of a forest *)
Definition without (e : edge) (E : forest_t) : forest_t := [seq f <- E | f != e].
Lemma conn_with e E i j : e \in E -> conn E i j <-> conn (e :: without e E) i j.
Proof.
move=> He; split; apply: conn_sub => x; rewrite in_cons mem_filter.
  by move=> Hx; rewrite Hx andbT; case: eqP.
by case: eqP => [->|_] //= /andP [].
Qed.
Lemma conn_without e E i j : conn (without e E) i j -> conn E i j.
Proof. by apply: conn_sub => x; rewrite mem_filter => /andP []. Qed.
Lemma conn_split e E i j : e \in E -> conn E i j -> conn (without e E) i j \/ (conn E e.1 i /\ conn E e.1 j).
Proof.
move=> He Hij; have [|N] := conn_dec (without e E) i j; [by left | right].
have ce : conn E e.1 e.2 by apply: conn_edge; case: e He N => a b /= ->.
move/(conn_with _ _ He)/comps_conn: (Hij) => /=; rewrite /merge_cls.
have tr x : comps (without e E) x = comps (without e E) e.2 -> conn E e.1 x.
  by move=> /comps_conn /conn_without H; apply: conn_trans ce (conn_sym H).
case: eqP => [/tr H1|N1]; case: eqP => [/tr H2|N2]; first by [].
- move=> _; split=> //; exact: conn_trans H1 Hij.
- move=> _; split=> //; exact: conn_trans H2 (conn_sym Hij).
- by move=> /comps_conn.
Qed.
Lemma forest_without e E : forest E -> forest (without e E).
Proof.
move=> [U H]; split; first exact: filter_uniq.
move=> f; rewrite mem_filter => /andP [_ Hf] C; apply: (H f Hf); apply: conn_sub C => x.
by rewrite !mem_filter => /and3P [-> _ ->].
Qed.
Lemma within_without e E : within n E -> within n (without e E).
Proof. by move=> /allP H; apply/allP => x; rewrite mem_filter => /andP [_ /H]. Qed.
Lemma n_sub_without e E : forest E -> within n E -> e \in E -> n_subtrees n (without e E) = (n_subtrees n E).+1.
Proof.
move=> [_ F] /allP Wn He; have /andP [H1 H2] := Wn _ He.
rewrite (n_sub_cons H1 H2 (F _ He)); congr (_.+1); apply: n_sub_kernel => i j _ _.
by split=> /(conn_with _ _ He).
Qed.

(* ---------- clusters ---------- *)
Definition cluster E i : seq nat := members n (labels n E) (lab E i).
Lemma cluster_mem E i j : (j \in cluster E i) = (j < n)%N && (lab E j == lab E i).
Proof. by rewrite /cluster /members mem_filter mem_iota /= add0n andbC. Qed.
Lemma members_mem E l j : (j \in members n (labels n E) l) = (j < n)%N && (lab E j == l).
Proof. by rewrite /members mem_filter mem_iota /= add0n andbC. Qed.
Lemma members_eq s t l m : (forall i, (i < n)%N -> (nth 0%N s i == l) = (nth 0%N t i == m)) -> members n s l = members n t m.
Proof. by move=> H; apply: eq_in_filter => i; rewrite mem_iota /= add0n => /H. Qed.
Lemma count_labels E l : count_mem l (labels n E) = size (members n (labels n E) l).
Proof.
rewrite /members size_filter -{1}[labels n E](mkseq_nth 0%N) size_labels /mkseq count_map.
by apply: eq_count.
Qed.

(** every cluster has at least q members *)
Definition legal q E : Prop := forall i, (i < n)%N -> (q <= size (cluster E i))%N.

Lemma restrict_mem E F t l : (l \in restrict n (labels n F) (labels n E) t) <-> exists2 i, (i < n)%N & lab E i = t /\ lab F i = l.
Proof.
rewrite /restrict; split.
  by move=> /mapP [i]; rewrite mem_filter mem_iota /= add0n => /andP [/eqP Ht Hi] ->; exists i.
by move=> [i Hi [Ht Hl]]; apply/mapP; exists i => //; rewrite mem_filter mem_iota /= add0n Hi andbT; apply/eqP.
Qed.
Lemma restrict_count e E l : e \in E -> within n E -> let F := without e E in
  l \in restrict n (labels n F) (labels n E) (lab E e.1) ->
  count_mem l (restrict n (labels n F) (labels n E) (lab E e.1)) = size (members n (labels n F) l).
Proof.
move=> He Wn F; rewrite restrict_mem => -[i Hi [Ht Hl]].
rewrite /restrict count_map count_filter /members size_filter; apply: eq_in_count => j; rewrite mem_iota /= add0n => Hj.
rewrite -/(lab _ _) -/(lab _ _). case: eqP => //= Hjl; apply/eqP.
rewrite -Ht; apply/lab_conn => //; apply: (@conn_without e); apply/lab_conn => //; exact: (etrans Hjl (esym Hl)).
Qed.
(** clusters of the other trees are untouched by a cut *)
Lemma untouched e E i : e \in E -> within n E -> (i < n)%N -> lab E i != lab E e.1 -> cluster (without e E) i = cluster E i.
Proof.
move=> He /allP Wn Hi N; have /andP [H1 _] := Wn _ He.
apply: members_eq => j Hj; rewrite -!/(lab _ _); apply/eqP/eqP => /lab_conn H; apply/lab_conn => //.
  exact: conn_without (H Hj Hi).
have [//|[_ C]] := conn_split He (H Hj Hi).
by case/negP: N; apply/eqP/lab_conn => //; apply: conn_sym.
Qed.
Lemma legal_cut q e E : e \in E -> within n E -> legal q E ->
  ~~ has (fun l => (count_mem l (restrict n (labels n (without e E)) (labels n E) (lab E e.1)) < q)%N)
      (undup (restrict n (labels n (without e E)) (labels n E) (lab E e.1))) -> legal q (without e E).
Proof.
move=> He Wn L /hasPn H i Hi.
have [Et|Nt] := eqVneq (lab E i) (lab E e.1); last by rewrite (untouched He Wn Hi Nt); apply: L.
set l := lab (without e E) i.
have M : l \in restrict n (labels n (without e E)) (labels n E) (lab E e.1) by apply/restrict_mem; exists i.
move: (H l); rewrite mem_undup M => /(_ isT); rewrite restrict_count // -leqNgt.
by [].
Qed.
End Lab.
