From mathcomp Require Import all_ssreflect all_algebra.
From Verif Require Import SkaterModel SkaterProofs.
Set Implicit Arguments.
Unset Strict Implicit.
Unset Printing Implicit Defensive.
Import Order.TTheory GRing.Theory Num.Theory.
Local Open Scope ring_scope.

Section Scores.
Variables (R : realDomainType) (n : nat) (ssr : seq nat -> option R).
Local Notation lab := (lab n).
Local Notation cluster := (cluster n).
Local Notation legal := (legal n).
Local Notation within := (within n).

(** the distinct clusters of a forest and the total score of the map (0 for a cluster whose score is not finite) *)
Definition classes E : seq (seq nat) := undup [seq cluster E i | i <- iota 0 n].
Definition phi c : R := odflt 0 (ssr c).
Definition total E : R := \sum_(c <- classes E) phi c.
Definition finite E : Prop := forall i, (i < n)%N -> ssr (cluster E i) <> None.

Lemma clusterP E i j : (i < n)%N -> (j < n)%N -> cluster E i = cluster E j <-> lab E i = lab E j.
Proof.
move=> Hi Hj; split=> [H|H]; last by rewrite /SkaterProofs.cluster H.
by have := cluster_mem n E i i; rewrite H cluster_mem Hi eqxx /= => /eqP.
Qed.
Lemma mem_classes E c : (c \in classes E) <-> exists2 i, (i < n)%N & c = cluster E i.
Proof.
rewrite mem_undup; split=> [/mapP [i]|[i Hi ->]]; first by rewrite mem_iota add0n => Hi ->; exists i.
by apply/mapP; exists i; rewrite // mem_iota.
Qed.
Lemma members_cluster E i : members n (labels n E) (lab E i) = cluster E i.
Proof. by []. Qed.
(** labels with at least one node *)
Lemma labels_classes E ls : uniq ls -> (forall l, l \in ls -> exists2 i, (i < n)%N & lab E i = l) -> uniq [seq members n (labels n E) l | l <- ls].
Proof.
move=> U H; rewrite map_inj_in_uniq // => l m Hl Hm.
case: (H l Hl) => i Hi <-; case: (H m Hm) => j Hj <-; rewrite !members_cluster => e; exact/(clusterP E Hi Hj).
Qed.
Lemma total_labels E : total E = \sum_(l <- iota 0 (n_subtrees n E)) phi (members n (labels n E) l).
Proof.
rewrite /total -(big_map (members n (labels n E)) xpredT phi); apply: perm_big; apply: uniq_perm; rewrite ?undup_uniq //.
  apply: labels_classes; rewrite ?iota_uniq // => l; rewrite mem_iota => /lab_onto [i Hi e]; by exists i.
move=> c; apply/idP/idP.
  move=> /mem_classes [i Hi ->]; apply/mapP; exists (lab E i) => //; rewrite mem_iota add0n /=; exact: lab_lt.
move=> /mapP [l]; rewrite mem_iota add0n => /lab_onto [i Hi <-] ->; apply/mem_classes; by exists i.
Qed.

Section Cut.
Variables (e : edge) (E : forest_t).
Hypotheses (He : e \in E) (Wn : within E).
Let F := without e E.
Let t := lab E e.1.
Let He1 : (e.1 < n)%N. Proof. by case/andP: (allP Wn _ He). Qed.

Lemma classes_cut : perm_eq (classes F) ([seq c <- classes E | c != cluster E e.1] ++ [seq members n (labels n F) l | l <- undup (restrict n (labels n F) (labels n E) t)]).
Proof.
apply: uniq_perm; rewrite ?undup_uniq //.
  rewrite cat_uniq filter_uniq ?undup_uniq //=; apply/andP; split.
    apply/hasPn => c /mapP [l]; rewrite mem_undup => /restrict_mem [i Hi [Ht Hl]] ->; apply/negP.
    rewrite inE mem_filter => /andP [/eqP N /mem_classes [j Hj ej]]; apply: N.
    rewrite -Hl members_cluster in ej *.
    have: i \in cluster F i by rewrite cluster_mem Hi eqxx.
    rewrite ej cluster_mem Hi /= => /eqP eij; apply/(clusterP E Hj He1); by rewrite -eij.
  apply: labels_classes; rewrite ?undup_uniq // => l; rewrite mem_undup => /restrict_mem [i Hi [_ Hl]]; by exists i.
move=> c; rewrite mem_cat mem_filter; apply/idP/idP.
  move=> /mem_classes [i Hi ->]; have [Et|Nt] := eqVneq (lab E i) t.
    apply/orP; right; apply/mapP; exists (lab F i) => //; rewrite mem_undup; apply/restrict_mem; by exists i.
  apply/orP; left; rewrite (untouched He Wn Hi Nt); apply/andP; split; last by apply/mem_classes; exists i.
  by apply/negP => /eqP /(clusterP E Hi He1) H; case/eqP: Nt.
case/orP => [/andP [N /mem_classes [i Hi ei]]|/mapP [l]].
  subst c; have Nt : lab E i != t by apply/negP => /eqP H; case/negP: N; apply/eqP/(clusterP E Hi He1).
  by rewrite -(untouched He Wn Hi Nt); apply/mem_classes; exists i.
rewrite mem_undup => /restrict_mem [i Hi [_ <-]] ->; apply/mem_classes; by exists i.
Qed.
Lemma total_cut : total F = total E - phi (cluster E e.1) + \sum_(l <- undup (restrict n (labels n F) (labels n E) t)) phi (members n (labels n F) l).
Proof.
rewrite /total (perm_big _ classes_cut) /= big_cat big_map; congr (_ + _).
rewrite big_filter (bigD1_seq (cluster E e.1)) ?undup_uniq //=; last by apply/mem_classes; exists e.1.
by rewrite addrAC subrr add0r.
Qed.
End Cut.

(* ---------- dictionaries ---------- *)
Definition keys (d : dict R) := [seq p.1 | p <- d].
Lemma dget_mem (d : dict R) k : (dget d k != None) = (k \in keys d).
Proof. elim: d => [|[k' v] d IH] //=; rewrite in_cons [k == k']eq_sym; have [_|N] := eqVneq k' k; rewrite //= IH. Qed.
Lemma dget_set (d : dict R) k v m : dget (dset d k v) m = if m == k then Some v else dget d m.
Proof.
elim: d => [|[k' w] d IH] /=; first by rewrite eq_sym.
case: (k' =P k) => [e|N] /=; first by subst k'; case: (k =P m) => [->|/eqP Nm]; rewrite ?eqxx // eq_sym (negbTE Nm).
case: (k' =P m) => [e|Nm]; last exact: IH.
by subst m; case: eqP.
Qed.
Lemma keys_set (d : dict R) k v : keys (dset d k v) = if k \in keys d then keys d else rcons (keys d) k.
Proof.
elim: d => [|[k' w] d IH] //=; rewrite in_cons [k == k']eq_sym; have [->|N] := eqVneq k' k => //=.
rewrite IH; by case: ifP.
Qed.
Lemma uniq_set (d : dict R) k v : uniq (keys d) -> uniq (keys (dset d k v)).
Proof. by move=> U; rewrite keys_set; case: ifP => // N; rewrite rcons_uniq N. Qed.
Lemma dsum_keys (d : dict R) : uniq (keys d) -> dsum d = \sum_(k <- keys d) odflt 0 (dget d k).
Proof.
elim: d => [|[k v] d IH] /=; first by rewrite big_nil.
move=> /andP [N U]; rewrite big_cons /= eqxx /= IH //; congr (_ + _); apply: eq_big_seq => m Hm.
by case: eqP => // ek; rewrite ek Hm in N.
Qed.

(** the dictionary holds exactly the scores of the clusters of E *)
Definition dict_ok (d : dict R) E : Prop :=
  [/\ uniq (keys d), forall l, (l \in keys d) = (l < n_subtrees n E)%N & forall l, (l < n_subtrees n E)%N -> dget d l = ssr (members n (labels n E) l)].
Lemma dict_sum d E : dict_ok d E -> dsum d = total E.
Proof.
move=> [U K G]; rewrite dsum_keys // total_labels.
have P : perm_eq (keys d) (iota 0 (n_subtrees n E)) by apply: uniq_perm; rewrite ?iota_uniq // => l; rewrite K mem_iota add0n.
rewrite (perm_big _ P) /=; apply: eq_big_seq => l; rewrite mem_iota add0n => Hl; by rewrite G.
Qed.

Lemma score_labelsP all_labels ls : match score_labels n ssr all_labels ls with
  | Some d => keys d = ls /\ (forall l, l \in ls -> ssr (members n all_labels l) <> None) /\ (forall l, l \in ls -> dget d l = ssr (members n all_labels l))
  | None => exists2 l, l \in ls & ssr (members n all_labels l) = None end.
Proof.
elim: ls => [|l ls IH] //=.
case Es: (ssr (members n all_labels l)) => [v|]; last by exists l; rewrite // mem_head.
case: (score_labels n ssr all_labels ls) IH => [d|] /=.
  move=> [K [A G]]; rewrite K; split=> //; split=> m; rewrite in_cons.
    by case/orP => [/eqP ->|/A]; rewrite ?Es.
  case: (l =P m) => [<- _|/eqP N]; first by rewrite Es.
  by rewrite eq_sym (negbTE N) /= => /G.
by case=> m Hm e; exists m; rewrite // in_cons Hm orbT.
Qed.
End Scores.
