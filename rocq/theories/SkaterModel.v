(** spreg/skater_reg.py: Skater_reg.fit, find_cut, score_spreg.
    Nodes are 0..n-1.  The minimum spanning forest is the list of its stored entries (in_node, out_node) in the order of nonzero(); that
    scipy's minimum_spanning_tree returns a forest is a premise of the theorems.  connected_components is modelled by merging classes edge by edge
    and numbering the classes by first member, which is scipy's numbering.  [ssr] is the oracle of the regression on the members of a cluster:
    Some v, or None when the sum of squared residuals is not finite; an estimator that raises is not modelled.  Branch of score_spreg for regressions other
    than GM_Lag (lines 391-425), score_stats (472-494) and _data_reg_none with np.sum (513-533) all have the shape "one number per cluster, added up".
    Scores are exact numbers.  quorum=-inf is quorum 0.  Verbose output is not modelled. *)
From mathcomp Require Import all_ssreflect all_algebra.
Set Implicit Arguments.
Unset Strict Implicit.
Unset Printing Implicit Defensive.
Import Order.TTheory GRing.Theory Num.Theory.
Local Open Scope ring_scope.

Definition edge := (nat * nat)%type.
Definition forest_t := seq edge.

(** scipy.sparse.csgraph.connected_components(., directed=False) *)
Definition merge_cls (e : edge) (f : nat -> nat) : nat -> nat := fun i => if f i == f e.2 then f e.1 else f i.
Fixpoint comps (E : forest_t) : nat -> nat := match E with [::] => id | e :: E' => merge_cls e (comps E') end.
Definition firsts (s : seq nat) : seq nat := rev (undup (rev s)).
Definition cls_list n (E : forest_t) : seq nat := firsts [seq comps E i | i <- iota 0 n].
Definition n_subtrees n E : nat := size (cls_list n E).
Definition labels n E : seq nat := [seq index (comps E i) (cls_list n E) | i <- iota 0 n].

(** np.where(labels == l) *)
Definition members n (labs : seq nat) l : seq nat := [seq i <- iota 0 n | nth 0%N labs i == l].
(** all_labels[current_labels == current_tree] *)
Definition restrict n (all_labels cur : seq nat) tree : seq nat := [seq nth 0%N all_labels i | i <- iota 0 n & nth 0%N cur i == tree].

Section Skater.
Variables (R : realDomainType) (n : nat) (ssr : seq nat -> option R).

(** Python dictionaries from labels to scores *)
Definition dict := seq (nat * R).
Fixpoint dget (d : dict) k : option R := match d with [::] => None | (k', v) :: d' => if k' == k then Some v else dget d' k end.
Fixpoint dset (d : dict) k v : dict := match d with [::] => [:: (k, v)] | (k', v') :: d' => if k' == k then (k, v) :: d' else (k', v') :: dset d' k v end.
Definition dsum (d : dict) : R := foldr (fun p acc => p.2 + acc) 0 d.

(** lines 338-430 score_spreg: trees_scores of the labels, None when quorum fails or a score is not finite *)
Fixpoint score_labels (all_labels : seq nat) (ls : seq nat) : option dict :=
  match ls with
  | [::] => Some [::]
  | l :: ls' => if ssr (members n all_labels l) is Some v then
      if score_labels all_labels ls' is Some d then Some ((l, v) :: d) else None else None
  end.
Definition score_spreg (all_labels : seq nat) (quorum : nat) (cur : seq nat) (tree : nat) : option (R * dict) :=
  let labs := restrict n all_labels cur tree in
  if has (fun l => (count_mem l labs < quorum)%N) (undup labs) then None
  else if score_labels all_labels (undup labs) is Some d then Some (dsum d, d) else None.

(** best candidate so far: deletion (edge, score), best_d_score, best_scores, best_MSF, best_labels *)
Record cand := Cand { b_edge : edge; b_score : R; b_d : R; b_dict : dict; b_msf : forest_t; b_labels : seq nat }.
(** lines 668-679: the dictionary of the new best candidate; an exception in the loop leaves new_trees_scores *)
Fixpoint carry (prev : dict) (ts : dict) (local_labels cur : seq nat) (is_ : seq nat) : option dict :=
  match is_ with
  | [::] => Some prev
  | i :: is' => if dget ts i is Some v then carry (dset prev (nth 0%N local_labels (index i cur)) v) ts local_labels cur is' else None
  end.
Definition new_dict (prev : dict) (ts : option dict) (new : dict) (local_labels cur : seq nat) : dict :=
  match ts with
  | None => new
  | Some d => if carry prev d local_labels cur (undup cur) is Some p then foldl (fun acc kv => dset acc kv.1 kv.2) p new else new
  end.
(** lines 624-682, one edge; None: raise Exception("Malformed MSF!") *)
Definition try_edge (MSF : forest_t) (cur_n : nat) (cur : seq nat) (quorum : nat) (ts : option dict) (best : option cand) (e : edge) : option (option cand) :=
  let local := [seq f <- MSF | f != e] in
  let tree := nth 0%N cur e.1 in
  let ll := labels n local in
  if (n_subtrees n local <= cur_n)%N then None else
  Some (match score_spreg ll quorum cur tree with
  | None => best
  | Some (new_score, new_ts) =>
    let '(d_score, score) :=
      match (if ts is Some d then dget d tree else None) with
      | Some v => let d := v - new_score in (d, dsum (odflt [::] ts) - d)
      | None => (- new_score, new_score)
      end in
    let better := if best is Some b then b_d b < d_score else true in
    if better then
      let prev := if best is Some b then b_dict b else [::] in
      Some (Cand e score d_score (new_dict prev ts new_ts ll cur) local ll)
    else best
  end).
Fixpoint cut_loop MSF cur_n cur quorum ts (best : option cand) (es : forest_t) : option (option cand) :=
  match es with
  | [::] => Some best
  | e :: es' => if try_edge MSF cur_n cur quorum ts best e is Some b then cut_loop MSF cur_n cur quorum ts b es' else None
  end.
(** line 684: local_n_subtrees is that of the last edge tried *)
Definition find_cut MSF cur_n cur quorum ts : option (option (cand * nat)) :=
  if cut_loop MSF cur_n cur quorum ts None MSF is Some best then
    Some (if best is Some b then Some (b, n_subtrees n [seq f <- MSF | f != last (0%N, 0%N) MSF]) else None)
  else None.

(** outcome of fit: an exception, or labels (None when no valid cut was found, line 686), forest, deletions in order, warning given *)
Inductive fit_res := Raise | Fitted (labels : option (seq nat)) (msf : forest_t) (trace : seq (seq nat * edge * R)) (warned : bool).
(** lines 283-331: prev = None is np.inf *)
Fixpoint fit_loop fuel (n_clusters quorum : nat) MSF cur_n cur ts (prev : option R) (trace : seq (seq nat * edge * R)) : fit_res :=
  if fuel is fuel'.+1 then
    if (cur_n < n_clusters)%N then
      match find_cut MSF cur_n cur quorum ts with
      | None => Raise
      | Some None => Fitted None MSF trace true
      | Some (Some (b, n')) =>
        if (if prev is Some p then p < b_score b else false) then Raise else
        fit_loop fuel' n_clusters quorum (b_msf b) n' (b_labels b) (Some (b_dict b)) (Some (b_score b)) (rcons trace (b_labels b, b_edge b, b_score b))
      end
    else Fitted (Some cur) MSF trace false
  else Raise.
(** lines 180-336 fit, from the spanning forest on; the fuel bounds the number of passes of the while loop *)
Definition fit (n_clusters quorum : nat) (ignore_islands : bool) (MSF : forest_t) : fit_res :=
  if (n <= n_clusters * quorum)%N then Raise else
  let cur_n := n_subtrees n MSF in let cur := labels n MSF in
  let k := if (1 < cur_n)%N && ~~ ignore_islands then (n_clusters + cur_n)%N else n_clusters in
  if (1 < cur_n)%N && has (fun l => (count_mem l cur < quorum)%N) (undup cur) then Raise else
  fit_loop k.+1 k quorum MSF cur_n cur None None [::].
End Skater.
