(** Lemmas on the coefficient table. *)
From Verif Require Import PyBase RegimesModel RegimesProofs RegimesProofs2 OutModel.
From Coq Require Import Permutation Sorted.
Open Scope string_scope.
Open Scope list_scope.
Open Scope nat_scope.

Lemma isort_map {A B} (le : B -> B -> bool) (f : A -> B) l :
  isort le (map f l) = map f (isort (fun a b => le (f a) (f b)) l).
Proof.
  induction l as [|a l IH]; [reflexivity|]. cbn [map isort fold_right]. change (fold_right (insert le) [] (map f l)) with (isort le (map f l)).
  rewrite IH. change (fold_right (insert (fun a b => le (f a) (f b))) [] l) with (isort (fun a b => le (f a) (f b)) l).
  generalize (isort (fun a b => le (f a) (f b)) l). intros m. induction m as [|b m IHm]; [reflexivity|].
  cbn [map insert]. destruct (le (f a) (f b)); [reflexivity|]. cbn [map]. now rewrite IHm.
Qed.

Lemma isort_ext {A} (le le' : A -> A -> bool) l : (forall a b, In a l -> In b l -> le a b = le' a b) -> isort le l = isort le' l.
Proof.
  induction l as [|a l IH]; intros H; [reflexivity|]. cbn. change (fold_right (insert le) [] l) with (isort le l).
  change (fold_right (insert le') [] l) with (isort le' l).
  rewrite IH by (intros; apply H; now right).
  assert (Hp : forall b, In b (isort le' l) -> In b l) by (intros b Hb; eapply Permutation_in; [apply sort_perm|exact Hb]).
  clear IH. revert Hp. generalize (isort le' l). intros m Hp. induction m as [|b m IHm]; [reflexivity|].
  cbn [insert]. rewrite (H a b) by (cbn; auto with datatypes; right; apply Hp; now left).
  destruct (le' a b); [reflexivity|]. rewrite IHm; [reflexivity|]. intros; apply Hp; now right.
Qed.

Lemma isort_id o k : isort Nat.leb (seq o k) = seq o k.
Proof.
  revert o. induction k as [|k IH]; intros o; [reflexivity|]. cbn.
  change (fold_right (insert Nat.leb) [] (seq (S o) k)) with (isort Nat.leb (seq (S o) k)). rewrite IH.
  destruct k as [|k]; [reflexivity|]. cbn [seq insert]. replace (o <=? S o) with true by (symmetry; apply Nat.leb_le; lia). reflexivity.
Qed.

(** Inserting from the right into a list whose earlier positions are smaller: ties keep their order. *)
Lemma insert_stable {A} (le lt : A -> A -> bool) a l :
  (forall x y, le x y = true \/ le y x = true) ->
  (forall b, In b l -> lt a b = true) ->
  let le3 := fun x y => le x y = true /\ (le y x = true -> lt x y = true) in
  Sorted le3 l -> Sorted le3 (insert le a l).
Proof.
  intros Htot Hlt le3 Hs. induction l as [|b l IH].
  { repeat constructor. }
  cbn [insert]. destruct (le a b) eqn:E.
  - constructor; [exact Hs|]. constructor. split; [exact E|]. intros _. apply Hlt. now left.
  - inversion Hs as [|? ? Hs' Hd]; subst. constructor; [apply IH; auto with datatypes|].
    assert (Hba : le3 b a).
    { split; [destruct (Htot a b); congruence|]. intros; congruence. }
    destruct l as [|c l]; cbn [insert]; [now constructor|].
    destruct (le a c); constructor; auto. now inversion Hd.
Qed.

Lemma isort_stable {A} (le lt : A -> A -> bool) l :
  (forall x y, le x y = true \/ le y x = true) ->
  StronglySorted (fun x y => lt x y = true) l ->
  Sorted (fun x y => le x y = true /\ (le y x = true -> lt x y = true)) (isort le l).
Proof.
  intros Htot Hs. induction Hs as [|a l Hs IH Hf]; [constructor|]. cbn.
  change (fold_right (insert le) [] l) with (isort le l).
  apply (insert_stable le lt); auto. intros b Hb. rewrite Forall_forall in Hf. apply Hf.
  eapply Permutation_in; [apply sort_perm|exact Hb].
Qed.

Section Out.
Context {F R : Type} (leb eqb : R -> R -> bool).
Hypothesis eqb_spec : forall a b, eqb a b = true <-> a = b.

Notation orow := (@orow F R).
Notation fit := (@fit F).

Definition set_row (r : orow) (f : fit) (i : nat) : orow :=
  {| r_lab := r_lab r; r_name := r_name r; r_type := r_type r; r_regime := r_regime r; r_eq := r_eq r;
     r_coef := nth_error (f_betas f) i; r_se := nth_error (f_se f) i; r_zt := nth_error (f_zt f) i |}.

Lemma index_of_seq o k i : i < k -> index_of (o + i) (map (fun j => o + j) (seq 0 k)) = Some i.
Proof.
  intros Hi. assert (G : forall s n, s <= i < s + n -> index_of (o + i) (map (fun j => o + j) (seq s n)) = Some (i - s)).
  { intros s n; revert s. induction n as [|n IH]; intros s Hs; [lia|]. cbn [seq map index_of].
    destruct (Nat.eqb (o + s) (o + i)) eqn:E.
    - apply Nat.eqb_eq in E. f_equal. lia.
    - apply Nat.eqb_neq in E. rewrite IH by lia. cbn. f_equal. lia. }
  rewrite G by lia. f_equal. lia.
Qed.

Lemma index_of_none l ls : ~ In l ls -> index_of l ls = None.
Proof.
  induction ls as [|a ls IH]; intros H; [reflexivity|]. cbn. destruct (Nat.eqb a l) eqn:E.
  - apply Nat.eqb_eq in E. elim H. now left.
  - rewrite IH; [reflexivity|]. intros Hi; apply H; now right.
Qed.

Lemma filter_none {A} (p : A -> bool) l : (forall a, In a l -> p a = false) -> filter p l = [].
Proof. induction l as [|a l IH]; intros H; [reflexivity|]. cbn. rewrite H by now left. apply IH. intros; apply H; now right. Qed.
Lemma filter_all {A} (p : A -> bool) l : (forall a, In a l -> p a = true) -> filter p l = l.
Proof. induction l as [|a l IH]; intros H; [reflexivity|]. cbn. rewrite H by now left. f_equal. apply IH. intros; apply H; now right. Qed.

Variables (pre post : list orow) (mk : nat -> orow) (o k : nat) (m : R).
Hypothesis Hout : forall r, In r (pre ++ post) -> r_eq r <> m /\ (r_lab r < o \/ o + k <= r_lab r).
Hypothesis Hmk : forall i, i < k -> r_eq (mk i) = m /\ r_lab (mk i) = o + i /\ r_coef (mk i) = None /\
  r_se (mk i) = None /\ r_zt (mk i) = None.

Lemma filter_block (g : nat -> orow) : (forall i, i < k -> r_eq (g i) = m) ->
  filter (fun r => eqb (r_eq r) m) (pre ++ map g (seq 0 k) ++ post) = map g (seq 0 k).
Proof.
  intros Hg. rewrite !filter_app. rewrite (filter_none _ pre), (filter_none _ post), app_nil_r, filter_all; [reflexivity| | |].
  - intros r Hr. apply in_map_iff in Hr. destruct Hr as (i & <- & Hi). apply in_seq in Hi. apply eqb_spec. apply Hg. lia.
  - intros r Hr. destruct (Hout r) as (H & _); [apply in_or_app; now right|].
    destruct (eqb (r_eq r) m) eqn:E; [|reflexivity]. apply eqb_spec in E. contradiction.
  - intros r Hr. destruct (Hout r) as (H & _); [apply in_or_app; now left|].
    destruct (eqb (r_eq r) m) eqn:E; [|reflexivity]. apply eqb_spec in E. contradiction.
Qed.

Lemma labs_block : map r_lab (map mk (seq 0 k)) = map (fun j => o + j) (seq 0 k).
Proof. rewrite map_map. apply map_ext_in. intros i Hi. apply in_seq in Hi. now apply Hmk. Qed.

Lemma fill_block f : List.length (f_betas f) = k -> List.length (f_zt f) <= k -> 
  fill eqb (pre ++ map mk (seq 0 k) ++ post) m f =
  Ok (pre ++ map (fun i => set_row (mk i) f i) (seq 0 k) ++ post).
Proof.
  intros Hb Hz. unfold fill. rewrite filter_block by (intros i Hi; apply Hmk, Hi).
  rewrite labs_block, map_length, seq_length, Hb, Nat.max_l, Nat.eqb_refl by lia. f_equal.
  rewrite !map_app, map_map.
  assert (Hsame : forall r, In r (pre ++ post) -> index_of (r_lab r) (map (fun j => o + j) (seq 0 k)) = None).
  { intros r Hr. apply index_of_none. rewrite in_map_iff. intros (j & Ej & Hj). apply in_seq in Hj.
    destruct (Hout r Hr) as (_ & H). lia. }
  f_equal; [|f_equal].
  - rewrite <- (map_id pre) at 2. apply map_ext_in. intros r Hr. rewrite Hsame; [reflexivity|]. apply in_or_app; now left.
  - apply map_ext_in. intros i Hi. apply in_seq in Hi. destruct (Hmk i) as (E1 & E2 & E3 & E4 & E5); [lia|].
    rewrite E2, index_of_seq by lia. unfold set_row. rewrite E3, E4, E5, E2. cbn [upd].
    assert (E : i <? k = true) by (apply Nat.ltb_lt; lia). rewrite E.
    assert (G : forall A (a : option A), upd None a = a) by (intros A [a|]; reflexivity). rewrite !G. reflexivity.
  - rewrite <- (map_id post) at 2. apply map_ext_in. intros r Hr. rewrite Hsame; [reflexivity|]. apply in_or_app; now right.
Qed.

(** The printed row of variable i *)
Definition the_line (f : fit) (d : F) (i : nat) : line :=
  match nth_error (f_se f) i, nth_error (f_zt f) i with
  | Some s, Some (z, p) => LFull (r_name (mk i)) (nth i (f_betas f) d) s z p
  | _, _ => LCoef (r_name (mk i)) (nth i (f_betas f) d)
  end.

Lemma middle_block f d : List.length (f_betas f) = k -> List.length (f_zt f) <= k -> 
  out_part_middle leb eqb (pre ++ map mk (seq 0 k) ++ post) m f =
  Ok (pre ++ map (fun i => set_row (mk i) f i) (seq 0 k) ++ post,
      map (the_line f d) (isort (fun i j => row_le leb (mk i) (mk j)) (seq 0 k))).
Proof.
  intros Hb Hz. unfold out_part_middle. rewrite fill_block by assumption. cbn [bind].
  rewrite (filter_block (fun i => set_row (mk i) f i)) by (intros i Hi; cbn; apply Hmk, Hi).
  rewrite isort_map.
  rewrite (isort_ext (fun a b => row_le leb (set_row (mk a) f a) (set_row (mk b) f b)) (fun i j => row_le leb (mk i) (mk j)))
    by reflexivity.
  rewrite (mapM_map _ (fun r => match r_coef r, r_se r, r_zt r with
     | Some c, Some s, Some (z, p) => LFull (r_name r) c s z p | Some c, _, _ => LCoef (r_name r) c | None, _, _ => LCoef (r_name r) d end)).
  - cbn [bind]. do 2 f_equal. rewrite map_map. apply map_ext_in. intros i Hi.
    apply (Permutation_in _ (sort_perm _ _)) in Hi. apply in_seq in Hi.
    unfold the_line, set_row. cbn [r_coef r_se r_zt r_name].
    rewrite (nth_error_nth' (f_betas f) d) by lia.
    destruct (nth_error (f_se f) i) as [s|]; [|reflexivity]. destruct (nth_error (f_zt f) i) as [[z p]|]; reflexivity.
  - intros r Hr. apply in_map_iff in Hr. destruct Hr as (i & <- & Hi). apply (Permutation_in _ (sort_perm _ _)) in Hi.
    apply in_seq in Hi. unfold show_row, set_row. cbn [r_coef r_se r_zt r_name].
    rewrite (nth_error_nth' (f_betas f) d) by lia.
    destruct (nth_error (f_se f) i) as [s|]; [|reflexivity]. destruct (nth_error (f_zt f) i) as [[z p]|]; reflexivity.
Qed.
End Out.
