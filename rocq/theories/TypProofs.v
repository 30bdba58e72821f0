(** Lemmas for C94. *)
From Coq Require Import Lia.
From Verif Require Import PyBase RegimesModel RegimesSpec RegimesProofs OutModel OutProofs OutTheorems ChoTheorems TypModel.
Open Scope list_scope.
Open Scope nat_scope.

(** ** compress and positions *)
Lemma positions_negb m : positions false m = positions true (map negb m).
Proof.
  unfold positions. rewrite map_length. apply filter_ext_in. intros j Hj. apply in_seq in Hj. cbn [negb].
  replace false with (negb true) at 2 by reflexivity. rewrite map_nth. now destruct (nth j m true).
Qed.

Lemma compress_positions {A} (d : A) l m : List.length m = List.length l ->
  compress l m = map (fun j => nth j l d) (positions true m).
Proof.
  revert m. induction l as [|a l IH]; intros [|b m]; cbn [List.length]; intros H; try discriminate; [reflexivity|].
  rewrite positions_cons, map_app, map_map. cbn [compress nth]. rewrite (IH m) by lia. now destruct b.
Qed.

Lemma compress_app {A} (l1 l2 : list A) m1 m2 : List.length m1 = List.length l1 ->
  compress (l1 ++ l2) (m1 ++ m2) = compress l1 m1 ++ compress l2 m2.
Proof.
  revert m1. induction l1 as [|a l1 IH]; intros [|b m1]; cbn [List.length]; intros H; try discriminate; [reflexivity|].
  cbn [app compress]. rewrite IH by lia. now destruct b.
Qed.

Definition ntrue (m : list bool) : nat := List.length (filter (fun b => b) m).

Lemma compress_repeat {A} (t : A) m : compress (repeat t (List.length m)) m = repeat t (ntrue m).
Proof. induction m as [|b m IH]; [reflexivity|]. unfold ntrue in *. cbn [List.length repeat compress filter]. rewrite IH. now destruct b. Qed.

Lemma compress_map' {A B} (f : A -> B) l m : compress (map f l) m = map f (compress l m).
Proof. revert m. induction l as [|a l IH]; intros [|b m]; try reflexivity. cbn [map compress]. rewrite IH. now destruct b. Qed.

Lemma compress_all {A} (l : list A) m : List.length m = List.length l -> forallb (fun b => b) m = true -> compress l m = l.
Proof.
  revert m. induction l as [|a l IH]; intros [|b m]; cbn [List.length forallb]; intros H Hm; try discriminate; [reflexivity|].
  apply andb_prop in Hm. destruct Hm as (Hb & Hm). subst b. cbn. now rewrite IH by (try lia; assumption).
Qed.

Lemma compress_none {A} (l : list A) m : forallb negb m = true -> compress l m = [].
Proof.
  revert m. induction l as [|a l IH]; intros [|b m]; cbn [forallb]; intros Hm; try reflexivity.
  apply andb_prop in Hm. destruct Hm as (Hb & Hm). destruct b; [discriminate|]. cbn. now apply IH.
Qed.

Lemma ntrue_negb m : ntrue m + ntrue (map negb m) = List.length m.
Proof. unfold ntrue. induction m as [|[] m IH]; cbn [map negb filter List.length]; lia. Qed.

Lemma ntrue_le m : ntrue m <= List.length m.
Proof. pose proof (ntrue_negb m). lia. Qed.

(** ** lastn, relabel *)
Lemma lastn_app {A} (l1 l2 : list A) k : k = List.length l2 -> 0 < k -> lastn k (l1 ++ l2) = l2.
Proof.
  intros -> Hk. unfold lastn. destruct (Nat.eqb_spec (List.length l2) 0); [lia|].
  rewrite app_length, Nat.add_sub, skipn_app, skipn_all, Nat.sub_diag. reflexivity.
Qed.

Definition sfx (n k : nat) : nat := if Nat.eqb k 0 then n else Nat.min k n.

Lemma lastn_seq k a n : lastn k (seq a n) = seq (a + (n - sfx n k)) (sfx n k).
Proof.
  unfold lastn, sfx. destruct (Nat.eqb_spec k 0); [rewrite Nat.sub_diag, Nat.add_0_r; reflexivity|].
  rewrite seq_length. replace n with ((n - k) + Nat.min k n) at 2 by lia. rewrite seq_app, skipn_app, seq_length, Nat.sub_diag.
  rewrite skipn_all2 by (rewrite seq_length; lia). cbn [app skipn]. f_equal; lia.
Qed.

Section Relabel.
Context {R : Type}.
Notation trow := (@trow R).

Definition relabel_from (i : nat) (idx : list nat) (rows : list trow) : list trow :=
  map (fun '(i, r) => if existsb (Nat.eqb i) idx then set_wx r else r) (combine (seq i (List.length rows)) rows).

Lemma relabel_from_app i idx a b :
  relabel_from i idx (a ++ b) = relabel_from i idx a ++ relabel_from (i + List.length a) idx b.
Proof.
  unfold relabel_from. rewrite app_length, seq_app. rewrite OutTheorems.combine_app by (now rewrite seq_length). now rewrite map_app.
Qed.

Lemma existsb_seq i a n : existsb (Nat.eqb i) (seq a n) = ((a <=? i) && (i <? a + n))%bool.
Proof.
  apply eq_true_iff_eq. rewrite existsb_exists, andb_true_iff, Nat.leb_le, Nat.ltb_lt. split.
  - intros (x & Hx & E). apply Nat.eqb_eq in E. subst. apply in_seq in Hx. lia.
  - intros H. exists i. split; [apply in_seq; lia|apply Nat.eqb_refl].
Qed.

Lemma relabel_from_in i a n rows : a <= i -> i + List.length rows <= a + n -> relabel_from i (seq a n) rows = map set_wx rows.
Proof.
  intros Ha Hn. unfold relabel_from. revert i Ha Hn. induction rows as [|r rows IH]; intros i Ha Hn; [reflexivity|].
  cbn [List.length seq combine map] in *. rewrite IH by lia. rewrite existsb_seq.
  replace (a <=? i) with true by (symmetry; apply Nat.leb_le; lia). replace (i <? a + n) with true by (symmetry; apply Nat.ltb_lt; lia). reflexivity.
Qed.

Lemma relabel_from_out i a n rows : i + List.length rows <= a \/ a + n <= i -> relabel_from i (seq a n) rows = rows.
Proof.
  intros H. unfold relabel_from. revert i H. induction rows as [|r rows IH]; intros i H; [reflexivity|].
  cbn [List.length seq combine map] in *. rewrite IH by lia. rewrite existsb_seq.
  destruct H; [replace (a <=? i) with false by (symmetry; apply Nat.leb_gt; lia)
              |replace (i <? a + n) with false by (symmetry; apply Nat.ltb_ge; lia); rewrite andb_false_r]; reflexivity.
Qed.

Lemma relabel_mid (P Q T : list trow) : relabel (seq (List.length P) (List.length Q)) (P ++ Q ++ T) = P ++ map set_wx Q ++ T.
Proof.
  change (relabel_from 0 (seq (List.length P) (List.length Q)) (P ++ Q ++ T) = P ++ map set_wx Q ++ T).
  rewrite relabel_from_app, relabel_from_app. rewrite relabel_from_out by lia. rewrite relabel_from_in by lia.
  rewrite relabel_from_out by lia. reflexivity.
Qed.
End Relabel.

(** ** The relabelling loop *)
Section Loop.
Context {R : Type} (reqb : R -> R -> bool).
Hypothesis reqb_spec : forall a b, reqb a b = true <-> a = b.

Definition mk (g : option R) (t : vtype) : trow := {| t_type := t; t_reg := g |}.
Definition blk (b : list vtype) (r : R) : list trow := map (mk (Some r)) b.

Lemma oreqb_spec a b : oreqb reqb a b = true <-> a = b.
Proof.
  destruct a as [a|], b as [b|]; cbn; split; intros H; try discriminate; try reflexivity.
  - f_equal. now apply reqb_spec.
  - injection H as H. now apply reqb_spec.
Qed.

Lemma wx_step_mid f m (A B C : list trow) :
  (forall r, In r A -> is_xo reqb m r = false) -> (forall r, In r B -> is_xo reqb m r = true) -> (forall r, In r C -> is_xo reqb m r = false) ->
  wx_step reqb f (A ++ B ++ C) m =
  A ++ (firstn (List.length B - sfx (List.length B) (f (List.length B))) B
        ++ map set_wx (skipn (List.length B - sfx (List.length B) (f (List.length B))) B)) ++ C.
Proof.
  intros HA HB HC. unfold wx_step.
  assert (E : where_ (is_xo reqb m) (A ++ B ++ C) = seq (List.length A) (List.length B)).
  { unfold where_. rewrite !where_from_app. rewrite where_from_none by exact HA. rewrite where_from_all by exact HB.
    rewrite where_from_none by exact HC. cbn [app]. now rewrite app_nil_r. }
  rewrite E, seq_length, lastn_seq. set (n := List.length B). set (s := sfx n (f n)).
  assert (Hs : s <= n) by (unfold s, sfx; destruct (Nat.eqb _ _); lia).
  rewrite <- (firstn_skipn (n - s) B) at 1. rewrite <- !app_assoc. rewrite (app_assoc A).
  replace (List.length A + (n - s)) with (List.length (A ++ firstn (n - s) B)) by (rewrite app_length, firstn_length; fold n; lia).
  assert (Ls : s = List.length (skipn (n - s) B)) by (rewrite skipn_length; fold n; lia).
  rewrite Ls at 2. rewrite relabel_mid. now rewrite <- app_assoc.
Qed.

Definition newb (f : nat -> nat) (b : list vtype) : list vtype :=
  let s := sfx (List.length b) (f (List.length b)) in firstn (List.length b - s) b ++ repeat TWX s.

Lemma wx_fold f b regs : forall A tail, NoDup regs -> (forall t, In t b -> t = TX \/ t = TO) ->
  (forall r, In r A -> forall m, In m regs -> is_xo reqb m r = false) ->
  (forall r, In r tail -> forall m, In m regs -> is_xo reqb m r = false) ->
  fold_left (wx_step reqb f) regs (A ++ flat_map (blk b) regs ++ tail) = A ++ flat_map (blk (newb f b)) regs ++ tail.
Proof.
  induction regs as [|m regs IH]; intros A tail Hd Hb HA Ht; [reflexivity|].
  inversion Hd as [|? ? Hm Hd']; subst. cbn [fold_left flat_map]. rewrite <- (app_assoc (blk b m)).
  rewrite wx_step_mid.
  - assert (E : firstn (List.length (blk b m) - sfx (List.length (blk b m)) (f (List.length (blk b m)))) (blk b m) ++
                map set_wx (skipn (List.length (blk b m) - sfx (List.length (blk b m)) (f (List.length (blk b m)))) (blk b m)) = blk (newb f b) m).
    { unfold blk, newb. rewrite !map_length, map_app. cbv zeta. set (s := sfx _ _). rewrite firstn_map. f_equal.
      rewrite skipn_map, map_map.
      assert (Hs : s <= List.length b) by (unfold s, sfx; destruct (Nat.eqb _ _); lia).
      assert (L : List.length (skipn (List.length b - s) b) = s) by (rewrite skipn_length; lia).
      rewrite <- L at 2. clear L. generalize (skipn (List.length b - s) b). intros l. induction l as [|t l IHl]; [reflexivity|].
      cbn [List.length repeat map]. f_equal. exact IHl. }
    rewrite E. rewrite (app_assoc A), (app_assoc A). rewrite (IH (A ++ blk (newb f b) m)); try assumption.
    + now rewrite <- !app_assoc.
    + intros r Hr m' Hm'. apply in_app_or in Hr. destruct Hr as [Hr|Hr]; [apply HA; [exact Hr|now right]|].
      unfold blk in Hr. apply in_map_iff in Hr. destruct Hr as (t & <- & _). unfold is_xo. cbn.
      destruct (reqb m m') eqn:Em; [|reflexivity]. apply reqb_spec in Em. subst. contradiction.
    + intros r Hr m' Hm'. apply Ht; [exact Hr|now right].
  - intros r Hr. apply HA; [exact Hr|now left].
  - intros r Hr. unfold blk in Hr. apply in_map_iff in Hr. destruct Hr as (t & <- & Ht'). unfold is_xo. cbn.
    rewrite (proj2 (reqb_spec m m)) by reflexivity. destruct (Hb t Ht') as [-> | ->]; reflexivity.
  - intros r Hr. apply in_app_or in Hr. destruct Hr as [Hr|Hr]; [|apply Ht; [exact Hr|now left]].
    apply in_flat_map in Hr. destruct Hr as (m' & Hm' & Hr). unfold blk in Hr. apply in_map_iff in Hr. destruct Hr as (t & <- & _).
    unfold is_xo. cbn. destruct (reqb m' m) eqn:Em; [|reflexivity]. apply reqb_spec in Em. subst. contradiction.
Qed.

Lemma wx_fold0 f b regs tail : NoDup regs -> (forall t, In t b -> t = TX \/ t = TO) ->
  (forall r, In r tail -> forall m, In m regs -> is_xo reqb m r = false) ->
  fold_left (wx_step reqb f) regs (flat_map (blk b) regs ++ tail) = flat_map (blk (newb f b)) regs ++ tail.
Proof. intros Hd Hb Ht. apply (wx_fold f b regs [] tail Hd Hb); [intros r []|exact Ht]. Qed.

(** ** Unique values *)
Lemma filter_idem {A} (p : A -> bool) l : filter p (filter p l) = filter p l.
Proof. induction l as [|a l IH]; [reflexivity|]. cbn. destruct (p a) eqn:E; [cbn; rewrite E, IH|]; auto. Qed.

Lemma uniq_repeat {A} (eqb : A -> A -> bool) (Heq : forall a b, eqb a b = true <-> a = b) a n l :
  uniq eqb (repeat a (S n) ++ l) = a :: filter (fun b => negb (eqb a b)) (uniq eqb l).
Proof.
  induction n as [|n IH]; [reflexivity|]. change (repeat a (S (S n)) ++ l) with (a :: (repeat a (S n) ++ l)). cbn [uniq]. rewrite IH.
  cbn [filter]. rewrite (proj2 (Heq a a) eq_refl). cbn [negb]. now rewrite filter_idem.
Qed.

Lemma uniq_In {A} (eqb : A -> A -> bool) (Heq : forall a b, eqb a b = true <-> a = b) l a : In a (uniq eqb l) <-> In a l.
Proof.
  induction l as [|b l IH]; [reflexivity|]. cbn [uniq]. split.
  - intros [-> |H]; [now left|]. apply filter_In in H. right. now apply IH.
  - intros [-> |H]; [now left|]. destruct (eqb b a) eqn:E; [left; now apply Heq|]. right. apply filter_In. split; [now apply IH|now rewrite E].
Qed.

Lemma uniq_NoDup {A} (eqb : A -> A -> bool) (Heq : forall a b, eqb a b = true <-> a = b) l : NoDup (uniq eqb l).
Proof.
  induction l as [|b l IH]; [constructor|]. cbn [uniq]. constructor.
  - intros H. apply filter_In in H. destruct H as (_ & H). rewrite (proj2 (Heq b b) eq_refl) in H. discriminate.
  - now apply NoDup_filter.
Qed.

Lemma uniq_blocks d e regs : NoDup regs ->
  uniq (oreqb reqb) (flat_map (fun r => repeat (Some r) (S d)) regs ++ repeat None (S e)) = map Some regs ++ [None].
Proof.
  induction regs as [|r regs IH]; intros Hd.
  - cbn [flat_map app map]. rewrite <- (app_nil_r (repeat None (S e))). rewrite (uniq_repeat _ oreqb_spec). reflexivity.
  - inversion Hd; subst. cbn [flat_map]. rewrite <- app_assoc. rewrite (uniq_repeat _ oreqb_spec). rewrite IH by assumption.
    rewrite filter_app. cbn [map filter oreqb negb app]. f_equal. f_equal.
    apply filter_all. intros b Hb. apply in_map_iff in Hb. destruct Hb as (m & <- & Hm). cbn.
    destruct (reqb r m) eqn:E; [|reflexivity]. apply reqb_spec in E. subst. contradiction.
Qed.

(** ** Selected rows *)
Lemma where_at {A B} (g : A -> B) (p : B -> bool) (C : list A) :
  map (fun i => nth_error C i) (where_ p (map g C)) = map Some (filter (fun c => p (g c)) C).
Proof.
  unfold where_.
  assert (G : forall D, map (fun i => nth_error (D ++ C) i) (where_from p (List.length D) (map g C)) = map Some (filter (fun c => p (g c)) C));
    [|exact (G [])].
  induction C as [|c C IH]; intros D; [reflexivity|]. cbn [map where_from filter].
  assert (E : map (fun i => nth_error (D ++ c :: C) i) (where_from p (S (List.length D)) (map g C)) = map Some (filter (fun c => p (g c)) C)).
  { specialize (IH (D ++ [c])). rewrite app_length in IH. cbn [List.length] in IH. rewrite Nat.add_1_r in IH. rewrite <- IH.
    apply map_ext. intros i. now rewrite <- app_assoc. }
  destruct (p (g c)); [|exact E]. cbn [map]. rewrite E. f_equal. rewrite nth_error_app2, Nat.sub_diag by lia. reflexivity.
Qed.

Lemma where_length {A} (p : A -> bool) l : List.length (where_ p l) = List.length (filter p l).
Proof.
  unfold where_. generalize 0. induction l as [|a l IH]; intros i; [reflexivity|]. cbn [where_from filter].
  destruct (p a); cbn [List.length]; now rewrite IH.
Qed.

Lemma partition_length {A} (g : A -> option R) (p : A -> bool) (C : list A) (U : list (option R)) : NoDup U ->
  (forall c, In c C -> In (g c) U) ->
  List.length (flat_map (fun m => filter (fun c => (oreqb reqb (g c) m && p c)%bool) C) U) = List.length (filter p C).
Proof.
  intros Hd. induction C as [|c C IH]; intros HC.
  - cbn [filter]. clear. induction U; [reflexivity|assumption].
  - cbn [filter].
    assert (Hc : In (g c) U) by (apply HC; now left).
    assert (E : List.length (flat_map (fun m => if (oreqb reqb (g c) m && p c)%bool then c :: filter (fun c => (oreqb reqb (g c) m && p c)%bool) C
                    else filter (fun c => (oreqb reqb (g c) m && p c)%bool) C) U)
                = List.length (flat_map (fun m => filter (fun c => (oreqb reqb (g c) m && p c)%bool) C) U) + if p c then 1 else 0).
    { clear IH HC. induction U as [|u U IHU]; [contradiction|]. inversion Hd as [|? ? Hu Hd']; subst.
      cbn [flat_map]. rewrite !app_length. destruct (oreqb reqb (g c) u) eqn:Eu.
      - apply oreqb_spec in Eu. subst u.
        assert (E2 : flat_map (fun m => if (oreqb reqb (g c) m && p c)%bool then c :: filter (fun c => (oreqb reqb (g c) m && p c)%bool) C
                    else filter (fun c => (oreqb reqb (g c) m && p c)%bool) C) U = flat_map (fun m => filter (fun c => (oreqb reqb (g c) m && p c)%bool) C) U).
        { clear -Hu reqb_spec. induction U as [|v U IHU]; [reflexivity|]. cbn [flat_map]. rewrite IHU by (intros H; apply Hu; now right). f_equal.
          destruct (oreqb reqb (g c) v) eqn:E; [|reflexivity]. apply oreqb_spec in E. exfalso. apply Hu. now left. }
        rewrite E2. cbn [andb]. destruct (p c); cbn [List.length]; lia.
      - cbn [andb]. destruct Hc as [Hc|Hc]; [subst u; rewrite (proj2 (oreqb_spec _ _) eq_refl) in Eu; discriminate|].
        rewrite IHU by assumption. lia. }
    rewrite E, IH by (intros c' Hc'; apply HC; now right). destruct (p c); cbn [List.length]; lia.
Qed.
End Loop.
