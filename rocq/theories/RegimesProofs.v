From Verif Require Import PyBase RegimesModel RegimesSpec.
From Coq Require Import Permutation Sorted Ring_theory Ring.
Open Scope string_scope.
Open Scope list_scope.
Open Scope nat_scope.

(** where_ *)
Lemma where_from_app {A} (p : A -> bool) i l1 l2 :
  where_from p i (l1 ++ l2) = where_from p i l1 ++ where_from p (i + List.length l1) l2.
Proof.
  revert i; induction l1 as [|a l1 IH]; intros i; cbn [where_from app List.length].
  - now rewrite Nat.add_0_r.
  - rewrite IH. replace (S i + List.length l1) with (i + S (List.length l1)) by lia. destruct (p a); reflexivity.
Qed.

Lemma where_from_all {A} (p : A -> bool) i l : (forall a, In a l -> p a = true) -> where_from p i l = seq i (List.length l).
Proof.
  revert i; induction l as [|a l IH]; intros i H; cbn; auto. rewrite (H a) by (cbn; auto).
  f_equal. apply IH. intros; apply H; cbn; auto.
Qed.

Lemma where_from_none {A} (p : A -> bool) i l : (forall a, In a l -> p a = false) -> where_from p i l = [].
Proof.
  revert i; induction l as [|a l IH]; intros i H; cbn; auto. rewrite (H a) by (cbn; auto).
  apply IH. intros; apply H; cbn; auto.
Qed.

Lemma where_from_In {A} (p : A -> bool) i l j : In j (where_from p i l) <->
  exists m a, j = i + m /\ nth_error l m = Some a /\ p a = true.
Proof.
  revert i; induction l as [|b l IH]; intros i; cbn [where_from].
  - split; [contradiction|]. intros (m & a & _ & H & _). destruct m; discriminate H.
  - assert (G : In j (where_from p (S i) l) <-> exists m a, j = i + S m /\ nth_error l m = Some a /\ p a = true).
    { rewrite IH. split; intros (m & a & -> & H); exists m, a; (split; [lia|exact H]). }
    destruct (p b) eqn:E; cbn [In]; rewrite G; split.
    + intros [<-|(m & a & -> & H)]; [exists 0, b|exists (S m), a]; split; auto; lia.
    + intros ([|m] & a & -> & H & Ha); [left; lia|right; exists m, a; auto].
    + intros (m & a & -> & H); exists (S m), a; auto.
    + intros ([|m] & a & -> & H & Ha); [cbn in H; congruence|exists m, a; auto].
Qed.

Lemma where_In {A} (p : A -> bool) l j : In j (where_ p l) <-> exists a, nth_error l j = Some a /\ p a = true.
Proof.
  unfold where_. rewrite where_from_In. split.
  - intros (m & a & -> & H). eauto.
  - intros (a & H). exists j, a. auto.
Qed.

Lemma where_length_split l : List.length (where_ is_true_ l) + List.length (where_ is_false_ l) = List.length l.
Proof.
  unfold where_. generalize 0. induction l as [|b l IH]; intros i; [reflexivity|].
  pose proof (IH (S i)) as E. destruct b; cbn [where_from]; [change (is_true_ true) with true|change (is_true_ false) with false];
    [change (is_false_ true) with false|change (is_false_ false) with true]; cbn iota; cbn [List.length]; lia.
Qed.

(** take_idx *)
Lemma take_idx_map {A} (l : list A) idx d : (forall i, In i idx -> i < List.length l) ->
  take_idx l idx = Ok (map (fun i => nth i l d) idx).
Proof.
  induction idx as [|i idx IH]; intros H; cbn; auto.
  destruct (nth_error l i) eqn:E.
  - rewrite IH by (intros; apply H; cbn; auto). cbn. now rewrite (nth_error_nth _ _ d E).
  - apply nth_error_None in E. specialize (H i (or_introl eq_refl)). lia.
Qed.

Lemma mapM_map {A B} (f : A -> res B) g l : (forall a, In a l -> f a = Ok (g a)) -> mapM f l = Ok (map g l).
Proof.
  induction l as [|a l IH]; intros H; cbn; auto. rewrite (H a) by (cbn; auto). cbn.
  rewrite IH by (intros; apply H; cbn; auto). reflexivity.
Qed.

Section Ring.
Context {F : Type} {f0 f1 : F} {fadd fmul fsub : F -> F -> F} {fopp : F -> F}.
Context (Rth : ring_theory f0 f1 fadd fmul fsub fopp eq).
Add Ring FR : Rth.
Notation fsum := (fsum f0 fadd).
Context {ID : Type} (ideq : forall a b : ID, {a = b} + {a <> b}).
Notation idb := (idb ideq).
Notation csr_cell := (csr_cell f0 fadd).

Lemma idb_refl a : idb a a = true.
Proof. unfold RegimesModel.idb. destruct (ideq a a); congruence. Qed.
Lemma idb_neq a b : a <> b -> idb a b = false.
Proof. unfold RegimesModel.idb. destruct (ideq a b); congruence. Qed.

(** csr_cell outside / inside a run of indices *)
Lemma csr_cell_out idx data j : ~ In j idx -> csr_cell idx data j = f0.
Proof.
  unfold RegimesModel.csr_cell. intros H.
  replace (filter (fun p => Nat.eqb (fst p) j) (combine idx data)) with (@nil (nat * F)); auto.
  symmetry. revert data; induction idx as [|i idx IH]; intros [|d data]; cbn; auto.
  destruct (Nat.eqb_spec i j) as [->|]; [exfalso; apply H; cbn; auto|]. apply IH. intros H'; apply H; cbn; auto.
Qed.

Lemma csr_cells_run o data : map (csr_cell (seq o (List.length data)) data) (seq o (List.length data)) = data.
Proof.
  revert o; induction data as [|d data IH]; intros o; cbn [List.length seq map]; auto. f_equal.
  - unfold RegimesModel.csr_cell. cbn [combine filter fst]. rewrite Nat.eqb_refl. cbn [map snd].
    assert (E : forall l (dt : list F), (forall i, In i l -> o < i) -> filter (fun p => Nat.eqb (fst p) o) (combine l dt) = []).
    { intros l; induction l as [|i l IHl]; intros [|e dt] Hl; cbn; auto.
      destruct (Nat.eqb_spec i o); [specialize (Hl i (or_introl eq_refl)); lia|]. apply IHl. intros; apply Hl; cbn; auto. }
    rewrite E by (intros i Hi; apply in_seq in Hi; lia). cbn. unfold RegimesModel.fsum; cbn. ring.
  - etransitivity; [|apply (IH (S o))]. apply map_ext_in. intros j Hj. apply in_seq in Hj.
    unfold RegimesModel.csr_cell. cbn [combine filter fst]. destruct (Nat.eqb_spec o j); [lia|reflexivity].
Qed.

Lemma map_const_repeat {A B} (f : A -> B) c l : (forall a, In a l -> f a = c) -> map f l = repeat c (List.length l).
Proof. induction l as [|a l IH]; cbn; intros H; auto. rewrite H by auto. f_equal. apply IH; auto. Qed.

(** one row of x2xsp, as blocks *)
Definition blocks (k : nat) (regimes_set : list ID) (r : ID) (data : list F) : list F :=
  flat_map (fun s => if ideq r s then data else repeat f0 k) regimes_set.

Lemma in_flat_repeat (regimes_set : list ID) k a : In a (flat_map (fun s => repeat s k) regimes_set) -> In a regimes_set.
Proof. rewrite in_flat_map. intros (s & Hs & H). apply repeat_spec in H. now subst. Qed.

Lemma flat_repeat_length (l : list ID) k : List.length (flat_map (fun s => repeat s k) l) = List.length l * k.
Proof. induction l; cbn; auto. rewrite app_length, repeat_length. lia. Qed.

Lemma x2xsp_row o (regimes_set : list ID) r data : NoDup regimes_set -> In r regimes_set ->
  map (csr_cell (where_from (idb r) o (flat_map (fun s => repeat s (List.length data)) regimes_set)) data)
      (seq o (List.length regimes_set * List.length data)) = blocks (List.length data) regimes_set r data.
Proof.
  set (k := List.length data). revert o; induction regimes_set as [|s rs IH]; intros o Hd Hin; [contradiction|].
  inversion Hd as [|? ? Hns Hd']; subst.
  cbn [flat_map List.length]. rewrite where_from_app, repeat_length.
  replace (S (List.length rs) * k) with (k + List.length rs * k) by lia.
  rewrite seq_app, map_app. unfold blocks; cbn [flat_map]. fold (blocks k rs r data).
  destruct (ideq r s) as [<-|Hrs].
  - rewrite where_from_all by (intros a Ha; apply repeat_spec in Ha; subst; apply idb_refl).
    rewrite repeat_length, where_from_none, app_nil_r.
    + f_equal; [apply csr_cells_run|].
      rewrite (map_const_repeat _ f0).
      * rewrite seq_length. unfold blocks. clear -Hns. induction rs as [|t rs IH]; cbn; auto.
        cbn in Hns. destruct (ideq r t); [exfalso; apply Hns; auto|]. rewrite repeat_app. f_equal. apply IH; tauto.
      * intros j Hj. apply csr_cell_out. rewrite in_seq in *. fold k. lia.
    + intros a Ha. apply idb_neq. intros <-. apply Hns. eapply in_flat_repeat; eauto.
  - rewrite where_from_none by (intros a Ha; apply repeat_spec in Ha; subst; apply idb_neq; auto).
    cbn [app]. f_equal.
    + rewrite (map_const_repeat _ f0); [now rewrite seq_length|].
      intros j Hj. apply csr_cell_out. rewrite where_from_In. intros (m & a & -> & _). apply in_seq in Hj. lia.
    + destruct Hin as [->|Hin]; [congruence|]. apply IH; auto.
Qed.

Lemma maxl_spec l n : (forall i, In i l -> i <= n) -> In n l -> maxl l = n.
Proof.
  intros H Hn. apply Nat.le_antisymm.
  - clear Hn. induction l as [|a l IH]; cbn; [lia|]. specialize (IH ltac:(intros; apply H; cbn; auto)).
    specialize (H a (or_introl eq_refl)). unfold maxl in IH. lia.
  - clear H. induction l as [|a l IH]; cbn in *; [contradiction|]. destruct Hn as [->|Hn]; [lia|]. specialize (IH Hn). unfold maxl in IH. lia.
Qed.

Lemma x2xsp_spec k x (regimes regimes_set : list ID) : 1 <= k -> NoDup regimes_set -> regimes_set <> [] ->
  (forall r, In r regimes <-> In r regimes_set) -> List.length x = List.length regimes ->
  (forall row, In row x -> List.length row = k) ->
  x2xsp f0 fadd ideq k x regimes regimes_set =
  Ok (map (fun p => blocks k regimes_set (fst p) (snd p)) (combine regimes x)).
Proof.
  intros Hk Hd Hne Hset Hl Hrow. unfold x2xsp.
  set (im := fun r => where_ (idb r) (flat_map (fun s => repeat s k) regimes_set)).
  rewrite (mapM_map (row_map ideq k regimes_set) im).
  2:{ intros r Hr. unfold row_map. destruct (in_dec ideq r regimes_set) as [|Hn]; auto. exfalso. apply Hn, Hset, Hr. }
  cbn [bind].
  assert (Hbound : forall i, In i (List.concat (map im regimes)) -> i < List.length regimes_set * k).
  { intros i Hi. apply in_concat in Hi. destruct Hi as (l & Hl' & Hi). apply in_map_iff in Hl'. destruct Hl' as (r & <- & Hr).
    unfold im in Hi. apply where_In in Hi. destruct Hi as (a & Ha & _).
    rewrite <- (flat_repeat_length regimes_set k). apply nth_error_Some. congruence. }
  assert (Hlast : In (List.length regimes_set * k - 1) (List.concat (map im regimes))).
  { destruct (exists_last Hne) as (rs & r & Er). subst regimes_set. apply in_concat. exists (im r). split.
    - apply in_map. apply Hset. apply in_or_app; cbn; auto.
    - unfold im. apply where_In. exists r. split; [|apply idb_refl].
      rewrite flat_map_app, app_length. cbn [List.length flat_map]. rewrite app_nil_r.
      rewrite nth_error_app2; rewrite flat_repeat_length; [|nia].
      replace ((List.length rs + 1) * k - 1 - List.length rs * k) with (k - 1) by nia.
      destruct (nth_error (repeat r k) (k - 1)) eqn:E.
      + f_equal. apply nth_error_In in E. now apply repeat_spec in E.
      + apply nth_error_None in E. rewrite repeat_length in E. lia. }
  assert (Hmax : S (maxl (List.concat (map im regimes))) = List.length regimes_set * k).
  { rewrite (maxl_spec _ (List.length regimes_set * k - 1)).
    - assert (1 <= List.length regimes_set) by (destruct regimes_set; [congruence|cbn; lia]). nia.
    - intros i Hi. apply Hbound in Hi. lia.
    - exact Hlast. }
  rewrite Hmax. destruct (List.concat (map im regimes)) eqn:E; [contradiction|]. f_equal.
  assert (Hin : forall r, In r regimes -> In r regimes_set) by (intros r Hr; apply Hset; auto).
  clear E Hmax Hlast Hbound Hset. revert x Hl Hrow. induction regimes as [|r regimes IH]; intros [|row x] Hl Hrow; cbn in Hl; try discriminate; auto.
  cbn [map combine fst snd]. f_equal.
  - unfold csr_row, im, where_. assert (Er : k = List.length row) by (symmetry; apply Hrow; cbn; auto).
    rewrite Er. apply x2xsp_row; auto. apply Hin; cbn; auto.
  - apply IH; [intros; apply Hin; cbn; auto|lia|intros; apply Hrow; cbn; auto].
Qed.

(** ---- specification of the design: a layout of (regime or global, source column) ---- *)
Notation cell := (cell f0 ideq).
Lemma where_ext {A} (p q : A -> bool) i l : (forall a, p a = q a) -> where_from p i l = where_from q i l.
Proof. intros H. revert i; induction l as [|a l IH]; intros i; cbn; auto. rewrite H, IH. reflexivity. Qed.

Lemma positions_eq b mask : positions b mask = where_ (Bool.eqb b) mask.
Proof.
  unfold positions, where_.
  assert (G : forall m o (g : nat -> bool), (forall i, i < List.length m -> g (o + i) = nth i m (negb b)) ->
     filter (fun j => Bool.eqb b (g j)) (seq o (List.length m)) = where_from (Bool.eqb b) o m).
  { intros m; induction m as [|c m IH]; intros o g Hg; cbn [List.length seq filter where_from]; auto.
    rewrite <- (IH (S o) g).
    - specialize (Hg 0 ltac:(cbn; lia)). rewrite Nat.add_0_r in Hg. rewrite Hg. reflexivity.
    - intros i Hi. specialize (Hg (S i) ltac:(cbn; lia)). rewrite <- Nat.add_succ_comm in Hg. exact Hg. }
  apply (G mask 0 (fun j => nth j mask (negb b))). reflexivity.
Qed.

Lemma pos_true mask : positions true mask = where_ is_true_ mask.
Proof. rewrite positions_eq. apply where_ext. intros [|]; reflexivity. Qed.
Lemma pos_false mask : positions false mask = where_ is_false_ mask.
Proof. rewrite positions_eq. apply where_ext. intros [|]; reflexivity. Qed.

Lemma positions_bound b mask j : In j (positions b mask) -> j < List.length mask.
Proof. rewrite positions_eq, where_In. intros (a & H & _). apply nth_error_Some. congruence. Qed.

Lemma map_nth_seq {A} (l : list A) d : map (fun i => nth i l d) (seq 0 (List.length l)) = l.
Proof.
  induction l as [|a l IH]; cbn; auto. f_equal. rewrite <- seq_shift, map_map. exact IH.
Qed.

Lemma blocks_cells regimes_set mask r row :
  blocks (List.length (positions true mask)) regimes_set r (map (fun j => nth j row f0) (positions true mask))
  = map (cell row r) (flat_map (fun s => map (fun j => (Some s, j)) (positions true mask)) regimes_set).
Proof.
  unfold blocks. induction regimes_set as [|s rs IH]; cbn; auto. rewrite map_app, <- IH. f_equal.
  rewrite map_map. unfold RegimesSpec.cell; cbn [fst snd]. destruct (ideq r s); auto.
  rewrite (map_const_repeat (fun _ => f0) f0); auto.
Qed.

Lemma combine_map_map {A B C D} (f : A -> B -> C) (g : B -> D) (h : C -> D -> C) (la : list A) (lb : list B) :
  List.length la = List.length lb ->
  map (fun p => h (fst p) (snd p)) (combine (map (fun p => f (fst p) (snd p)) (combine la lb)) (map g lb))
  = map (fun p => h (f (fst p) (snd p)) (g (snd p))) (combine la lb).
Proof. revert lb; induction la as [|a la IH]; intros [|b lb] H; cbn in *; try discriminate; auto. now rewrite IH by lia. Qed.

Lemma combine_map_r {A B C} (g : B -> C) (la : list A) (lb : list B) :
  combine la (map g lb) = map (fun p => (fst p, g (snd p))) (combine la lb).
Proof. revert lb; induction la as [|a la IH]; intros [|b lb]; cbn; auto. now rewrite IH. Qed.

Lemma forallb_pos_false mask : forallb is_true_ mask = true -> positions false mask = [] /\ positions true mask = seq 0 (List.length mask).
Proof.
  intros H. rewrite forallb_forall in H. rewrite !positions_eq. split.
  - apply where_from_none. intros a Ha. apply H in Ha. unfold is_true_ in Ha. now subst.
  - apply where_from_all. intros a Ha. apply H in Ha. unfold is_true_ in Ha. now subst.
Qed.
Lemma forallb_pos_true mask : forallb is_false_ mask = true -> positions true mask = [] /\ positions false mask = seq 0 (List.length mask).
Proof.
  intros H. rewrite forallb_forall in H. rewrite !positions_eq. split.
  - apply where_from_none. intros a Ha. apply H in Ha. destruct a; auto.
  - apply where_from_all. intros a Ha. apply H in Ha. destruct a; auto.
Qed.

Lemma regimeX_spec k x (regimes regimes_set : list ID) mask :
  1 <= k -> List.length mask = k -> NoDup regimes_set -> regimes_set <> [] ->
  (forall r, In r regimes <-> In r regimes_set) -> List.length x = List.length regimes ->
  (forall row, In row x -> List.length row = k) ->
  regimeX_setup f0 fadd ideq k x regimes mask regimes_set =
  Ok (map (fun p => map (cell (snd p) (fst p)) (layout regimes_set mask)) (combine regimes x)).
Proof.
  intros Hk Hm Hd Hne Hset Hl Hrow. unfold regimeX_setup.
  destruct mask as [|b mask']; [cbn in Hm; lia|]. set (mask := b :: mask') in *.
  assert (Hin : forall p, In p (combine regimes x) -> List.length (snd p) = k).
  { intros [r row] Hp. apply in_combine_r in Hp. auto. }
  destruct (forallb is_true_ mask) eqn:Et; [|destruct (forallb is_false_ mask) eqn:Ef].
  - rewrite x2xsp_spec by auto. f_equal. apply map_ext_in. intros p Hp. unfold layout.
    destruct (forallb_pos_false mask Et) as [-> E2]. cbn [map]. rewrite app_nil_r, <- blocks_cells, E2, seq_length.
    rewrite Hm. f_equal. rewrite <- (Hin p Hp). symmetry. apply map_nth_seq.
  - f_equal. destruct (forallb_pos_true mask Ef) as [E1 E2]. unfold layout. rewrite E1, E2. cbn [map].
    assert (Ez : flat_map (fun _ : ID => []) regimes_set = @nil (option ID * nat)) by (clear; induction regimes_set; auto).
    cbn [map] in Ez. rewrite Ez. cbn [app].
    assert (G : forall (rs : list ID) xs, List.length xs = List.length rs -> (forall row, In row xs -> List.length row = k) ->
       xs = map (fun p => map (cell (snd p) (fst p)) (map (fun j => (@None ID, j)) (seq 0 (List.length mask)))) (combine rs xs)).
    { intros rs. induction rs as [|r rs IH]; intros [|row xs] H1 H2; cbn [combine map] in *; try discriminate; auto.
      f_equal; [|apply IH; [cbn in H1; lia|intros; apply H2; cbn; auto]].
      rewrite map_map. unfold RegimesSpec.cell; cbn [fst snd]. rewrite Hm, <- (H2 row) by (cbn; auto). symmetry. apply map_nth_seq. }
    apply G; auto.
  - rewrite (mapM_map _ (fun row => map (fun i => nth i row f0) (where_ is_false_ mask))).
    2:{ intros row Hr. apply take_idx_map. intros i Hi. rewrite <- pos_false in Hi. apply positions_bound in Hi.
        rewrite Hrow by auto. lia. }
    cbn [bind].
    rewrite (mapM_map _ (fun row => map (fun i => nth i row f0) (where_ is_true_ mask))).
    2:{ intros row Hr. apply take_idx_map. intros i Hi. rewrite <- pos_true in Hi. apply positions_bound in Hi.
        rewrite Hrow by auto. lia. }
    cbn [bind]. rewrite <- pos_true, <- pos_false.
    assert (Hk1 : 1 <= List.length (positions true mask)).
    { destruct (positions true mask) eqn:E; [|cbn; lia]. exfalso.
      assert (Ha : forall a, In a mask -> a = false).
      { intros a Ha. destruct a; auto. apply In_nth_error in Ha. destruct Ha as (n & Hn).
        assert (In n (positions true mask)) by (rewrite positions_eq; apply where_In; exists true; auto). rewrite E in H. contradiction. }
      assert (forallb is_false_ mask = true) by (apply forallb_forall; intros a Ha'; now rewrite (Ha a Ha')). congruence. }
    rewrite x2xsp_spec; auto.
    + cbn [bind]. unfold hcat. f_equal.
      rewrite (combine_map_r (fun row => map (fun i => nth i row f0) (positions true mask)) regimes x), map_map. cbn [fst snd].
      unfold layout. rewrite (combine_map_map
        (fun r row => blocks (List.length (positions true mask)) regimes_set r (map (fun i => nth i row f0) (positions true mask)))
        (fun row => map (fun i => nth i row f0) (positions false mask)) (@app F)) by auto.
      apply map_ext. intros [r row]. cbn [fst snd]. rewrite map_app, blocks_cells. f_equal.
      rewrite map_map. reflexivity.
    + now rewrite map_length.
    + intros row Hr. apply in_map_iff in Hr. destruct Hr as (row' & <- & _). now rewrite map_length.
Qed.

(** dot product of a design row with coefficients attached to the layout *)
Notation dot := (vdot f0 fadd fmul).

Lemma fsum_app a b : fsum (a ++ b) = fadd (fsum a) (fsum b).
Proof. unfold RegimesModel.fsum. induction a as [|x a IH]; cbn; [ring|]. rewrite IH. ring. Qed.

Lemma combine_map2 {A B C} (f : A -> B) (g : A -> C) l : combine (map f l) (map g l) = map (fun a => (f a, g a)) l.
Proof. induction l; cbn; congruence. Qed.

Lemma dot_layout (beta : option ID * nat -> F) regimes_set mask r row : NoDup regimes_set -> In r regimes_set ->
  dot (map (cell row r) (layout regimes_set mask)) (map beta (layout regimes_set mask)) =
  fadd (fsum (map (fun j => fmul (nth j row f0) (beta (Some r, j))) (positions true mask)))
       (fsum (map (fun j => fmul (nth j row f0) (beta (None, j))) (positions false mask))).
Proof.
  intros Hd Hin. unfold vdot, vsum. fold (RegimesModel.fsum f0 fadd (map (fun p => fmul (fst p) (snd p)) (combine (map (cell row r) (layout regimes_set mask)) (map beta (layout regimes_set mask))))). rewrite combine_map2, map_map. cbn [fst snd]. unfold layout.
  rewrite map_app, fsum_app. f_equal.
  - set (P := positions true mask).
    assert (Hz : forall rs, ~ In r rs ->
      fsum (map (fun x => fmul (cell row r x) (beta x)) (flat_map (fun r0 => map (fun j => (Some r0, j)) P) rs)) = f0).
    { induction rs as [|s rs IH]; cbn [flat_map In]; intros Hn; [reflexivity|]. rewrite map_app, fsum_app, IH by tauto.
      rewrite map_map. unfold RegimesSpec.cell; cbn [fst snd]. destruct (ideq r s) as [<-|]; [tauto|].
      assert (E : fsum (map (fun x => fmul f0 (beta (Some s, x))) P) = f0).
      { clear -Rth. induction P as [|p P IH]; cbn; auto. unfold RegimesModel.fsum in *. cbn. rewrite IH. ring. }
      rewrite E. ring. }
    induction regimes_set as [|s rs IH]; [contradiction|]. inversion Hd as [|? ? Hns Hd']; subst.
    cbn [flat_map]. rewrite map_app, fsum_app. destruct Hin as [->|Hin].
    + rewrite Hz by auto. rewrite map_map. unfold RegimesSpec.cell; cbn [fst snd]. destruct (ideq r r); [|congruence]. ring.
    + rewrite IH by auto. rewrite map_map. unfold RegimesSpec.cell; cbn [fst snd]. destruct (ideq r s) as [<-|]; [contradiction|].
      assert (E : fsum (map (fun x => fmul f0 (beta (Some s, x))) P) = f0).
      { clear -Rth. induction P as [|p P IH]; cbn; auto. unfold RegimesModel.fsum in *. cbn. rewrite IH. ring. }
      rewrite E. ring.
  - rewrite map_map. reflexivity.
Qed.
End Ring.
