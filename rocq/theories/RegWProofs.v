From Verif Require Import PyBase RegimesModel RegimesProofs RegWModel RegWSpec.
From Coq Require Import QArith Qcanon Permutation.
Open Scope string_scope.
Open Scope list_scope.
Open Scope nat_scope.

Section P.
Context {ID R : Type} (ideq : forall a b : ID, {a = b} + {a <> b}) (req : forall a b : R, {a = b} + {a <> b}).
Notation nbrs := (nbrs ideq). Notation wcell := (wcell ideq).

Definition bin (L : list ID) : list (ID * Qc) := map (fun j => (j, 1%Qc)) L.
Definition natQ (n : nat) : Qc := Q2Qc (inject_Z (Z.of_nat n)).

Lemma natQ_S n : (1 + natQ n = natQ (S n))%Qc.
Proof.
  unfold natQ. apply Qc_is_canon. unfold Qcplus, Q2Qc. cbn [this]. rewrite !Qred_correct. unfold Qeq, Qplus, inject_Z. cbn [Qnum Qden]. lia.
Qed.
Lemma natQ_S_neq0 n : natQ (S n) <> 0%Qc.
Proof.
  unfold natQ. intros H. apply (f_equal this) in H. unfold Q2Qc in H. cbn [this] in H.
  assert (E : (inject_Z (Z.of_nat (S n)) == 0)%Q). { rewrite <- (Qred_correct (inject_Z _)), H. reflexivity. }
  unfold Qeq, inject_Z in E. cbn [Qnum Qden] in E. lia.
Qed.
Lemma map_fst_bin L : map fst (bin L) = L.
Proof. unfold bin. rewrite map_map. apply map_id. Qed.
Lemma qsum_bin L : qsum (map snd (bin L)) = natQ (List.length L).
Proof. induction L as [|a L IH]; [reflexivity|]. cbn [bin map qsum fold_right List.length snd]. change (fold_right _ _ _) with (qsum (map snd (bin L))). rewrite IH. apply natQ_S. Qed.

Lemma qsum_const (L : list ID) c j : NoDup L ->
  qsum (map snd (filter (fun p => if ideq (fst p) j then true else false) (map (fun i => (i, c)) L)))
  = if in_dec ideq j L then c else 0%Qc.
Proof.
  induction 1 as [|a L Ha Hn IH]; [reflexivity|]. cbn [map filter fst].
  destruct (ideq a j) as [->|E].
  - cbn [map snd qsum fold_right]. change (fold_right Qcplus 0%Qc) with qsum. rewrite IH.
    destruct (in_dec ideq j L) as [Q|Q]; [contradiction|]. destruct (in_dec ideq j (j :: L)) as [Q'|Q']; [|exfalso; apply Q'; cbn; auto].
    apply Qcplus_0_r.
  - rewrite IH. destruct (in_dec ideq j L) as [Q|Q], (in_dec ideq j (a :: L)) as [Q'|Q']; auto.
    + exfalso; apply Q'; cbn; auto.
    + exfalso. destruct Q'; [congruence|contradiction].
Qed.

(** a row of a W whose original weights are all one *)
Lemma wcell_bin w a b i j L : nth_error (w_ids w) a = Some i -> nth_error (w_ids w) b = Some j ->
  nbrs w i = bin L -> NoDup L ->
  wcell w a b = if in_dec ideq j L then link_weight (w_tr w) (List.length L) else 0%Qc.
Proof.
  intros Ha Hb Hn HL. unfold RegWModel.wcell. rewrite Ha, Hb. unfold cur. rewrite Hn. destruct (w_tr w); cbn [link_weight].
  - apply qsum_const; auto.
  - unfold bin. rewrite map_map. cbn [fst]. apply qsum_const; auto.
  - rewrite qsum_bin. destruct L as [|l L]; [destruct (Qc_eq_dec _ _); reflexivity|].
    destruct (Qc_eq_dec _ _) as [E|E]; [exfalso; eapply natQ_S_neq0; exact E|].
    unfold bin. rewrite map_map. cbn [fst snd]. apply qsum_const; auto.
Qed.

Lemma assoc_map (f : ID -> list (ID * Qc)) i ids : In i ids -> assoc ideq i (map (fun k => (k, f k)) ids) = Some (f i).
Proof.
  induction ids as [|k ids IH]; [contradiction|]. intros H. cbn [map assoc]. destruct (ideq i k) as [->|E]; auto.
  apply IH. destruct H; congruence.
Qed.
Lemma assoc_None i l : ~ In i (map fst l) -> assoc ideq i l = None.
Proof.
  induction l as [|[k v] l IH]; auto. cbn. intros H. destruct (ideq i k) as [->|E]; [tauto|]. apply IH; tauto.
Qed.
Lemma assoc_In i l v : NoDup (map fst l) -> In (i, v) l -> assoc ideq i l = Some v.
Proof.
  induction l as [|[k u] l IH]; [contradiction|]. cbn. intros Hn H. inversion Hn; subst.
  destruct H as [H|H]; [injection H as -> ->; destruct (ideq i i); congruence|].
  destruct (ideq i k) as [->|E]; auto. exfalso. apply H2. change k with (fst (k, v)). now apply in_map.
Qed.

Definition sub_nb (w : W ID) (ids : list ID) (i : ID) : list ID := filter (mem ideq ids) (nodup ideq (map fst (nbrs w i))).

Lemma subset_nbrs w ids i : In i ids -> nbrs (w_subset ideq w ids) i = bin (sub_nb w ids i).
Proof.
  intros H. unfold RegWModel.nbrs at 1, w_subset, mk_binary. cbn [w_nb]. rewrite map_map. cbn [fst snd].
  rewrite (assoc_map (fun k => map (fun j => (j, 1%Qc)) (filter (mem ideq ids) (nodup ideq (map fst (nbrs w k)))))) by auto.
  reflexivity.
Qed.
Lemma sub_nb_In w ids i j : In j (sub_nb w ids i) <-> In j ids /\ In j (map fst (nbrs w i)).
Proof.
  unfold sub_nb. rewrite filter_In, nodup_In. unfold mem. destruct (in_dec ideq j ids); intuition discriminate.
Qed.
Lemma sub_nb_NoDup w ids i : NoDup (sub_nb w ids i).
Proof. apply NoDup_filter, NoDup_nodup. Qed.

Lemma set_transform_nbrs t w i : nbrs (set_transform t w) i = nbrs w i.
Proof. reflexivity. Qed.

(** positions *)
Lemma where_obs regimes r : regi_ids_of req regimes r = obs_of req regimes r.
Proof.
  unfold regi_ids_of, obs_of, where_.
  assert (G : forall pre l, where_from (fun s => if req s r then true else false) (List.length pre) l
     = filter (fun i => match nth_error (pre ++ l) i with Some s => if req s r then true else false | None => false end)
         (seq (List.length pre) (List.length l))).
  { intros pre l; revert pre. induction l as [|a l IH]; intros pre; [reflexivity|]. cbn [where_from List.length seq filter].
    rewrite nth_error_app2 by lia. rewrite Nat.sub_diag. cbn [nth_error].
    specialize (IH (pre ++ [a])). rewrite <- app_assoc in IH. cbn [app] in IH.
    rewrite app_length in IH. cbn [List.length] in IH. rewrite Nat.add_1_r in IH. rewrite IH.
    destruct (req a r); reflexivity. }
  exact (G [] regimes).
Qed.
Lemma obs_of_In regimes r i : In i (obs_of req regimes r) <-> nth_error regimes i = Some r.
Proof.
  unfold obs_of. rewrite filter_In, in_seq. split.
  - intros [_ H]. destruct (nth_error regimes i) as [s|]; [|discriminate]. destruct (req s r); congruence.
  - intros H. rewrite H. destruct (req r r); [|congruence]. split; auto. split; [lia|].
    apply nth_error_Some. congruence.
Qed.
Lemma obs_of_NoDup regimes r : NoDup (obs_of req regimes r).
Proof. apply NoDup_filter, seq_NoDup. Qed.

Lemma nth_error_map_nth {A} (l : list A) d idx a i : nth_error idx a = Some i ->
  nth_error (map (fun k => nth k l d) idx) a = Some (nth i l d).
Proof. intros H. rewrite nth_error_map, H. reflexivity. Qed.

Lemma take_idx_ok {A} (l : list A) idx : (forall i, In i idx -> i < List.length l) ->
  exists ids, take_idx l idx = Ok ids /\ List.length ids = List.length idx /\
   forall a i, nth_error idx a = Some i -> nth_error ids a = nth_error l i.
Proof.
  induction idx as [|k idx IH]; intros H.
  - exists []. split; auto. split; auto. intros [|a] i Hi; discriminate.
  - destruct IH as (ids & E & El & Hn). { intros i Hi; apply H; cbn; auto. }
    cbn [take_idx]. destruct (nth_error l k) as [x|] eqn:Ek.
    + rewrite E. cbn [bind]. exists (x :: ids). split; auto. split; [cbn; lia|].
      intros [|a] i Hi; cbn in *; [injection Hi as <-; auto|auto].
    + apply nth_error_None in Ek. specialize (H k (or_introl eq_refl)). lia.
Qed.
Lemma take_idx_In {A} (l : list A) idx ids x : take_idx l idx = Ok ids -> (In x ids <-> exists i, In i idx /\ nth_error l i = Some x).
Proof.
  revert ids. induction idx as [|k idx IH]; intros ids; cbn [take_idx].
  - intros [= <-]. split; [contradiction|]. intros (i & [] & _).
  - destruct (nth_error l k) as [y|] eqn:Ek; [|discriminate]. destruct (take_idx l idx) as [t|] eqn:E; [|discriminate].
    cbn. intros [= <-]. cbn. rewrite (IH t eq_refl). split.
    + intros [<-|(i & Hi & Hx)]; [exists k; auto|exists i; auto].
    + intros (i & [<-|Hi] & Hx); [left; congruence|right; eauto].
Qed.
Lemma take_idx_NoDup {A} (l : list A) idx ids : NoDup l -> NoDup idx -> take_idx l idx = Ok ids -> NoDup ids.
Proof.
  intros Hl. revert ids. induction idx as [|k idx IH]; intros ids Hi; cbn [take_idx].
  - intros [= <-]. constructor.
  - destruct (nth_error l k) as [y|] eqn:Ek; [|discriminate]. destruct (take_idx l idx) as [t|] eqn:E; [|discriminate].
    cbn. intros [= <-]. inversion Hi; subst. constructor; auto. intros H. apply (take_idx_In _ _ _ _ E) in H.
    destruct H as (i & Hii & Hx). assert (i = k); [|congruence].
    rewrite NoDup_nth_error in Hl. apply Hl; [apply nth_error_Some; congruence|congruence].
Qed.

Lemma NoDup_map_in {A B} (f : A -> B) l : (forall x y, In x l -> In y l -> f x = f y -> x = y) -> NoDup l -> NoDup (map f l).
Proof.
  intros Hf. induction 1 as [|a l Ha Hn IH]; cbn; constructor.
  - rewrite in_map_iff. intros (y & E & Hy). apply Ha. rewrite <- (Hf y a); cbn; auto.
  - apply IH. intros; apply Hf; cbn; auto.
Qed.
(** number of within-regime neighbours *)
Lemma sub_nb_count w obs ids a i : valid_W ideq w -> NoDup obs -> take_idx (w_ids w) obs = Ok ids ->
  nth_error (w_ids w) a = Some i ->
  List.length (sub_nb w ids i) = List.length (filter (linkb ideq w a) obs).
Proof.
  intros (Hn & _ & _ & Hnn & _) Ho E Ha.
  assert (Hb : forall k, In k obs -> k < List.length (w_ids w)).
  { clear - E. revert ids E. induction obs as [|k obs IH]; intros ids E j Hj; [contradiction|]. cbn in E.
    destruct (nth_error (w_ids w) k) eqn:Ek; [|discriminate]. destruct (take_idx (w_ids w) obs) eqn:Et; [|discriminate].
    destruct Hj as [<-|Hj]; [apply nth_error_Some; congruence|eauto]. }
  assert (Hperm : Permutation (sub_nb w ids i)
     (map (fun k => nth k (w_ids w) i) (filter (linkb ideq w a) obs))).
  { apply NoDup_Permutation.
    - apply sub_nb_NoDup.
    - apply NoDup_map_in; [|now apply NoDup_filter].
      intros x y Hx Hy Exy. apply filter_In in Hx, Hy. destruct Hx as [Hx _], Hy as [Hy _].
      apply (proj1 (NoDup_nth (w_ids w) i) Hn); auto.
    - intros j. rewrite sub_nb_In, (in_map_iff (fun k => nth k (w_ids w) i)), (take_idx_In _ _ _ _ E). split.
      + intros ((k & Hk & Hkj) & Hj). exists k. split; [now apply nth_error_nth|]. apply filter_In. split; auto.
        unfold linkb. rewrite Ha, Hkj. destruct (in_dec _ _ _); auto.
      + intros (k & <- & Hk). apply filter_In in Hk. destruct Hk as [Hk Hl]. split.
        * exists k. split; auto. apply nth_error_nth'. auto.
        * unfold linkb in Hl. rewrite Ha in Hl. rewrite (nth_error_nth' (w_ids w) i) in Hl by auto.
          destruct (in_dec _ _ _); [auto|discriminate]. }
  apply Permutation_length in Hperm. now rewrite map_length in Hperm.
Qed.
End P.
