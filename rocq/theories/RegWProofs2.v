From Verif Require Import PyBase RegimesModel RegimesProofs RegWModel RegWSpec RegWProofs.
From Coq Require Import QArith Qcanon Permutation.
Open Scope string_scope.
Open Scope list_scope.
Open Scope nat_scope.

Section P.
Context {ID : Type} (ideq : forall a b : ID, {a = b} + {a <> b}).
Notation nbrs := (nbrs ideq).

Definition binW (w : W ID) (keys : ID -> Prop) (f : ID -> ID -> Prop) : Prop :=
  NoDup (map fst (w_nb w)) /\ (forall i, In i (map fst (w_nb w)) <-> keys i) /\
  forall i, exists L, nbrs w i = bin L /\ NoDup L /\ (forall j, In j L <-> f i j).

Lemma assoc_map_fst (l : list (ID * list (ID * Qc))) (g : ID -> list (ID * Qc) -> list (ID * Qc)) i :
  assoc ideq i (map (fun p => (fst p, g (fst p) (snd p))) l) = option_map (g i) (assoc ideq i l).
Proof.
  induction l as [|[k v] l IH]; auto. cbn. destruct (ideq i k) as [->|E]; auto.
Qed.
Lemma assoc_app i (l1 l2 : list (ID * list (ID * Qc))) :
  assoc ideq i (l1 ++ l2) = match assoc ideq i l1 with Some v => Some v | None => assoc ideq i l2 end.
Proof. induction l1 as [|[k v] l1 IH]; auto. cbn. destruct (ideq i k); auto. Qed.
Lemma assoc_filter i (l : list (ID * list (ID * Qc))) (p : ID -> bool) :
  assoc ideq i (filter (fun q => p (fst q)) l) = if p i then assoc ideq i l else None.
Proof.
  induction l as [|[k v] l IH]; [destruct (p i); auto|]. cbn [filter fst]. destruct (p k) eqn:E; cbn [assoc].
  - rewrite IH. destruct (ideq i k) as [->|N]; [rewrite E; auto|auto].
  - rewrite IH. destruct (ideq i k) as [->|N]; [rewrite E; auto|auto].
Qed.
Lemma assoc_Some_In i (l : list (ID * list (ID * Qc))) : In i (map fst l) <-> assoc ideq i l <> None.
Proof.
  induction l as [|[k v] l IH]; cbn; [tauto|]. destruct (ideq i k) as [->|E].
  - split; [discriminate|auto].
  - rewrite <- IH. split; [intros [?|?]; congruence|auto].
Qed.
Lemma key_mem_assoc l i : key_mem ideq l i = match assoc ideq i l with Some _ => true | None => false end.
Proof.
  unfold key_mem, mem. pose proof (assoc_Some_In i l). destruct (in_dec ideq i (map fst l)), (assoc ideq i l); auto.
  - exfalso. apply H; auto.
  - exfalso. apply n. apply H. discriminate.
Qed.

Lemma union_nb w1 w2 : w_nb (w_union ideq w1 w2) =
  map (fun p => (fst p, bin (if key_mem ideq (w_nb w2) (fst p) then nodup ideq (map fst (snd p) ++ map fst (nbrs w2 (fst p)))
                                                     else map fst (snd p)))) (w_nb w1)
  ++ map (fun p => (fst p, bin (map fst (snd p)))) (filter (fun p => negb (key_mem ideq (w_nb w1) (fst p))) (w_nb w2)).
Proof.
  unfold w_union, mk_binary. cbn [w_nb]. rewrite map_app, !map_map. cbn [fst snd]. reflexivity.
Qed.

Lemma union_nbrs w1 w2 i L1 L2 : nbrs w1 i = bin L1 -> nbrs w2 i = bin L2 -> NoDup L1 -> NoDup L2 ->
  exists L, nbrs (w_union ideq w1 w2) i = bin L /\ NoDup L /\ forall j, In j L <-> In j L1 \/ In j L2.
Proof.
  intros E1 E2 N1 N2. unfold RegWModel.nbrs at 1. rewrite union_nb, assoc_app.
  rewrite (assoc_map_fst (w_nb w1) (fun k v => bin (if key_mem ideq (w_nb w2) k then nodup ideq (map fst v ++ map fst (nbrs w2 k)) else map fst v))).
  rewrite (assoc_map_fst (filter _ _) (fun k v => bin (map fst v))).
  rewrite (assoc_filter i (w_nb w2) (fun k => negb (key_mem ideq (w_nb w1) k))).
  rewrite !key_mem_assoc. unfold RegWModel.nbrs in *.
  destruct (assoc ideq i (w_nb w1)) as [v1|] eqn:A1; cbn [option_map].
  - subst v1. rewrite map_fst_bin. destruct (assoc ideq i (w_nb w2)) as [v2|] eqn:A2.
    + subst v2. rewrite map_fst_bin. eexists. split; [reflexivity|]. split; [apply NoDup_nodup|].
      intros j. now rewrite nodup_In, in_app_iff.
    + exists L1. split; [reflexivity|]. split; [auto|]. intros j. destruct L2; [|discriminate E2]. cbn; tauto.
  - cbn [negb]. destruct L1; [|discriminate E1]. destruct (assoc ideq i (w_nb w2)) as [v2|] eqn:A2; cbn [option_map].
    + subst v2. rewrite map_fst_bin. exists L2. split; [reflexivity|]. split; [auto|]. intros j; cbn; tauto.
    + destruct L2; [|discriminate E2]. exists []. split; [reflexivity|]. split; [constructor|]. intros j; cbn; tauto.
Qed.

Lemma NoDup_app_intro {A} (l1 l2 : list A) : NoDup l1 -> NoDup l2 -> (forall x, In x l1 -> ~ In x l2) -> NoDup (l1 ++ l2).
Proof.
  induction 1 as [|a l Ha Hl IH]; intros H2 D; auto. cbn. constructor.
  - rewrite in_app_iff. intros [H|H]; [contradiction|]. exact (D a (or_introl eq_refl) H).
  - apply IH; auto. intros x Hx. apply D. cbn; auto.
Qed.

Lemma union_binW w1 w2 k1 k2 f1 f2 : binW w1 k1 f1 -> binW w2 k2 f2 ->
  binW (w_union ideq w1 w2) (fun i => k1 i \/ k2 i) (fun i j => f1 i j \/ f2 i j).
Proof.
  intros (N1 & K1 & F1) (N2 & K2 & F2). split; [|split].
  - rewrite union_nb, map_app, !map_map. cbn [fst].
    assert (G : forall l : list (ID * list (ID * Qc)), NoDup (map fst l) ->
       NoDup (map (fun x => fst x) (filter (fun p => negb (key_mem ideq (w_nb w1) (fst p))) l))).
    { induction l as [|[k v] l IH]; cbn [map fst filter]; [constructor|]. intros H; inversion H; subst.
      destruct (negb _); cbn; auto. constructor; auto. intros Hi. apply H2. apply in_map_iff in Hi.
      destruct Hi as (q & E & Hq). apply filter_In in Hq. destruct Hq as [Hq _]. rewrite <- E. now apply in_map. }
    assert (D : forall x, In x (map fst (w_nb w1)) -> ~ In x (map (fun x => fst x) (filter (fun p => negb (key_mem ideq (w_nb w1) (fst p))) (w_nb w2)))).
    { intros x Hx Hy. apply in_map_iff in Hy. destruct Hy as (q & E & Hq). apply filter_In in Hq. destruct Hq as [_ Hq].
      rewrite E in Hq. unfold key_mem, mem in Hq. destruct (in_dec ideq x (map fst (w_nb w1))); [discriminate|contradiction]. }
    apply NoDup_app_intro; auto.
  - intros i. rewrite union_nb, map_app, !map_map. cbn [fst]. rewrite in_app_iff, <- K1, <- K2.
    change (map (fun x : ID * list (ID * Qc) => fst x)) with (map (@fst ID (list (ID * Qc)))).
    split.
    + intros [H|H]; auto. right. apply in_map_iff in H. destruct H as (q & <- & Hq). apply filter_In in Hq. now apply in_map.
    + intros [H|H]; auto. destruct (in_dec ideq i (map fst (w_nb w1))) as [Q|Q]; auto. right.
      apply in_map_iff in H. destruct H as (q & <- & Hq). apply in_map. apply filter_In. split; auto.
      unfold key_mem, mem. destruct (in_dec _ _ _); [contradiction|reflexivity].
  - intros i. destruct (F1 i) as (L1 & E1 & D1 & H1), (F2 i) as (L2 & E2 & D2 & H2).
    destruct (union_nbrs w1 w2 i L1 L2 E1 E2 D1 D2) as (L & E & D & H). exists L. split; auto. split; auto.
    intros j. now rewrite H, H1, H2.
Qed.

Lemma subset_binW w ids : NoDup ids -> binW (w_subset ideq w ids) (fun i => In i ids)
  (fun i j => In i ids /\ In j ids /\ In j (map fst (nbrs w i))).
Proof.
  intros Hn. split; [|split].
  - unfold w_subset, mk_binary. cbn [w_nb]. rewrite !map_map. cbn. now rewrite map_id.
  - intros i. unfold w_subset, mk_binary. cbn [w_nb]. rewrite !map_map. cbn. now rewrite map_id.
  - intros i. destruct (in_dec ideq i ids) as [Q|Q].
    + exists (sub_nb ideq w ids i). split; [now apply subset_nbrs|]. split; [apply sub_nb_NoDup|].
      intros j. rewrite sub_nb_In. tauto.
    + exists []. split; [|split; [constructor|cbn; tauto]].
      unfold RegWModel.nbrs. rewrite assoc_None; auto. unfold w_subset, mk_binary. cbn [w_nb]. rewrite !map_map. cbn. now rewrite map_id.
Qed.

Lemma binW_ext w k k' f f' : (forall i, k i <-> k' i) -> (forall i j, f i j <-> f' i j) -> binW w k f -> binW w k' f'.
Proof.
  intros Hk Hf (N & K & F). split; auto. split; [intros; now rewrite K|]. intros i. destruct (F i) as (L & E & D & H).
  exists L. split; auto. split; auto. intros; now rewrite H.
Qed.

Lemma fold_union_binW {R} (wi : R -> W ID) (k : R -> ID -> Prop) (f : R -> ID -> ID -> Prop) rest u k0 f0 :
  (forall r, In r rest -> binW (wi r) (k r) (f r)) -> binW u k0 f0 ->
  binW (fold_left (fun u r => w_union ideq u (wi r)) rest u)
    (fun i => k0 i \/ exists r, In r rest /\ k r i) (fun i j => f0 i j \/ exists r, In r rest /\ f r i j).
Proof.
  revert u k0 f0. induction rest as [|r rest IH]; intros u k0 f0 Hr Hu.
  - cbn [fold_left]. eapply binW_ext; [| |exact Hu]; intros; (split; [auto|intros [H|(? & [] & _)]; auto]).
  - cbn [fold_left]. eapply binW_ext; [| |apply (IH _ _ _ (fun s Hs => Hr s (or_intror Hs)) (union_binW _ _ _ _ _ _ Hu (Hr r (or_introl eq_refl))))].
    + intros i. cbn beta. split.
      * intros [[H|H]|(s & H1 & H2)]; [left; auto|right; exists r; cbn; auto|right; exists s; cbn; auto].
      * intros [H|(s & [<-|H1] & H2)]; [left; auto|left; auto|right; exists s; auto].
    + intros i j. cbn beta. split.
      * intros [[H|H]|(s & H1 & H2)]; [left; auto|right; exists r; cbn; auto|right; exists s; cbn; auto].
      * intros [H|(s & [<-|H1] & H2)]; [left; auto|left; auto|right; exists s; auto].
Qed.

Lemma regimes_union_binW {R} w (wi : R -> W ID) (k : R -> ID -> Prop) (f : R -> ID -> ID -> Prop) rs u :
  (forall r, In r rs -> binW (wi r) (k r) (f r)) -> w_regimes_union ideq w wi rs = Ok u ->
  w_ids u = w_ids w /\ w_tr u = w_tr w /\ binW u (fun i => exists r, In r rs /\ k r i) (fun i j => exists r, In r rs /\ f r i j).
Proof.
  destruct rs as [|r0 [|r1 rest]]; try discriminate. intros H [= <-]. split; [reflexivity|]. split; [reflexivity|].
  assert (G := fold_union_binW wi k f rest _ _ _ (fun s Hs => H s (or_intror (or_intror Hs)))
     (union_binW _ _ _ _ _ _ (H r0 (or_introl eq_refl)) (H r1 (or_intror (or_introl eq_refl))))).
  eapply binW_ext; [| |exact G].
  - intros i. cbn beta. split.
    + intros [[Hx|Hx]|(s & H1 & H2)]; [exists r0; cbn; auto|exists r1; cbn; auto|exists s; cbn; auto].
    + intros (s & [<-|[<-|H1]] & H2); [auto|auto|right; exists s; auto].
  - intros i j. cbn beta. split.
    + intros [[Hx|Hx]|(s & H1 & H2)]; [exists r0; cbn; auto|exists r1; cbn; auto|exists s; cbn; auto].
    + intros (s & [<-|[<-|H1]] & H2); [auto|auto|right; exists s; auto].
Qed.
End P.
