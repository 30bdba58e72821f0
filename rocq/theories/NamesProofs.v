From Verif Require Import PyBase LagsModel LagsSpec LagsProofs NamesModel.
From Coq Require Import DecimalString DecimalNat DecimalFacts.
Open Scope string_scope.
Open Scope list_scope.
Open Scope nat_scope.

(** decimal printing *)
Lemma py_str_inj a b : py_str a = py_str b -> a = b.
Proof.
  unfold py_str. intros H. apply (f_equal NilEmpty.uint_of_string) in H.
  rewrite !NilEmpty.usu in H. injection H as H. now apply Unsigned.to_uint_inj.
Qed.

Definition is_digit (c : ascii) : bool :=
  match c with
  | "0"%char | "1"%char | "2"%char | "3"%char | "4"%char
  | "5"%char | "6"%char | "7"%char | "8"%char | "9"%char => true
  | _ => false
  end.

Fixpoint all_digits (s : string) : bool :=
  match s with EmptyString => true | String c r => is_digit c && all_digits r end.

Lemma uint_digits d : all_digits (NilEmpty.string_of_uint d) = true.
Proof. induction d; cbn; auto. Qed.

Lemma py_str_digits n : all_digits (py_str n) = true.
Proof. apply uint_digits. Qed.

Lemma py_str_nonempty n : py_str n <> "".
Proof.
  unfold py_str. intros H. destruct (Nat.to_uint n) eqn:E; try discriminate H.
  assert (Hn : n = 0).
  { rewrite <- (Unsigned.of_to n), E. reflexivity. }
  subst n. discriminate E.
Qed.

Lemma string_app_inj_l a b c : (a ++ b)%string = (a ++ c)%string -> b = c.
Proof. induction a; cbn; auto. intros H; injection H; auto. Qed.

Lemma digits_sep a b v w : all_digits a = true -> all_digits b = true ->
  (a ++ "_" ++ v)%string = (b ++ "_" ++ w)%string -> a = b /\ v = w.
Proof.
  revert b; induction a as [|c a IH]; intros [|d b] Ha Hb H; cbn in *.
  - injection H as H. auto.
  - injection H as H1 H2. subst d. discriminate Hb.
  - injection H as H1 H2. subst c. discriminate Ha.
  - apply andb_true_iff in Ha; apply andb_true_iff in Hb. injection H as -> H.
    destruct (IH b) as [-> ->]; tauto.
Qed.

Lemma lag_label_inj m m' v v' : 1 <= m -> 1 <= m' -> lag_label m v = lag_label m' v' -> m = m' /\ v = v'.
Proof.
  assert (Hc : forall n v v', ("W_" ++ v)%string = ("W" ++ py_str n ++ "_" ++ v')%string -> False).
  { intros n u u' H. cbn in H. injection H as H.
    pose proof (py_str_nonempty n). pose proof (py_str_digits n) as D.
    destruct (py_str n) as [|c s]; [congruence|]. cbn in H, D. injection H as H1 H2. subst c. discriminate D. }
  intros Hm Hm' H. destruct m as [|[|m]], m' as [|[|m']]; try lia; cbn [lag_label] in H.
  - cbn in H. injection H as H. auto.
  - exfalso; eapply Hc; eauto.
  - exfalso; eapply Hc; symmetry; eauto.
  - cbn in H. injection H as H. change (String "_" v) with ("_" ++ v)%string in H.
    change (String "_" v') with ("_" ++ v')%string in H.
    apply digits_sep in H; try apply py_str_digits. destruct H as [H ->].
    apply py_str_inj in H. auto.
Qed.

Lemma NoDup_app_intro {A} (l1 l2 : list A) : NoDup l1 -> NoDup l2 -> (forall a, In a l1 -> ~ In a l2) -> NoDup (l1 ++ l2).
Proof.
  induction l1 as [|x l1 IH]; cbn; auto. intros H1 H2 H. inversion H1; subst. constructor.
  - rewrite in_app_iff. intros [?|?]; [auto|eapply H; eauto].
  - apply IH; auto.
Qed.

Lemma NoDup_map_inj {A B} (f : A -> B) l : (forall a b, In a l -> In b l -> f a = f b -> a = b) -> NoDup l -> NoDup (map f l).
Proof.
  induction l as [|x l IH]; cbn; intros Hf H; constructor; inversion H; subst.
  - rewrite in_map_iff. intros (y & E & Hy). apply Hf in E; auto. subst; auto.
  - apply IH; auto.
Qed.

Lemma label_blocks_NoDup from p names : 1 <= from -> NoDup names -> NoDup (label_blocks from p names).
Proof.
  intros Hf Hn. revert from Hf; induction p as [|p IH]; intros from Hf; [constructor|].
  rewrite label_blocks_S. apply NoDup_app_intro.
  - apply NoDup_map_inj; auto. intros a b _ _ E. apply lag_label_inj in E; tauto.
  - apply IH; lia.
  - intros s Hs Hs'. apply in_map_iff in Hs. destruct Hs as (v & <- & Hv).
    unfold label_blocks in Hs'. apply in_flat_map in Hs'. destruct Hs' as (m & Hm & Hs').
    apply in_seq in Hm. apply in_map_iff in Hs'. destruct Hs' as (v' & E & _).
    apply lag_label_inj in E; lia.
Qed.

Lemma label_blocks_length from p names : List.length (label_blocks from p names) = p * List.length names.
Proof.
  revert from; induction p as [|p IH]; intros from; auto.
  rewrite label_blocks_S, app_length, map_length, IH. lia.
Qed.

(** default names *)
Lemma default_names_NoDup pre n : NoDup (map (fun i => (pre ++ py_str (i + 1))%string) (seq 0 n)).
Proof.
  apply NoDup_map_inj; [|apply seq_NoDup]. intros a b _ _ E.
  apply string_app_inj_l, py_str_inj in E. lia.
Qed.

Lemma set_name_x_default n (constant : bool) : (constant = false -> 1 <= n) ->
  List.length (set_name_x None n constant) = n /\ NoDup (set_name_x None n constant).
Proof.
  intros H. unfold set_name_x; cbn [truthy]. destruct constant; cbn [List.length].
  - rewrite map_length, seq_length. split; [lia|apply default_names_NoDup].
  - rewrite map_length, seq_length. split; [specialize (H eq_refl); lia|].
    constructor; [|apply default_names_NoDup].
    rewrite in_map_iff. intros (i & E & _). discriminate E.
Qed.

Lemma set_name_x_user l n (constant : bool) : l <> [] ->
  set_name_x (Some l) n constant = (if constant then [] else ["CONSTANT"]) ++ l.
Proof. intros H. destruct l; [congruence|]. destruct constant; reflexivity. Qed.

(** set_name_q_sp *)
Definition key (name : string) : string := if startswith "W_" name then drop2 name else name.

Lemma dget_dset d k v k' : dget (dset d k v) k' = if String.eqb k' k then Some v else dget d k'.
Proof. reflexivity. Qed.

Lemma count_init_mono names d k : dget d k <> None -> dget (fold_left count_init_step names d) k <> None.
Proof.
  revert d; induction names as [|n names IH]; cbn; auto. intros d H. apply IH.
  unfold count_init_step. destruct (startswith "W_" n).
  - destruct (dget d (drop2 n)) eqn:E; auto. rewrite dget_dset. destruct (String.eqb k (drop2 n)); congruence.
  - rewrite dget_dset. destruct (String.eqb k n); congruence.
Qed.

Lemma count_init_dom names d name : In name names -> dget (fold_left count_init_step names d) (key name) <> None.
Proof.
  revert d; induction names as [|n names IH]; cbn; [tauto|]. intros d [->|H]; auto.
  apply count_init_mono. unfold count_init_step, key. destruct (startswith "W_" name).
  - destruct (dget d (drop2 name)) eqn:E; [congruence|]. rewrite dget_dset, String.eqb_refl; congruence.
  - rewrite dget_dset, String.eqb_refl; congruence.
Qed.

Definition total_state (names : list string) (s : res q_sp_state) (len : nat) : Prop :=
  exists d ex out, s = Ok (d, ex, out) /\ List.length out = len /\ (forall n, In n names -> dget d (key n) <> None).

Lemma q_sp_step_total names s len name : In name names -> total_state names s len ->
  total_state names (q_sp_step s name) (S len).
Proof.
  intros Hin (d & ex & out & -> & Hl & Hd). unfold q_sp_step; cbn [bind].
  pose proof (Hd _ Hin) as Hk. unfold key in Hk.
  assert (Hset : forall k v n, In n names -> dget (dset d k v) (key n) <> None).
  { intros k v n Hn. rewrite dget_dset. destruct (String.eqb (key n) k); [congruence|auto]. }
  destruct (startswith "W_" name) eqn:E.
  - destruct (dget d (drop2 name)) as [c|] eqn:Ec; [|congruence].
    eexists _, _, _. split; [reflexivity|]. rewrite app_length. split; [cbn [List.length]; lia|auto].
  - destruct (negb (mem_str ("W_" ++ name) ex)).
    + eexists _, _, _. split; [reflexivity|]. rewrite app_length. split; [cbn [List.length]; lia|auto].
    + destruct (dget d name) as [c|] eqn:Ec; [|congruence].
      eexists _, _, _. split; [reflexivity|]. rewrite app_length. split; [cbn [List.length]; lia|auto].
Qed.

Lemma q_sp_round_total names todo s len : incl todo names -> total_state names s len ->
  total_state names (fold_left q_sp_step todo s) (len + List.length todo).
Proof.
  revert s len; induction todo as [|n todo IH]; cbn; intros s len Hi Hs; [now rewrite Nat.add_0_r|].
  rewrite <- Nat.add_succ_comm. apply IH; [intros a Ha; apply Hi; cbn; auto|].
  apply q_sp_step_total; auto. apply Hi; cbn; auto.
Qed.

Lemma q_sp_rounds_total p names s len : total_state names s len ->
  total_state names (q_sp_rounds p names s) (len + p * List.length names).
Proof.
  revert s len; induction p as [|p IH]; cbn [q_sp_rounds]; intros s len Hs; [cbn; now rewrite Nat.add_0_r|].
  replace (len + S p * List.length names) with ((len + List.length names) + p * List.length names) by lia.
  apply IH, q_sp_round_total; auto. apply incl_refl.
Qed.

Definition inst_names (name_x name_q : list string) (lag_q force_all : bool) : list string :=
  let n0 := if force_all then name_x else tl name_x in if lag_q then n0 ++ name_q else n0.

Lemma set_name_q_sp_total name_x w_lags name_q lag_q force_all :
  exists out, set_name_q_sp name_x w_lags name_q lag_q force_all = Ok out /\
    List.length out = w_lags * List.length (inst_names name_x name_q lag_q force_all).
Proof.
  unfold set_name_q_sp. fold (inst_names name_x name_q lag_q force_all).
  set (names := inst_names name_x name_q lag_q force_all).
  destruct (q_sp_rounds_total w_lags names (Ok (fold_left count_init_step names [], names, [])) 0)
    as (d & ex & out & -> & Hl & _).
  - eexists _, _, _. split; [reflexivity|]. split; auto. intros n Hn. now apply count_init_dom.
  - exists out. cbn. auto.
Qed.

Lemma mem_str_In s l : mem_str s l = true <-> In s l.
Proof.
  unfold mem_str. rewrite existsb_exists. split.
  - intros (x & Hx & E). apply String.eqb_eq in E. congruence.
  - intros H; exists s. now rewrite String.eqb_refl.
Qed.

Lemma startswith_W v : startswith "W_" ("W_" ++ v) = true.
Proof. unfold startswith. cbn. destruct v; reflexivity. Qed.

Lemma count_init_plain names d : (forall n, In n names -> startswith "W_" n = false) ->
  forall k, dget (fold_left count_init_step names d) k =
            if mem_str k names then Some 2 else dget d k.
Proof.
  revert d; induction names as [|n names IH]; intros d Hp k; cbn [fold_left mem_str existsb]; auto.
  rewrite IH by (intros; apply Hp; cbn; auto). unfold count_init_step.
  rewrite (Hp n) by (cbn; auto). rewrite dget_dset. fold (mem_str k names).
  destruct (mem_str k names), (String.eqb k n); auto.
Qed.

(** plain names: round i yields the labels of order i+1 *)
Lemma round0 todo done names d ex out :
  (forall n, In n names -> startswith "W_" n = false) -> names = done ++ todo -> NoDup names ->
  (forall s, In s ex <-> In s names \/ In s (map (lag_label 1) done)) ->
  exists ex', fold_left q_sp_step todo (Ok (d, ex, out)) = Ok (d, ex', out ++ map (lag_label 1) todo) /\
    (forall s, In s ex' <-> In s names \/ In s (map (lag_label 1) names)).
Proof.
  intros Hp. revert done ex out; induction todo as [|t todo IH]; intros done ex out Hn Hd Hex; cbn [fold_left].
  - exists ex. rewrite List.app_nil_r in Hn |- *. subst. cbn [map]. rewrite ?List.app_nil_r. split; auto.
  - assert (Ht : In t names) by (subst; apply in_or_app; cbn; auto).
    unfold q_sp_step at 2; cbn [bind]. rewrite (Hp t Ht).
    assert (Hm : mem_str ("W_" ++ t) ex = false).
    { apply not_true_iff_false. rewrite mem_str_In, Hex. intros [H|H].
      - apply Hp in H. rewrite startswith_W in H; discriminate.
      - apply in_map_iff in H. destruct H as (v & E & Hv). cbn in E. injection E as ->.
        subst names. apply NoDup_remove_2 in Hd. apply Hd, in_or_app; auto. }
    rewrite Hm; cbn [negb].
    destruct (IH (done ++ [t]) (("W_" ++ t)%string :: ex) (out ++ [("W_" ++ t)%string])) as (ex' & E & H').
    + rewrite <- List.app_assoc. exact Hn.
    + exact Hd.
    + intros s. cbn [In]. rewrite Hex, map_app, in_app_iff. cbn. intuition.
    + exists ex'. rewrite E, <- List.app_assoc. auto.
Qed.

Lemma round_S i todo done names d ex out :
  (forall n, In n names -> startswith "W_" n = false) -> names = done ++ todo -> NoDup names ->
  (forall n, In n names -> In (lag_label 1 n) ex) ->
  (forall n, In n done -> dget d n = Some (i + 3)) -> (forall n, In n todo -> dget d n = Some (i + 2)) ->
  exists d' ex', fold_left q_sp_step todo (Ok (d, ex, out)) = Ok (d', ex', out ++ map (lag_label (i + 2)) todo) /\
    (forall n, In n names -> In (lag_label 1 n) ex') /\ (forall n, In n names -> dget d' n = Some (i + 3)).
Proof.
  intros Hp. revert done d ex out; induction todo as [|t todo IH]; intros done d ex out Hn Hd Hex Hdone Htodo; cbn [fold_left].
  - exists d, ex. rewrite List.app_nil_r in Hn. subst. cbn [map]. rewrite List.app_nil_r. auto.
  - assert (Ht : In t names) by (subst; apply in_or_app; cbn; auto).
    unfold q_sp_step at 2; cbn [bind]. rewrite (Hp t Ht).
    assert (Hm : mem_str ("W_" ++ t) ex = true) by (apply mem_str_In; exact (Hex t Ht)).
    rewrite Hm; cbn [negb].
    rewrite Htodo by (cbn; auto).
    destruct (IH (done ++ [t]) (dset d t (i + 2 + 1)) (("W" ++ py_str (i + 2) ++ "_" ++ t)%string :: ex)
                (out ++ [("W" ++ py_str (i + 2) ++ "_" ++ t)%string])) as (d' & ex' & E & H1 & H2).
    + rewrite <- List.app_assoc. exact Hn.
    + exact Hd.
    + intros n Hin. cbn [In]. right. auto.
    + intros n Hin. rewrite dget_dset. apply in_app_or in Hin. destruct (String.eqb_spec n t) as [->|Hne].
      * f_equal; lia.
      * destruct Hin as [Hin|[->|[]]]; [auto|congruence].
    + intros n Hin. rewrite dget_dset. destruct (String.eqb_spec n t) as [->|Hne].
      * exfalso. subst names. apply NoDup_remove_2 in Hd. apply Hd, in_or_app; auto.
      * apply Htodo; cbn; auto.
    + exists d', ex'. rewrite E, <- List.app_assoc. repeat split; auto. cbn [map app].
      replace (i + 2) with (S (S i)) by lia. reflexivity.
Qed.

Lemma rounds_S p i names d ex out :
  (forall n, In n names -> startswith "W_" n = false) -> NoDup names ->
  (forall n, In n names -> In (lag_label 1 n) ex) -> (forall n, In n names -> dget d n = Some (i + 2)) ->
  exists d' ex', q_sp_rounds p names (Ok (d, ex, out)) = Ok (d', ex', out ++ label_blocks (i + 2) p names).
Proof.
  intros Hp Hd. revert i d ex out; induction p as [|p IH]; intros i d ex out Hex Hc; cbn [q_sp_rounds].
  - exists d, ex. cbn. now rewrite List.app_nil_r.
  - destruct (round_S i names [] names d ex out) as (d' & ex' & E & H1 & H2); auto; [cbn; tauto|].
    rewrite E. destruct (IH (S i) d' ex' (out ++ map (lag_label (i + 2)) names)) as (d2 & ex2 & E2); auto.
    { intros n Hn. rewrite H2 by auto. f_equal; lia. }
    exists d2, ex2. rewrite E2, <- List.app_assoc, label_blocks_S. reflexivity.
Qed.

Lemma set_name_q_sp_plain name_x w_lags name_q lag_q force_all :
  let names := inst_names name_x name_q lag_q force_all in
  NoDup names -> (forall n, In n names -> startswith "W_" n = false) ->
  set_name_q_sp name_x w_lags name_q lag_q force_all = Ok (label_blocks 1 w_lags names).
Proof.
  intros names Hd Hp. unfold set_name_q_sp. fold (inst_names name_x name_q lag_q force_all). fold names.
  destruct w_lags as [|p]; [reflexivity|]. cbn [q_sp_rounds].
  destruct (round0 names [] names (fold_left count_init_step names []) names []) as (ex' & E & H1); auto.
  { cbn; tauto. }
  rewrite E. destruct (rounds_S p 0 names (fold_left count_init_step names []) ex' (map (lag_label 1) names)) as (d2 & ex2 & E2); auto.
  - intros n Hn. apply H1. right. now apply in_map.
  - intros n Hn. rewrite count_init_plain by auto. now rewrite (proj2 (mem_str_In _ _) Hn).
  - change ([] ++ map (lag_label 1) names) with (map (lag_label 1) names). rewrite E2. reflexivity.
Qed.

(** names that are first lags W_v: round i yields the labels of order i+2 of v *)
Lemma substring_full s : substring 0 (String.length s) s = s.
Proof. induction s; cbn; congruence. Qed.

Lemma drop2_W v : drop2 ("W_" ++ v) = v.
Proof. unfold drop2. cbn. rewrite Nat.sub_0_r. destruct v; cbn; auto. now rewrite substring_full. Qed.

Lemma count_init_W vs d : (forall v, In v vs -> dget d v = None \/ dget d v = Some 2) ->
  (forall v, In v vs -> dget (fold_left count_init_step (map (lag_label 1) vs) d) v = Some 2).
Proof.
  revert d; induction vs as [|a vs IH]; cbn [map fold_left]; intros d Hd v Hv; [contradiction|].
  assert (Hstep : count_init_step d (lag_label 1 a) =
                  match dget d a with None => dset d a 2 | Some _ => d end).
  { unfold count_init_step. change (lag_label 1 a) with ("W_" ++ a)%string. now rewrite startswith_W, drop2_W. }
  rewrite Hstep.
  assert (Ha : dget (match dget d a with None => dset d a 2 | Some _ => d end) a = Some 2).
  { destruct (Hd a) as [E|E]; [cbn; auto|rewrite E, dget_dset, String.eqb_refl; auto|rewrite E; auto]. }
  set (d1 := match dget d a with None => dset d a 2 | Some _ => d end) in *.
  assert (Hd1 : forall u, In u vs -> dget d1 u = None \/ dget d1 u = Some 2).
  { intros u Hu. unfold d1. destruct (dget d a); [apply Hd; cbn; auto|]. rewrite dget_dset.
    destruct (String.eqb u a); auto. apply Hd; cbn; auto. }
  destruct (in_dec string_dec v vs) as [Hv'|Hv']; [now apply IH|].
  destruct Hv as [->|Hv]; [|contradiction].
  assert (Hpres : forall us d0, ~ In v us -> dget d0 v = Some 2 ->
            dget (fold_left count_init_step (map (lag_label 1) us) d0) v = Some 2).
  { clear. induction us as [|u us IH]; cbn [map fold_left]; auto. intros d0 Hn H0. cbn in Hn.
    apply IH; [tauto|]. unfold count_init_step. change (lag_label 1 u) with ("W_" ++ u)%string.
    rewrite startswith_W, drop2_W. destruct (dget d0 u); auto. rewrite dget_dset.
    destruct (String.eqb_spec v u); [subst; tauto|auto]. }
  apply Hpres; auto.
Qed.

Lemma round_W i todo done vs d ex out :
  vs = done ++ todo -> NoDup vs ->
  (forall n, In n done -> dget d n = Some (i + 3)) -> (forall n, In n todo -> dget d n = Some (i + 2)) ->
  exists d' ex', fold_left q_sp_step (map (lag_label 1) todo) (Ok (d, ex, out)) = Ok (d', ex', out ++ map (lag_label (i + 2)) todo) /\
    (forall n, In n vs -> dget d' n = Some (i + 3)).
Proof.
  revert done d ex out; induction todo as [|t todo IH]; intros done d ex out Hn Hd Hdone Htodo; cbn [map fold_left].
  - exists d, ex. rewrite List.app_nil_r in Hn. subst. cbn [map]. rewrite List.app_nil_r. auto.
  - unfold q_sp_step at 2; cbn [bind]. change (lag_label 1 t) with ("W_" ++ t)%string.
    rewrite startswith_W, drop2_W. rewrite Htodo by (cbn; auto).
    destruct (IH (done ++ [t]) (dset d t (i + 2 + 1)) (("W" ++ py_str (i + 2) ++ "_" ++ t)%string :: ex)
                (out ++ [("W" ++ py_str (i + 2) ++ "_" ++ t)%string])) as (d' & ex' & E & H2).
    + rewrite <- List.app_assoc. exact Hn.
    + exact Hd.
    + intros n Hin. rewrite dget_dset. apply in_app_or in Hin. destruct (String.eqb_spec n t) as [->|Hne].
      * f_equal; lia.
      * destruct Hin as [Hin|[->|[]]]; [auto|congruence].
    + intros n Hin. rewrite dget_dset. destruct (String.eqb_spec n t) as [->|Hne].
      * exfalso. subst vs. apply NoDup_remove_2 in Hd. apply Hd, in_or_app; auto.
      * apply Htodo; cbn; auto.
    + exists d', ex'. rewrite E, <- List.app_assoc. repeat split; auto. cbn [map app].
      replace (i + 2) with (S (S i)) by lia. reflexivity.
Qed.

Lemma rounds_W p i vs d ex out : NoDup vs ->
  (forall n, In n vs -> dget d n = Some (i + 2)) ->
  exists d' ex', q_sp_rounds p (map (lag_label 1) vs) (Ok (d, ex, out)) = Ok (d', ex', out ++ label_blocks (i + 2) p vs).
Proof.
  intros Hd. revert i d ex out; induction p as [|p IH]; intros i d ex out Hc; cbn [q_sp_rounds].
  - exists d, ex. cbn. now rewrite List.app_nil_r.
  - destruct (round_W i vs [] vs d ex out) as (d' & ex' & E & H2); auto; [cbn; tauto|].
    rewrite E. destruct (IH (S i) d' ex' (out ++ map (lag_label (i + 2)) vs)) as (d2 & ex2 & E2); auto.
    { intros n Hn. rewrite H2 by auto. f_equal; lia. }
    exists d2, ex2. rewrite E2, <- List.app_assoc, label_blocks_S. reflexivity.
Qed.

Lemma set_name_q_sp_W c vs w_lags lag_q : NoDup vs ->
  set_name_q_sp (c :: map (lag_label 1) vs) w_lags [] lag_q false = Ok (label_blocks 2 w_lags vs).
Proof.
  intros Hd. unfold set_name_q_sp. cbn [tl].
  replace (if lag_q then map (lag_label 1) vs ++ [] else map (lag_label 1) vs) with (map (lag_label 1) vs)
    by (destruct lag_q; rewrite ?List.app_nil_r; auto).
  destruct (rounds_W w_lags 0 vs (fold_left count_init_step (map (lag_label 1) vs) []) (map (lag_label 1) vs) [])
    as (d & ex & E); auto.
  - intros n Hn. apply count_init_W; auto.
  - cbn [Nat.add] in E. rewrite E. reflexivity.
Qed.
