From Verif Require Import PyBase LagsModel LagsSpec.
Open Scope list_scope.
Open Scope nat_scope.

Lemma iter_succ_r {A} n (f : A -> A) x : Nat.iter (S n) f x = Nat.iter n f (f x).
Proof. induction n as [|n IH]; auto. simpl in *. now rewrite <- IH. Qed.

Section P.
Context {C : Type} (lag : C -> C).
Notation lagm := (lagm lag).
Notation lag_blocks := (lag_blocks lag).

Lemma lag_spatial_block m x : lag_spatial lag (map (lagm m) x) = map (lagm (S m)) x.
Proof. unfold lag_spatial. rewrite map_map. reflexivity. Qed.

Lemma lag_spatial_1 x : lag_spatial lag x = map (lagm 1) x.
Proof. reflexivity. Qed.

Lemma lag_blocks_S from p x : lag_blocks from (S p) x = map (lagm from) x ++ lag_blocks (S from) p x.
Proof. reflexivity. Qed.

Lemma lag_blocks_app from p q x : lag_blocks from (p + q) x = lag_blocks from p x ++ lag_blocks (from + p) q x.
Proof. unfold LagsSpec.lag_blocks. rewrite seq_app, flat_map_app. reflexivity. Qed.

Lemma get_lags_loop_spec n m x acc :
  get_lags_loop lag n (map (lagm m) x) acc = acc ++ lag_blocks (S m) n x.
Proof.
  revert m acc; induction n as [|n IH]; intros m acc; cbn [get_lags_loop].
  - unfold LagsSpec.lag_blocks; simpl; now rewrite app_nil_r.
  - rewrite lag_spatial_block, IH, <- app_assoc, lag_blocks_S. reflexivity.
Qed.

Lemma get_lags_spec x p : 1 <= p -> get_lags lag x p = lag_blocks 1 p x.
Proof.
  intros Hp. unfold get_lags. rewrite lag_spatial_1, get_lags_loop_spec.
  destruct p as [|p]; [lia|]. rewrite lag_blocks_S. simpl. now rewrite Nat.sub_0_r.
Qed.

Lemma get_lags_zero x : get_lags lag x 0 = get_lags lag x 1.
Proof. reflexivity. Qed.

Lemma split_low_spec n m x acc :
  split_low lag n (map (lagm m) x) acc = (map (lagm (m + n)) x, acc ++ lag_blocks (S m) n x).
Proof.
  revert m acc; induction n as [|n IH]; intros m acc; cbn [split_low].
  - unfold LagsSpec.lag_blocks; simpl; rewrite app_nil_r, Nat.add_0_r; reflexivity.
  - rewrite lag_spatial_block, IH, <- app_assoc, lag_blocks_S, <- Nat.add_succ_comm. reflexivity.
Qed.

Lemma split_high_spec n m i x h :
  split_high lag n (S i) (map (lagm m) x) (Some h) = Some (h ++ lag_blocks (S m) n x).
Proof.
  revert m i h; induction n as [|n IH]; intros m i h; cbn [split_high].
  - unfold LagsSpec.lag_blocks; simpl; now rewrite app_nil_r.
  - rewrite lag_spatial_block, IH, <- app_assoc, lag_blocks_S. reflexivity.
Qed.

Lemma get_lags_split_spec x mx s :
  0 < s < mx -> get_lags_split lag x mx s = Ok (lag_blocks 1 s x, lag_blocks (S s) (mx - s) x).
Proof.
  intros [H1 H2]. unfold get_lags_split.
  rewrite (proj2 (Nat.ltb_lt _ _) H1), (proj2 (Nat.ltb_lt _ _) H2). cbn [andb].
  rewrite lag_spatial_1, split_low_spec.
  replace (1 + (s - 1)) with s by lia.
  destruct (mx - s) as [|d] eqn:E; [lia|]. cbn [split_high].
  rewrite lag_spatial_block, split_high_spec, <- lag_blocks_S.
  destruct s as [|s]; [lia|]. replace (S s - 1) with s by lia.
  rewrite <- lag_blocks_S. reflexivity.
Qed.

Lemma get_lags_split_err x mx s : ~ (0 < s < mx) -> exists e, get_lags_split lag x mx s = Err e.
Proof.
  intros H. unfold get_lags_split.
  destruct (Nat.ltb_spec 0 s), (Nat.ltb_spec s mx); cbn; eauto; lia.
Qed.

(** names *)
Lemma label_blocks_S from p n : label_blocks from (S p) n = map (lag_label from) n ++ label_blocks (S from) p n.
Proof. reflexivity. Qed.

Lemma name_lags_loop_spec n i names acc :
  name_lags_loop n i names acc = acc ++ label_blocks (i + 2) n names.
Proof.
  revert i acc; induction n as [|n IH]; intros i acc; cbn [name_lags_loop].
  - unfold label_blocks; simpl; now rewrite app_nil_r.
  - rewrite IH, <- app_assoc, label_blocks_S. do 2 f_equal.
    apply map_ext; intros s. replace (i + 2) with (S (S i)) by lia. reflexivity.
Qed.

Lemma set_name_spatial_lags_spec names p : 1 <= p -> set_name_spatial_lags names p = label_blocks 1 p names.
Proof.
  intros Hp. unfold set_name_spatial_lags. rewrite name_lags_loop_spec.
  destruct p as [|p]; [lia|]. rewrite label_blocks_S. simpl Nat.sub. now rewrite Nat.sub_0_r.
Qed.

Lemma name_lags2_spec n j n_i names acc : 1 <= n_i ->
  name_lags2_loop n j n_i names acc = acc ++ label_blocks (j + n_i + 1) n names.
Proof.
  intros Hn. revert j acc; induction n as [|n IH]; intros j acc; cbn [name_lags2_loop].
  - unfold label_blocks; simpl; now rewrite app_nil_r.
  - rewrite IH, <- app_assoc, label_blocks_S. do 2 f_equal.
    apply map_ext; intros s. destruct n_i as [|n']; [lia|].
    replace (j + S n' + 1) with (S (S (j + n'))) by lia. reflexivity.
Qed.

(** alignment *)
Lemma Forall2_len {A B} (R : A -> B -> Prop) l l' : Forall2 R l l' -> List.length l = List.length l'.
Proof. induction 1; simpl; auto. Qed.

Lemma truthful_app vars c1 n1 c2 n2 :
  truthful lag vars c1 n1 -> truthful lag vars c2 n2 -> truthful lag vars (c1 ++ c2) (n1 ++ n2).
Proof. apply Forall2_app. Qed.

Lemma truthful_block m vars c n :
  incl (combine n c) vars -> List.length c = List.length n ->
  truthful lag vars (map (lagm m) c) (map (lag_label m) n).
Proof.
  revert n; induction c as [|c cs IH]; intros [|s ss] Hi Hl; simpl in *; try discriminate; constructor.
  - exists m, s, c. split; [apply Hi; simpl; auto|auto].
  - apply IH; [|lia]. intros a Ha; apply Hi; simpl; auto.
Qed.

Lemma truthful_blocks from p vars c n :
  incl (combine n c) vars -> List.length c = List.length n ->
  truthful lag vars (lag_blocks from p c) (label_blocks from p n).
Proof.
  intros Hi Hl. revert from; induction p as [|p IH]; intros from.
  - constructor.
  - rewrite lag_blocks_S, label_blocks_S. apply truthful_app; [apply truthful_block; auto|apply IH].
Qed.

Lemma truthful_id vars c n :
  incl (combine n c) vars -> List.length c = List.length n -> truthful lag vars c n.
Proof.
  intros Hi Hl. generalize (truthful_block 0 vars c n Hi Hl).
  rewrite (map_ext (lagm 0) (fun a => a)), (map_ext (lag_label 0) (fun a => a)), !map_id; auto.
Qed.

Lemma combine_compress {A B} (a : list A) (b : list B) m :
  combine (compress a m) (compress b m) = compress (combine a b) m \/ List.length a <> List.length b.
Proof.
  revert b m; induction a as [|x a IH]; intros [|y b] m; simpl; auto.
  destruct m as [|[|] m]; simpl; auto.
  - destruct (IH b m) as [H|H]; [left; now rewrite H|right; lia].
  - destruct (IH b m) as [H|H]; [left; now rewrite H|right; lia].
Qed.

Lemma compress_incl {A} (a : list A) m : incl (compress a m) a.
Proof.
  revert m; induction a as [|x a IH]; intros [|[|] m] z Hz; simpl in *; try tauto.
  - destruct Hz as [->|Hz]; auto. right; eapply IH; eauto.
  - right; eapply IH; eauto.
Qed.

Lemma compress_length {A B} (a : list A) (b : list B) m :
  List.length a = List.length b -> List.length (compress a m) = List.length (compress b m).
Proof.
  revert b m; induction a as [|x a IH]; intros [|y b] [|[|] m] H; simpl in *; try discriminate; auto.
Qed.

Lemma combine_tl_incl {A B} (a : list A) (b : list B) : incl (combine (tl a) (tl b)) (combine a b).
Proof.
  destruct a as [|a0 a], b as [|b0 b]; simpl; intros z Hz; simpl; auto.
  destruct a; simpl in Hz; contradiction.
Qed.

Lemma tl_length_eq {A B} (a : list A) (b : list B) :
  List.length a = List.length b -> List.length (tl a) = List.length (tl b).
Proof. destruct a, b; simpl; lia. Qed.

(** selecting columns and names with the same mask *)
Lemma sel_incl {A B} (n : list A) (c : list B) m vars :
  List.length n = List.length c -> incl (combine n c) vars ->
  incl (combine (compress n m) (compress c m)) vars.
Proof.
  intros Hl Hi. destruct (combine_compress n c m) as [->|H]; [|lia].
  intros z Hz. apply Hi. eapply compress_incl; eauto.
Qed.

Definition slx_selected {A} (v : slxv) (l : list A) : list A :=
  match v with SlxMask m => compress l m | _ => l end.

Definition slx_mask_ok {A} (v : slxv) (l : list A) : Prop :=
  match v with SlxMask m => List.length m = List.length l | _ => True end.

Lemma flex_wx_spec (x : list C) (name_x : list string) (constant : bool) slx_lags v :
  1 <= slx_lags -> List.length x = List.length name_x ->
  slx_mask_ok v (if constant then tl x else x) ->
  flex_wx lag x name_x constant slx_lags v 0 =
  Ok (x ++ lag_blocks 1 slx_lags (slx_selected v (if constant then tl x else x)),
      name_x ++ label_blocks 1 slx_lags (slx_selected v (if constant then tl name_x else name_x)), None).
Proof.
  intros Hs Hl Hm. unfold flex_wx.
  assert (Hl' : List.length (if constant then tl x else x) = List.length (if constant then tl name_x else name_x)).
  { destruct constant; auto. now apply tl_length_eq. }
  set (xw := if constant then tl x else x) in *. set (xn := if constant then tl name_x else name_x) in *.
  assert (H : forall (c : list C) (n : list string), List.length c = List.length n ->
     Ok (x ++ get_lags lag c slx_lags, name_x ++ set_name_spatial_lags n slx_lags, None)
     = @Ok (list C * list string * option (list C * list string))
        (x ++ lag_blocks 1 slx_lags c, name_x ++ label_blocks 1 slx_lags n, None)).
  { intros c n Hcn. now rewrite get_lags_spec, set_name_spatial_lags_spec by lia. }
  destruct v as [| |m]; cbn [bind slx_selected]; try (cbn; apply H; exact Hl').
  cbn [slx_mask_ok] in Hm. rewrite <- Hl', Hm, Nat.eqb_refl. unfold np_mask.
  rewrite Hm, Nat.eqb_refl. cbn [bind Nat.ltb Nat.leb]. apply H. now apply compress_length.
Qed.

Lemma flex_wx_truthful (x : list C) (name_x : list string) (constant : bool) slx_lags v r :
  1 <= slx_lags -> List.length x = List.length name_x ->
  flex_wx lag x name_x constant slx_lags v 0 = Ok r ->
  truthful lag (combine name_x x) (fst (fst r)) (snd (fst r)).
Proof.
  intros Hs Hl Hr.
  assert (Hl' : List.length (if constant then tl x else x) = List.length (if constant then tl name_x else name_x)).
  { destruct constant; auto. now apply tl_length_eq. }
  assert (Hm : slx_mask_ok v (if constant then tl x else x)).
  { destruct v as [| |m]; cbn; auto. unfold flex_wx in Hr.
    destruct (Nat.eqb_spec (List.length m) (List.length (if constant then tl name_x else name_x))) as [E|E].
    - congruence.
    - destruct constant; discriminate Hr. }
  rewrite flex_wx_spec in Hr by auto. injection Hr as <-. cbn [fst snd].
  apply truthful_app; [apply truthful_id; [apply incl_refl|auto]|].
  assert (Hi : incl (combine (if constant then tl name_x else name_x) (if constant then tl x else x)) (combine name_x x)).
  { destruct constant; [apply combine_tl_incl|apply incl_refl]. }
  apply truthful_blocks.
  - destruct v as [| |m]; cbn [slx_selected]; auto. apply sel_incl; auto.
  - destruct v as [| |m]; cbn [slx_selected]; auto. now apply compress_length.
Qed.

(** q_lags > 0: the regressor part is right for every mask *)
Lemma flex_wx_q_truthful (x : list C) (name_x : list string) (constant : bool) slx_lags v q_lags r :
  1 <= slx_lags -> 1 <= q_lags -> List.length x = List.length name_x ->
  flex_wx lag x name_x constant slx_lags v q_lags = Ok r ->
  truthful lag (combine name_x x) (fst (fst r)) (snd (fst r)) /\
  (exists bq nq, snd r = Some (bq, nq) /\ List.length bq = List.length nq /\
     (match v with SlxMask m => forallb (fun b => b) m = true | _ => True end ->
        truthful lag (combine name_x x) bq nq)).
Proof.
  intros Hs Hq Hl Hr.
  assert (Hl' : List.length (if constant then tl x else x) = List.length (if constant then tl name_x else name_x)).
  { destruct constant; auto. now apply tl_length_eq. }
  assert (Hi : incl (combine (if constant then tl name_x else name_x) (if constant then tl x else x)) (combine name_x x)).
  { destruct constant; [apply combine_tl_incl|apply incl_refl]. }
  unfold flex_wx in Hr.
  set (xw := if constant then tl x else x) in *. set (xn := if constant then tl name_x else name_x) in *.
  rewrite (proj2 (Nat.ltb_lt 0 q_lags)) in Hr by lia.
  assert (Hlen : forall from p (c : list C) (n : list string), List.length c = List.length n ->
      List.length (lag_blocks from p c) = List.length (label_blocks from p n)).
  { intros from p c n Hcn. exact (Forall2_len _ _ _ (truthful_blocks from p _ c n (incl_refl _) Hcn)). }
  assert (Key : forall (c : list C) (n : list string) (qopt : option (list C * list string)),
     List.length c = List.length n -> incl (combine n c) (combine name_x x) ->
     (match qopt with Some (qw, qn) => List.length qw = List.length qn | None => True end) ->
     bind (get_lags_split lag c (slx_lags + q_lags) slx_lags)
          (fun '(lagx, lag_xq) =>
             let '(xlagname, qlagname) := set_name_spatial_lags_add n slx_lags q_lags in
             let '(bigq, qlagname2) :=
                   match qopt with
                   | Some (qw, qn) => (lag_xq ++ get_lags lag qw q_lags, set_name_spatial_lags qn q_lags)
                   | None => (lag_xq, [])
                   end in
                 Ok (x ++ lagx, name_x ++ xlagname, Some (bigq, qlagname2 ++ qlagname))) = Ok r ->
     truthful lag (combine name_x x) (fst (fst r)) (snd (fst r)) /\
     (exists bq nq, snd r = Some (bq, nq) /\ List.length bq = List.length nq /\
        (qopt = None -> truthful lag (combine name_x x) bq nq))).
  { clear Hr. intros c n qopt Hcn Hci Hqo Hr.
    rewrite get_lags_split_spec in Hr by lia. cbn [bind] in Hr.
    unfold set_name_spatial_lags_add in Hr.
    rewrite set_name_spatial_lags_spec, name_lags2_spec in Hr by lia.
    replace (0 + (1 + (slx_lags - 1)) + 1) with (S slx_lags) in Hr by lia.
    replace (slx_lags + q_lags - slx_lags) with q_lags in Hr by lia. cbn [app] in Hr.
    assert (T1 : truthful lag (combine name_x x) (x ++ lag_blocks 1 slx_lags c) (name_x ++ label_blocks 1 slx_lags n)).
    { apply truthful_app; [apply truthful_id; [apply incl_refl|auto]|]. apply truthful_blocks; auto. }
    destruct qopt as [[qw qn]|].
    - injection Hr as <-. cbn [fst snd]. split; [exact T1|].
      eexists _, _. split; [reflexivity|]. split; [|discriminate].
      rewrite !app_length, get_lags_spec, set_name_spatial_lags_spec by lia.
      rewrite (Hlen _ _ c n) by auto. rewrite (Hlen 1 _ qw qn) by auto. lia.
    - injection Hr as <-. cbn [fst snd]. split; [exact T1|].
      eexists _, _. split; [reflexivity|]. split.
      + cbn [app]. now apply Hlen.
      + intros _. cbn [app]. now apply truthful_blocks. }
  destruct v as [| |m].
  - cbn [bind] in Hr. destruct (Key _ _ None Hl' Hi I Hr) as (K1 & bq & nq & K2 & K3 & K4); eauto 10.
  - cbn [bind] in Hr. destruct (Key _ _ None Hl' Hi I Hr) as (K1 & bq & nq & K2 & K3 & K4); eauto 10.
  - destruct (Nat.eqb_spec (List.length m) (List.length xn)) as [E|E]; [|discriminate Hr].
    unfold np_mask in Hr. rewrite map_length in Hr.
    rewrite (proj2 (Nat.eqb_eq (List.length m) (List.length xw))) in Hr by congruence.
    destruct (existsb (fun b => b) (map negb m)) eqn:Ex; cbn [bind] in Hr.
    + destruct (Key _ _ (Some (compress xw (map negb m), compress xn (map negb m)))
                  (compress_length _ _ m Hl') (sel_incl _ _ _ _ (eq_sym Hl') Hi)
                  (compress_length _ _ _ Hl') Hr) as (K1 & bq & nq & K2 & K3 & K4).
      split; auto. exists bq, nq. repeat split; auto. intros Hall. exfalso.
      rewrite existsb_exists in Ex. destruct Ex as (b & Hb & Eb). subst b.
      rewrite in_map_iff in Hb. destruct Hb as (b & Eb & Hb).
      rewrite forallb_forall in Hall. specialize (Hall _ Hb). subst b; discriminate.
    + destruct (Key _ _ None (compress_length _ _ m Hl') (sel_incl _ _ _ _ (eq_sym Hl') Hi) I Hr)
        as (K1 & bq & nq & K2 & K3 & K4). split; auto. exists bq, nq; auto.
Qed.

(** set_endog *)
Lemma set_endog_noslx y x yend q w_lags lag_q v :
  1 <= w_lags ->
  set_endog lag y x yend q w_lags lag_q 0 v =
  match yend, q with
  | Some ye, Some q0 => Ok (ye ++ [lag y], q0 ++ lag_blocks 1 w_lags (if lag_q then x ++ q0 else x), None)
  | Some _, None => Err "TypeError"
  | None, _ => Ok ([lag y], lag_blocks 1 w_lags x, None)
  end.
Proof.
  intros Hw. unfold set_endog. destruct yend as [ye|], q as [q0|]; cbn; auto; now rewrite ?get_lags_spec by lia.
Qed.

Lemma sparse_loop_length n acc : List.length (sparse_loop lag n acc) = 2 ^ n * List.length acc.
Proof.
  revert acc; induction n as [|n IH]; intros acc; cbn [sparse_loop].
  - simpl; lia.
  - rewrite IH, app_length. unfold lag_spatial; rewrite map_length. simpl; lia.
Qed.

Lemma sparse_loop_mono n acc c : In c acc -> In c (sparse_loop lag n acc).
Proof. revert acc; induction n as [|n IH]; intros acc H; cbn; auto. apply IH, in_or_app; auto. Qed.

Lemma sparse_loop_In n acc c :
  In c (sparse_loop lag n acc) <-> exists j c0, j <= n /\ In c0 acc /\ c = lagm j c0.
Proof.
  revert acc; induction n as [|n IH]; intros acc; cbn [sparse_loop].
  - split.
    + intros H; exists 0, c; cbn; auto.
    + intros (j & c0 & Hj & Hi & ->). assert (j = 0) by lia; subst; exact Hi.
  - rewrite IH. split.
    + intros (j & c0 & Hj & Hi & ->). apply in_app_or in Hi. destruct Hi as [Hi|Hi].
      * exists j, c0; repeat split; auto.
      * unfold lag_spatial in Hi. apply in_map_iff in Hi. destruct Hi as (c1 & <- & Hi).
        exists (S j), c1; repeat split; auto; [lia|]. unfold LagsSpec.lagm.
        now rewrite iter_succ_r.
    + intros (j & c0 & Hj & Hi & ->).
      destruct j as [|j].
      * exists 0, c0; repeat split; [lia|apply in_or_app; auto].
      * exists j, (lag c0). repeat split; [lia| |].
        -- apply in_or_app; right; unfold lag_spatial; now apply in_map.
        -- unfold LagsSpec.lagm. now rewrite iter_succ_r.
Qed.

Lemma lag_blocks_In from p x c :
  In c (lag_blocks from p x) <-> exists m c0, from <= m < from + p /\ In c0 x /\ c = lagm m c0.
Proof.
  unfold LagsSpec.lag_blocks. rewrite in_flat_map. split.
  - intros (m & Hm & Hc). apply in_seq in Hm. apply in_map_iff in Hc. destruct Hc as (c0 & <- & H).
    exists m, c0; auto.
  - intros (m & c0 & Hm & H0 & ->). exists m. split; [apply in_seq; lia|]. now apply in_map.
Qed.

Lemma lag_blocks_length from p x : List.length (lag_blocks from p x) = p * List.length x.
Proof.
  revert from; induction p as [|p IH]; intros from; auto.
  rewrite lag_blocks_S, app_length, map_length, IH. lia.
Qed.

Lemma sparse_same_columns p x c : 1 <= p ->
  (In c (sparse_loop lag (p - 1) (lag_spatial lag x)) <-> In c (lag_blocks 1 p x)).
Proof.
  intros Hp. rewrite sparse_loop_In, lag_blocks_In. split.
  - intros (j & c0 & Hj & Hi & ->). unfold lag_spatial in Hi. apply in_map_iff in Hi.
    destruct Hi as (c1 & <- & Hi). exists (S j), c1. repeat split; auto; [lia|lia|].
    unfold LagsSpec.lagm. now rewrite iter_succ_r.
  - intros (m & c0 & Hm & Hi & ->). exists (m - 1), (lag c0). repeat split; [lia|now apply in_map|].
    unfold LagsSpec.lagm. rewrite <- iter_succ_r. f_equal; lia.
Qed.

Lemma pow2_gt n : 2 <= n -> S n < 2 ^ n.
Proof.
  intros H. induction n as [|n IH]; [lia|]. destruct (Nat.eq_dec n 1) as [->|]; [simpl; lia|].
  assert (2 <= n) by lia. specialize (IH H0). simpl. lia.
Qed.

Lemma sparse_duplicates p x : 3 <= p -> x <> [] ->
  ~ NoDup (sparse_loop lag (p - 1) (lag_spatial lag x)).
Proof.
  intros Hp Hx Hn.
  assert (Hle : List.length (sparse_loop lag (p - 1) (lag_spatial lag x)) <= List.length (lag_blocks 1 p x)).
  { apply NoDup_incl_length; auto. intros c Hc. apply sparse_same_columns; auto; lia. }
  rewrite sparse_loop_length, lag_blocks_length in Hle. unfold lag_spatial in Hle; rewrite map_length in Hle.
  assert (List.length x <> 0) by (destruct x; simpl; congruence).
  pose proof (pow2_gt (p - 1) ltac:(lia)) as Hpow. nia.
Qed.

Lemma sparse_agrees_2 y x yend q w_lags lag_q v : 1 <= w_lags <= 2 ->
  bind (set_endog lag y x yend q w_lags lag_q 0 v) (fun r => Ok (fst r)) =
  set_endog_sparse lag y x yend q w_lags lag_q.
Proof.
  intros Hw. rewrite set_endog_noslx by lia. unfold set_endog_sparse.
  assert (E : forall z, sparse_loop lag (w_lags - 1) (lag_spatial lag z) = lag_blocks 1 w_lags z).
  { intros z. assert (w_lags = 1 \/ w_lags = 2) as [->| ->] by lia; cbn -[lag_spatial].
    - now rewrite app_nil_r.
    - rewrite app_nil_r. unfold lag_spatial. now rewrite map_map. }
  destruct yend as [ye|], q as [q0|]; cbn; auto; now rewrite E.
Qed.
End P.
