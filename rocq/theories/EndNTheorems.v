(** C96: the names of the variables with endogenous regimes *)
From Coq Require Import Lia.
From Verif Require Import PyBase ChecksModel ChecksProofs ChecksTheorems EndNModel.
Open Scope string_scope.
Open Scope list_scope.
Open Scope nat_scope.

Lemma pick_err names idx i : In i idx -> List.length names <= i -> pick names idx = Err "IndexError".
Proof.
  intros Hi Hl. unfold pick. induction idx as [|j idx IH]; [destruct Hi|]. cbn [map_res].
  destruct (nth_error names j) as [s|] eqn:E; cbn [bind]; [|reflexivity].
  destruct Hi as [->|Hi].
  - apply nth_error_None in Hl. rewrite Hl in E. discriminate.
  - rewrite (IH Hi). reflexivity.
Qed.
Lemma in_nonzero_from i m k : nth_error m k = Some true -> In (i + k) (nonzero_from i m).
Proof.
  revert i k; induction m as [|b m IH]; intros i k H; [destruct k; discriminate|]. destruct k as [|k]; cbn in H.
  - injection H as ->. cbn. left. lia.
  - specialize (IH (S i) k H). replace (i + S k) with (S i + k) by lia. destruct b; cbn; auto.
Qed.
Lemma in_nonzero m k : nth_error m k = Some true -> In k (nonzero m).
Proof. intros H. exact (in_nonzero_from 0 m k H). Qed.
Lemma compress_lt {A} (l : list A) m : List.length l = List.length m -> In false m -> List.length (compress l m) < List.length m.
Proof.
  revert l; induction m as [|b m IH]; intros [|a l] H Hi; cbn in *; try discriminate; [destruct Hi|].
  assert (Hle : List.length (compress l m) <= List.length m).
  { assert (H' : List.length l = List.length m) by lia. clear -H'. revert l H'.
    induction m as [|c m IH]; intros [|a l] H; cbn in *; try discriminate; auto. destruct c; cbn; specialize (IH l ltac:(lia)); lia. }
  destruct b; cbn; [|lia]. destruct Hi as [Hi|Hi]; [discriminate|]. specialize (IH l ltac:(lia) Hi). lia.
Qed.
Lemma compress_some {A} (l : list A) m : List.length l = List.length m -> In true m -> compress l m <> [].
Proof.
  revert l; induction m as [|b m IH]; intros [|a l] H Hi; cbn in *; try discriminate; [destruct Hi|].
  destruct b; [discriminate|]. destruct Hi as [Hi|Hi]; [discriminate|]. apply IH; auto.
Qed.
Lemma all_varying x : filter constb (compress x (map negb (map constb x))) = [].
Proof. induction x as [|c x IH]; cbn; auto. destruct (constb c) eqn:E; cbn; auto. rewrite E. exact IH. Qed.
Lemma compress_in {A} (l : list A) m a : In a (compress l m) -> In a l.
Proof. revert m; induction l as [|b l IH]; intros [|c m] H; cbn in *; try contradiction. destruct c; cbn in H; [destruct H; auto|]; right; eapply IH; eauto. Qed.
Lemma compress_length2 {A B} (l : list A) (l' : list B) m : List.length l = List.length l' -> List.length (compress l m) = List.length (compress l' m).
Proof.
  revert l l'; induction m as [|b m IH]; intros [|a l] [|a' l'] H; cbn in *; try discriminate; auto.
  destruct b; cbn; rewrite (IH l l'); auto.
Qed.
Lemma mask_id {A} (l : list A) x : List.length l = List.length x -> filter constb x = [] -> compress l (map negb (map constb x)) = l.
Proof.
  revert x; induction l as [|a l IH]; intros [|c x] H F; cbn in *; try discriminate; auto.
  destruct (constb c); [discriminate|]. cbn. rewrite IH; auto.
Qed.

(** OLS_Endog_Regimes and TSLS_Endog_Regimes, and GM_Lag_Endog_Regimes when no column of x is constant: the regression uses the varying columns of x, in order,
    with their own names *)
(* partial; missing: GM_Lag_Endog_Regimes with a constant column (C96_names_refuted) *)
Theorem C96_names_partial : forall (lag : bool) h nrows x r, (forall c, In c x -> c <> []) -> r < List.length h -> List.length (deref h r) = List.length x ->
  (lag = true -> forall c, In c x -> ~ constant_col c) ->
  exists h' cols r' k, endog_names lag h nrows x (Some r) = Ok (h', cols, Some r', k) /\
    selects (fun c => ~ constant_col c) x x cols /\ selects (fun c => ~ constant_col c) x (deref h r) (deref h' r').
Proof.
  intros lag h nrows x r Hne Hr Hl Hlag.
  destruct (check_constant_spec h nrows x (Some r) true Hne) as (h1 & keep & E & Hold & Hk).
  { intros r0 [= <-]. auto. }
  destruct keep as [r1|]; [|destruct Hk]. destruct Hk as [Hr1 Hk]. cbn [app] in E. unfold endog_names. rewrite E. cbn [bind].
  set (x1 := compress x (map negb (map constb x))) in *.
  assert (Ex : (if lag then x else x1) = x1).
  { destruct lag; auto. unfold x1. symmetry. apply mask_id; auto. specialize (Hlag eq_refl). clear -Hlag Hne.
    induction x as [|c x IH]; cbn; auto. destruct (constb c) eqn:E.
    - exfalso. apply (Hlag c); [now left|]. apply constb_true; auto. apply Hne. now left.
    - apply IH; intros; [apply Hne|apply Hlag]; now right. }
  rewrite Ex.
  assert (Hne1 : forall c, In c x1 -> c <> []) by (intros c Hc; apply Hne; eapply compress_in; exact Hc).
  assert (Hl1 : List.length (deref h1 r1) = List.length x1) by (rewrite Hk; apply compress_length2; auto).
  assert (Hr1' : r1 < List.length h1 \/ x1 = []).
  { destruct (Nat.lt_ge_cases r1 (List.length h1)); auto. right. unfold deref in Hl1. rewrite nth_overflow in Hl1 by auto. cbn in Hl1.
    destruct x1; auto; discriminate. }
  assert (F : filter constb x1 = []) by apply all_varying.
  destruct Hr1' as [Hr1'|Hx1].
  - destruct (check_constant_spec h1 nrows x1 (Some r1) true Hne1) as (h2 & keep & E2 & Hold2 & Hk2).
    { intros r0 [= <-]. auto. }
    destruct keep as [r2|]; [|destruct Hk2]. destruct Hk2 as [Hr2 Hk2]. cbn [app] in E2.
    rewrite (mask_id (deref h1 r1) x1) in Hk2 by auto. rewrite (mask_id x1 x1) in E2 by auto.
    exists h2, x1, r2, (List.length (filter (fun b => b) (map constb x1))). split; [exact E2|]. split; [apply compress_selects; auto|].
    rewrite Hk2, Hk. apply compress_selects; auto.
  - rewrite Hx1 in *. cbn. eexists _, _, _, _. split; [reflexivity|]. split; [rewrite <- Hx1; apply compress_selects; auto|].
    rewrite deref_app_new, Hk. apply compress_selects; auto.
Qed.

(** GM_Lag_Endog_Regimes with named variables of which one is constant (and one varies) always fails with an IndexError *)
Theorem C96_names_refuted : forall h nrows x r c1 c2, (forall c, In c x -> c <> []) -> r < List.length h -> List.length (deref h r) = List.length x ->
  In c1 x -> constant_col c1 -> In c2 x -> ~ constant_col c2 -> endog_names true h nrows x (Some r) = Err "IndexError".
Proof.
  intros h nrows x r c1 c2 Hne Hr Hl I1 C1 I2 C2.
  destruct (check_constant_spec h nrows x (Some r) true Hne) as (h1 & keep & E & Hold & Hk).
  { intros r0 [= <-]. auto. }
  destruct keep as [r1|]; [|destruct Hk]. destruct Hk as [Hr1 Hk]. cbn [app] in E. unfold endog_names. rewrite E. cbn [bind].
  set (m := map constb x) in *.
  assert (Hm : List.length (map negb m) = List.length x) by (unfold m; now rewrite !map_length).
  assert (T1 : In true m) by (apply in_map_iff; exists c1; split; auto; apply constb_true; auto).
  assert (T2 : In false m).
  { apply in_map_iff; exists c2; split; auto. destruct (constb c2) eqn:E2; auto. exfalso. apply C2. apply constb_true; auto. }
  assert (Llt : List.length (deref h1 r1) < List.length x).
  { rewrite Hk. rewrite <- Hm. apply compress_lt; [now rewrite Hm|]. apply in_map_iff. exists true; auto. }
  assert (Lnil : deref h1 r1 <> []).
  { rewrite Hk. apply compress_some; [now rewrite Hm|]. apply in_map_iff. exists false; auto. }
  unfold check_constant.
  assert (Hd : exists diffs, map_res ptp x = Ok diffs).
  { clear -Hne. induction x as [|c x IH]; cbn; [eauto|]. destruct c as [|a t]; [exfalso; apply (Hne []); cbn; auto|].
    cbn. destruct IH as (ds & ->); [intros; apply Hne; cbn; auto|]. cbn; eauto. }
  destruct Hd as (diffs & Ed). rewrite Ed. cbn [bind].
  rewrite (map_res_ptp_pos x diffs Ed), !(map_res_ptp_mask x diffs Ed). fold m. cbn [py_copy].
  assert (Hc : 0 < List.length (filter (fun b => b) m)).
  { clear -T1. induction m as [|b m IH]; [destruct T1|]. destruct T1 as [->|T1]; cbn; [lia|]. destruct b; cbn; [lia|auto]. }
  destruct (Nat.ltb_spec 0 (List.length (filter (fun b => b) m))) as [_|Hc']; [|lia].
  rewrite deref_app_new. destruct (deref h1 r1) as [|s names] eqn:En; [congruence|]. rewrite <- En in *.
  destruct (nth_error m (List.length x - 1)) as [b|] eqn:Eb.
  2:{ apply nth_error_None in Eb. unfold m in Eb. rewrite map_length in Eb. lia. }
  destruct b.
  - rewrite (pick_err _ (nonzero m) (List.length x - 1)); [reflexivity|apply in_nonzero; auto|lia].
  - destruct (pick (deref h1 r1) (nonzero m)) as [ks|e] eqn:Ep; cbn [bind].
    + rewrite (pick_err _ (nonzero (map negb m)) (List.length x - 1)); [reflexivity| |lia].
      apply in_nonzero. rewrite nth_error_map, Eb. reflexivity.
    + unfold pick in Ep. revert Ep. generalize (nonzero m). intros idx. revert e. induction idx as [|i idx IH]; intros e; cbn; [discriminate|].
      destruct (nth_error (deref h1 r1) i); cbn; [|intros [= <-]; reflexivity].
      destruct (map_res _ idx); cbn; [discriminate|]. intros [= <-]. now apply IH.
Qed.

(** a constant column first, a varying one second *)
Example C96_names_witness :
  endog_names false [["one"; "a"]] 3 [[1; 1; 1]; [1; 2; 3]]%Z (Some 0) = Ok ([["one"; "a"]; ["a"]; ["a"]], [[1; 2; 3]]%Z, Some 2, 0) /\
  endog_names true [["one"; "a"]] 3 [[1; 1; 1]; [1; 2; 3]]%Z (Some 0) = Err "IndexError" /\
  endog_names true [["b"; "a"]] 3 [[1; 1; 2]; [1; 2; 3]]%Z (Some 0) = Ok ([["b"; "a"]; ["b"; "a"]; ["b"; "a"]], [[1; 1; 2]; [1; 2; 3]]%Z, Some 2, 0).
Proof. repeat split; reflexivity. Qed.
