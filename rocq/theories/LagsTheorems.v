(** Property theorems C02 (SLX names), C20 (lag construction), C21 (dense vs sparse instrument builders). *)
From Verif Require Import PyBase LagsModel LagsSpec LagsProofs.
Open Scope string_scope.
Open Scope list_scope.
Open Scope nat_scope.

(** A concrete weights matrix acting on concrete columns, used by the examples: 3x3 row-standardisation-free W. *)
Definition W3 : list (list Z) := [[0;1;0]; [1;0;1]; [0;1;0]]%Z.
Definition dotZ (a b : list Z) : Z := fold_right Z.add 0%Z (map (fun p => (fst p * snd p)%Z) (combine a b)).
Definition lagW3 (c : list Z) : list Z := map (fun row => dotZ row c) W3.
Definition xa : list Z := [1;2;4]%Z.
Definition xb : list Z := [3;5;9]%Z.
Definition one3 : list Z := [1;1;1]%Z.

(** C20.  [lag] is any operator on columns, so in particular the product with any weights matrix. *)
Theorem C20_get_lags : forall (C : Type) (lag : C -> C) (x : list C) (p : nat), 1 <= p ->
  get_lags lag x p = flat_map (fun m => map (Nat.iter m lag) x) (seq 1 p).
Proof. intros C lag x p Hp. exact (get_lags_spec lag x p Hp). Qed.

Theorem C20_get_lags_split : forall (C : Type) (lag : C -> C) (x : list C) (mx s : nat),
  0 < s < mx ->
  exists low high, get_lags_split lag x mx s = Ok (low, high) /\
    low = get_lags lag x s /\ low ++ high = get_lags lag x mx.
Proof.
  intros C lag x mx s H. eexists _, _. split; [now apply get_lags_split_spec|].
  rewrite !get_lags_spec by lia. split; auto.
  replace mx with (s + (mx - s)) at 2 by lia. rewrite lag_blocks_app. reflexivity.
Qed.

Theorem C20_get_lags_split_rejects : forall (C : Type) (lag : C -> C) (x : list C) (mx s : nat),
  ~ (0 < s < mx) -> exists e, get_lags_split lag x mx s = Err e.
Proof. intros C lag. exact (get_lags_split_err lag). Qed.

Example C20_witness : get_lags_split lagW3 [xa; xb] 3 1 =
  Ok ([[2;5;2]; [5;12;5]]%Z, [[5;4;5]; [12;10;12]; [4;10;4]; [10;24;10]]%Z).
Proof. reflexivity. Qed.

(** The documented default order is one; asking for zero lags still returns one block. *)
Theorem C20_zero_lags_gives_one : forall (C : Type) (lag : C -> C) (x : list C), get_lags lag x 0 = map lag x.
Proof. reflexivity. Qed.

(** C02.  [truthful vars cols names]: same length, and the j-th name is the label of order m of a variable v
    exactly when the j-th column is W^m v. *)
Theorem C02_slx_names : forall (C : Type) (lag : C -> C) (x : list C) (name_x : list string) (constant : bool)
    (slx_lags : nat) (v : slxv) bigx names q,
  1 <= slx_lags -> List.length x = List.length name_x ->
  flex_wx lag x name_x constant slx_lags v 0 = Ok (bigx, names, q) ->
  q = None /\
  bigx = x ++ lag_blocks lag 1 slx_lags (slx_selected v (if constant then tl x else x)) /\
  names = name_x ++ label_blocks 1 slx_lags (slx_selected v (if constant then tl name_x else name_x)) /\
  truthful lag (combine name_x x) bigx names.
Proof.
  intros C lag x name_x constant p v bigx names q Hs Hl Hr.
  pose proof (flex_wx_truthful lag x name_x constant p v _ Hs Hl Hr) as Ht. cbn in Ht.
  assert (Hm : slx_mask_ok v (if constant then tl x else x)).
  { assert (Hl' : List.length (if constant then tl x else x) = List.length (if constant then tl name_x else name_x)).
    { destruct constant; auto. now apply tl_length_eq. }
    destruct v as [| |m]; cbn; auto. unfold flex_wx in Hr.
    destruct (Nat.eqb_spec (List.length m) (List.length (if constant then tl name_x else name_x))) as [E|E];
      [congruence|discriminate Hr]. }
  rewrite (flex_wx_spec lag x name_x constant p v Hs Hl Hm) in Hr.
  injection Hr as <- <- <-. auto.
Qed.

(** the mask has to match the regressors, and a matching mask (or "all") is always accepted *)
Theorem C02_slx_accepts : forall (C : Type) (lag : C -> C) (x : list C) (name_x : list string) (constant : bool)
    (slx_lags : nat) (v : slxv),
  1 <= slx_lags -> List.length x = List.length name_x ->
  (is_ok (flex_wx lag x name_x constant slx_lags v 0) = true <->
   match v with SlxMask m => List.length m = List.length (if constant then tl x else x) | _ => True end).
Proof.
  intros C lag x name_x constant p v Hs Hl.
  assert (Hl' : List.length (if constant then tl x else x) = List.length (if constant then tl name_x else name_x)).
  { destruct constant; auto. now apply tl_length_eq. }
  split.
  - destruct v as [| |m]; auto. unfold flex_wx.
    destruct (Nat.eqb_spec (List.length m) (List.length (if constant then tl name_x else name_x))) as [E|E];
      [congruence|discriminate].
  - intros Hm. rewrite flex_wx_spec; auto.
Qed.

(** With instrument lags (q_lags >= 1): the regressor part is always truthful; names and instrument columns have
    the same number; instrument names are truthful when no variable is masked out.
    What is missing: a mask with some False entry, where the code concatenates the two instrument groups in
    opposite orders (see [C02_q_names_refuted]). *)
Theorem C02_slx_q_names_partial : forall (C : Type) (lag : C -> C) (x : list C) (name_x : list string)
    (constant : bool) (slx_lags : nat) (v : slxv) (q_lags : nat) bigx names q,
  1 <= slx_lags -> 1 <= q_lags -> List.length x = List.length name_x ->
  flex_wx lag x name_x constant slx_lags v q_lags = Ok (bigx, names, q) ->
  truthful lag (combine name_x x) bigx names /\
  exists bq nq, q = Some (bq, nq) /\ List.length bq = List.length nq /\
    (match v with SlxMask m => forallb (fun b => b) m = true | _ => True end ->
     truthful lag (combine name_x x) bq nq).
Proof.
  intros C lag x name_x constant p v ql bigx names q Hs Hq Hl Hr.
  exact (flex_wx_q_truthful lag x name_x constant p v ql _ Hs Hq Hl Hr).
Qed.

Example C02_witness : exists bigx names,
  flex_wx lagW3 [one3; xa; xb] ["CONSTANT"; "a"; "b"] true 2 (SlxMask [false; true]) 0 = Ok (bigx, names, None) /\
  names = ["CONSTANT"; "a"; "b"; "W_b"; "W2_b"] /\
  bigx = [one3; xa; xb; [5;12;5]; [12;10;12]]%Z.
Proof. eexists _, _. split; [reflexivity|split; reflexivity]. Qed.

(** The instrument names are attached to the wrong columns as soon as one variable is masked out. *)
Theorem C02_q_names_refuted : exists (x : list (list Z)) name_x m bigx names bq nq,
  List.length x = List.length name_x /\
  flex_wx lagW3 x name_x true 1 (SlxMask m) 1 = Ok (bigx, names, Some (bq, nq)) /\
  nth_error nq 0 = Some "W_b" /\ nth_error bq 0 = Some (Nat.iter 2 lagW3 xa) /\
  ~ truthful lagW3 (combine name_x x) bq nq.
Proof.
  exists [one3; xa; xb], ["CONSTANT"; "a"; "b"], [true; false].
  eexists _, _, _, _. split; [reflexivity|]. split; [reflexivity|]. split; [reflexivity|]. split; [reflexivity|].
  intros H. inversion H as [|c s cs ss (m & v & c0 & Hin & Hs & Hc) Hrest]; subst. clear H Hrest.
  assert (Hm : m = 1 /\ v = "b" \/ m = 0 /\ v = "W_b").
  { destruct m as [|[|m]]; cbn [lag_label] in Hs.
    - right; auto.
    - left; cbn in Hs. injection Hs as Hs. auto.
    - exfalso. cbn in Hs. injection Hs as Hs. destruct (py_str (S (S m))) as [|a s'] eqn:E.
      + unfold py_str in E. destruct (Nat.to_uint (S (S m))) eqn:E2; try discriminate E.
        pose proof (DecimalNat.Unsigned.of_to (S (S m))) as F. rewrite E2 in F. discriminate F.
      + cbn in Hs. injection Hs as Ha _. subst a.
        unfold py_str in E. destruct (Nat.to_uint (S (S m))); discriminate E. }
  destruct Hm as [[-> ->]|[-> ->]]; cbn in Hin;
    repeat match goal with H : _ \/ _ |- _ => destruct H end; try congruence; try contradiction.
  injection H as <-. vm_compute in Hc. discriminate.
Qed.

(** C21: without SLX terms the dense builder's instruments are q followed by the lag blocks. *)
Definition spec_endog {C} (lag : C -> C) (y : C) (x : list C) (yend q : option (list C)) (w_lags : nat) (lag_q : bool)
  : option (list C * list C) :=
  match yend, q with
  | Some ye, Some q0 => Some (ye ++ [lag y], q0 ++ lag_blocks lag 1 w_lags (if lag_q then x ++ q0 else x))
  | Some _, None => None
  | None, _ => Some ([lag y], lag_blocks lag 1 w_lags x)
  end.

Theorem C21_set_endog_dense : forall (C : Type) (lag : C -> C) y x yend q w_lags lag_q v, 1 <= w_lags ->
  match spec_endog lag y x yend q w_lags lag_q with
  | Some (ye, iv) => set_endog lag y x yend q w_lags lag_q 0 v = Ok (ye, iv, None)
  | None => is_ok (set_endog lag y x yend q w_lags lag_q 0 v) = false
  end.
Proof.
  intros C lag y x yend q p lq v Hp. unfold spec_endog. rewrite (set_endog_noslx lag y x yend q p lq v Hp).
  destruct yend as [ye|], q as [q0|]; reflexivity.
Qed.

(** Same endogenous variables and the same SET of instrument columns for every order; identical list for w_lags <= 2.
    Missing: equality of the lists for w_lags >= 3, which is false (next theorem). *)
Theorem C21_sparse_agrees_partial : forall (C : Type) (lag : C -> C) y x yend q w_lags lag_q v ye iv z ye' iv',
  1 <= w_lags ->
  set_endog lag y x yend q w_lags lag_q 0 v = Ok (ye, iv, z) ->
  set_endog_sparse lag y x yend q w_lags lag_q = Ok (ye', iv') ->
  ye = ye' /\ (forall c, In c iv <-> In c iv') /\ (w_lags <= 2 -> iv = iv').
Proof.
  intros C lag y x yend q p lq v ye iv z ye' iv' Hp H1 H2.
  assert (H3 : p <= 2 -> iv = iv').
  { intros Hp2. pose proof (sparse_agrees_2 lag y x yend q p lq v (conj Hp Hp2)) as E.
    rewrite H1, H2 in E. cbn in E. congruence. }
  rewrite set_endog_noslx in H1 by auto. unfold set_endog_sparse in H2.
  destruct yend as [e|]; [destruct q as [q0|]|]; try discriminate; injection H1 as <- <- <-; injection H2 as <- <-.
  - split; auto. split; auto.
    intros c. rewrite !in_app_iff. rewrite <- (sparse_same_columns lag p _ c Hp). tauto.
  - split; auto. split; auto.
    intros c. now rewrite <- (sparse_same_columns lag p _ c Hp).
Qed.

(** From three lags on, the sparse builder always repeats instrument columns: H'H is singular. *)
Theorem C21_sparse_repeats_refuted : forall (C : Type) (lag : C -> C) y x w_lags lag_q ye iv,
  3 <= w_lags -> x <> [] ->
  set_endog_sparse lag y x None None w_lags lag_q = Ok (ye, iv) ->
  List.length iv = 2 ^ (w_lags - 1) * List.length x /\ ~ NoDup iv.
Proof.
  intros C lag y x p lq ye iv Hp Hx H. cbn in H. injection H as _ <-. split.
  - rewrite sparse_loop_length. unfold lag_spatial. now rewrite map_length.
  - now apply sparse_duplicates.
Qed.

Example C21_witness :
  exists iv iv', set_endog lagW3 xa [xb] None None 3 true 0 SlxAll = Ok ([lagW3 xa], iv, None) /\
   set_endog_sparse lagW3 xa [xb] None None 3 true = Ok ([lagW3 xa], iv') /\
   List.length iv = 3 /\ List.length iv' = 4.
Proof. eexists _, _. repeat split. Qed.

Print Assumptions C20_get_lags.
Print Assumptions C20_get_lags_split.
Print Assumptions C20_get_lags_split_rejects.
Print Assumptions C02_slx_names.
Print Assumptions C02_slx_accepts.
Print Assumptions C02_slx_q_names_partial.
Print Assumptions C02_q_names_refuted.
Print Assumptions C21_set_endog_dense.
Print Assumptions C21_sparse_agrees_partial.
Print Assumptions C21_sparse_repeats_refuted.
