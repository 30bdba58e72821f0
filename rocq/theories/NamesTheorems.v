(** Property theorems C01 (one name per column), C03 (spatial instrument names),
    C56 (spatial 2SLS reports truthful instrument names). *)
From Verif Require Import PyBase LagsModel LagsSpec LagsProofs NamesModel NamesProofs LagsTheorems.
Open Scope string_scope.
Open Scope list_scope.
Open Scope nat_scope.

(** C01.  [n] = number of columns of the design matrix; [constant] = "x already contains the constant, do not name it".
    No user names: n pairwise distinct names, the first being CONSTANT unless [constant]. *)
Theorem C01_default_x_names : forall (n : nat) (constant : bool), (constant = false -> 1 <= n) ->
  List.length (set_name_x None n constant) = n /\
  NoDup (set_name_x None n constant) /\
  (constant = false -> hd_error (set_name_x None n constant) = Some "CONSTANT").
Proof.
  intros n constant H. destruct (set_name_x_default n constant H) as [H1 H2]. repeat split; auto.
  intros ->. reflexivity.
Qed.

(** User names are kept verbatim and in order, so there is one name per column exactly when the user gave one name
    per user column (spreg performs no check of its own). *)
Theorem C01_user_x_names : forall (l : list string) (n : nat) (constant : bool), l <> [] ->
  set_name_x (Some l) n constant = (if constant then [] else ["CONSTANT"]) ++ l /\
  (List.length (set_name_x (Some l) n constant) = n <->
   n = List.length l + (if constant then 0 else 1)).
Proof.
  intros l n constant H. rewrite set_name_x_user by auto. split; auto.
  rewrite app_length. destruct constant; cbn; lia.
Qed.

Theorem C01_yend_names : forall (k : nat) (user : option (list string)),
  set_name_yend user None = [] /\
  (truthy user = None -> List.length (set_name_yend user (Some k)) = k /\ NoDup (set_name_yend user (Some k))) /\
  (forall l, l <> [] -> set_name_yend (Some l) (Some k) = l).
Proof.
  intros k user. repeat split.
  - cbn. rewrite H. now rewrite map_length, seq_length.
  - unfold set_name_yend. rewrite H. apply default_names_NoDup.
  - intros [|a l] H; [congruence|reflexivity].
Qed.

Theorem C01_q_names : forall (k ql : nat) (user : option (list string)),
  set_name_q user None 0 = [] /\
  (truthy user = None -> List.length (set_name_q user (Some k) ql) = k /\ NoDup (set_name_q user (Some k) ql)) /\
  (forall l, l <> [] -> set_name_q (Some l) (Some k) ql = l).
Proof.
  intros k ql user. repeat split.
  - cbn. rewrite H. now rewrite map_length, seq_length.
  - unfold set_name_q. rewrite H. apply default_names_NoDup.
  - intros [|a l] H; [congruence|reflexivity].
Qed.

Example C01_witness : set_name_x None 4 false = ["CONSTANT"; "var_1"; "var_2"; "var_3"] /\
  set_name_x (Some ["inc"; "hoval"]) 3 false = ["CONSTANT"; "inc"; "hoval"].
Proof. split; reflexivity. Qed.

(** C03.  [vars] = the variables whose lags are instruments: x without the constant, plus q when lag_q. *)
Definition instrumented (name_x name_q : list string) (lag_q force_all : bool) : list string :=
  (if force_all then name_x else tl name_x) ++ (if lag_q then name_q else []).

Lemma NoDup_app_l {A} (l1 l2 : list A) : NoDup (l1 ++ l2) -> NoDup l1.
Proof.
  induction l1 as [|a l1 IH]; cbn; intros H; constructor; inversion H; subst; auto.
  intros Ha. apply H2, in_or_app; auto.
Qed.

Lemma combine_app_eq {A B} (a a' : list A) (b b' : list B) : List.length a = List.length b ->
  combine (a ++ a') (b ++ b') = combine a b ++ combine a' b'.
Proof.
  revert b; induction a as [|x a IH]; intros [|y b] H; cbn in *; try discriminate; auto. now rewrite IH by lia.
Qed.
Lemma combine_app_incl {A B} (a a' : list A) (b b' : list B) z : List.length b = List.length a ->
  In z (combine a b) -> In z (combine (a ++ a') (b ++ b')).
Proof. intros H Hz. rewrite combine_app_eq by auto. apply in_or_app; auto. Qed.
Lemma combine_app_incl_r {A B} (a a' : list A) (b b' : list B) z : List.length b = List.length a ->
  In z (combine a' b') -> In z (combine (a ++ a') (b ++ b')).
Proof. intros H Hz. rewrite combine_app_eq by auto. apply in_or_app; auto. Qed.

Lemma inst_eq nx nq lq fa : inst_names nx nq lq fa = instrumented nx nq lq fa.
Proof. unfold inst_names, instrumented. destruct lq; now rewrite ?List.app_nil_r. Qed.

(** never raises (no KeyError), whatever the names are, and one name per lag and variable *)
Theorem C03_total : forall name_x w_lags name_q lag_q force_all,
  exists out, set_name_q_sp name_x w_lags name_q lag_q force_all = Ok out /\
    List.length out = w_lags * List.length (instrumented name_x name_q lag_q force_all).
Proof. intros. rewrite <- inst_eq. apply set_name_q_sp_total. Qed.

(** lag-major order, the label of each variable at each order, all distinct *)
Theorem C03_labels : forall name_x w_lags name_q (lag_q force_all : bool),
  let vars := instrumented name_x name_q lag_q force_all in
  NoDup vars -> (forall v, In v vars -> startswith "W_" v = false) ->
  exists out, set_name_q_sp name_x w_lags name_q lag_q force_all = Ok out /\ NoDup out /\
    out = flat_map (fun m => map (lag_label m) vars) (seq 1 w_lags).
Proof.
  intros nx p nq lq fa vars Hd Hp. exists (label_blocks 1 p vars). unfold vars in *.
  rewrite <- inst_eq in *. split; [now apply set_name_q_sp_plain|]. split; auto.
  now apply label_blocks_NoDup.
Qed.

Example C03_witness : set_name_q_sp ["CONSTANT"; "a"; "b"] 3 ["z"] true false =
  Ok ["W_a"; "W_b"; "W_z"; "W2_a"; "W2_b"; "W2_z"; "W3_a"; "W3_b"; "W3_z"].
Proof. vm_compute. reflexivity. Qed.

(** The hypothesis on names is needed: a user variable already called W_a takes the label of the lag of a. *)
Theorem C03_prefix_needed : set_name_q_sp ["CONSTANT"; "W_a"; "a"] 2 [] true false =
  Ok ["W2_a"; "W3_a"; "W4_a"; "W5_a"].
Proof. vm_compute. reflexivity. Qed.


(** C56, no SLX terms: every instrument name of spatial 2SLS is the label of its column.
    Missing: SLX terms together with extra endogenous variables or with a variable mask, where the code's names are
    wrong (the two refutations below). *)
Theorem C56_gm_lag_names_partial : forall (C : Type) (lag : C -> C) y c x nc name_x yend q name_q w_lags
    (lag_q : bool) v iv names xs xn,
  1 <= w_lags -> List.length x = List.length name_x ->
  List.length (match q with Some l => l | None => [] end) = List.length name_q ->
  (yend = None -> q = None) ->
  NoDup (name_x ++ name_q) -> (forall s, In s (name_x ++ name_q) -> startswith "W_" s = false) ->
  gm_lag_instruments lag y (c :: x) (nc :: name_x) yend q (Some name_q) w_lags lag_q 0 v = Ok (iv, names, xs, xn) ->
  xs = c :: x /\ xn = nc :: name_x /\
  truthful lag (combine (name_x ++ name_q) (x ++ match q with Some l => l | None => [] end)) iv names.
Proof.
  intros C lag y c x nc name_x yend q name_q p lag_q v iv names xs xn Hp Hl Hq Hyq Hd Hpre H.
  unfold gm_lag_instruments in H. cbn [Nat.ltb Nat.leb bind tl] in H.
  rewrite set_endog_noslx in H by auto.
  set (nq := set_name_q (Some name_q) (option_map (@List.length C) q) 0) in *.
  assert (Enq : nq = name_q).
  { unfold nq, set_name_q. destruct q as [q0|]; cbn [option_map] in *.
    - destruct name_q as [|a r]; cbn [truthy]; auto. destruct q0; [reflexivity|discriminate Hq].
    - destruct name_q; [reflexivity|discriminate Hq]. }
  rewrite Enq in H. clear nq Enq.
  pose proof (inst_eq (nc :: name_x) name_q lag_q false) as Ei. unfold instrumented in Ei; cbn [tl] in Ei.
  assert (Hd' : NoDup (inst_names (nc :: name_x) name_q lag_q false)).
  { rewrite Ei. destruct lag_q; auto. rewrite List.app_nil_r. apply NoDup_app_l in Hd. auto. }
  assert (Hp' : forall s, In s (inst_names (nc :: name_x) name_q lag_q false) -> startswith "W_" s = false).
  { intros s Hs. apply Hpre. rewrite Ei in Hs. apply in_app_iff in Hs. apply in_app_iff.
    destruct Hs as [?|Hs]; auto. destruct lag_q; [auto|contradiction]. }
  pose proof (set_name_q_sp_plain (nc :: name_x) p name_q lag_q false Hd' Hp') as Es. rewrite Ei in Es.
  assert (Hx : incl (combine name_x x) (combine (name_x ++ name_q) (x ++ match q with Some l => l | None => [] end))).
  { intros z Hz. apply combine_app_incl; auto. }
  destruct yend as [ye|]; [destruct q as [q0|]|rewrite (Hyq eq_refl) in *]; try discriminate H;
    cbn [bind] in H; rewrite Es in H; cbn [bind] in H; injection H as <- <- <- <-.
  - split; [reflexivity|split; [reflexivity|]]. apply truthful_app.
    + apply truthful_id; auto. intros z Hz. apply combine_app_incl_r; auto.
    + destruct lag_q.
      * apply truthful_blocks; [apply incl_refl|rewrite !app_length; lia].
      * rewrite List.app_nil_r. apply truthful_blocks; auto.
  - split; [reflexivity|split; [reflexivity|]]. cbn in Hq. destruct name_q; [|discriminate Hq].
    cbn [app]. rewrite !List.app_nil_r.
    replace (if lag_q then [] else []) with (@nil string) by (destruct lag_q; reflexivity).
    rewrite List.app_nil_r. apply truthful_blocks; [apply incl_refl|auto].
Qed.

(** SLX terms of one order on all regressors and no extra endogenous variable: the instruments are
    W^2 x, ..., W^(w_lags+1) x and are named so. *)
Theorem C56_gm_lag_slx_names_partial : forall (C : Type) (lag : C -> C) y c x nc name_x w_lags (lag_q : bool)
    iv names xs xn,
  1 <= w_lags -> List.length x = List.length name_x -> x <> [] -> NoDup name_x ->
  gm_lag_instruments lag y (c :: x) (nc :: name_x) None None None w_lags lag_q 1 SlxAll = Ok (iv, names, xs, xn) ->
  truthful lag ((nc, c) :: combine name_x x) xs xn /\
  iv = lag_blocks lag 2 w_lags x /\ truthful lag (combine name_x x) iv names.
Proof.
  intros C lag y c x nc name_x p lag_q iv names xs xn Hp Hl Hx Hd H.
  unfold gm_lag_instruments, set_endog in H. change (0 <? 1) with true in H. cbn [bind tl] in H.
  rewrite get_lags_split_spec in H by lia. cbn [bind fst snd] in H.
  replace (1 + p - 1) with p in H by lia.
  rewrite set_name_spatial_lags_spec in H by lia. cbn [option_map] in H. change (set_name_q None None 0) with (@nil string) in H.
  assert (E1 : label_blocks 1 1 name_x = map (lag_label 1) name_x) by (cbn; now rewrite List.app_nil_r).
  assert (E2 : lag_blocks lag 1 1 x = map (lagm lag 1) x) by (cbn; now rewrite List.app_nil_r).
  assert (Hk : 0 <? List.length (nc :: name_x) - 1 = true).
  { apply Nat.ltb_lt. cbn [List.length]. rewrite <- Hl. destruct x; [congruence|cbn; lia]. }
  rewrite Hk in H. rewrite E1 in H. cbn [app] in H.
  assert (E3 : last_n (List.length (nc :: name_x) - 1) (nc :: name_x ++ map (lag_label 1) name_x)
               = map (lag_label 1) name_x).
  { unfold last_n. cbn [List.length]. rewrite app_length, map_length.
    replace (S (List.length name_x + List.length name_x) - (S (List.length name_x) - 1))
      with (S (List.length name_x)) by lia.
    cbn [skipn]. rewrite skipn_app, skipn_all, Nat.sub_diag. reflexivity. }
  rewrite E3 in H. cbn [app] in H.
  rewrite (set_name_q_sp_W nc name_x p lag_q Hd) in H. cbn [bind] in H. injection H as <- <- <- <-.
  split; [|split; [reflexivity|]].
  - rewrite E2. change (nc :: name_x ++ map (lag_label 1) name_x) with ((nc :: name_x) ++ map (lag_label 1) name_x).
    change (c :: x ++ map (lagm lag 1) x) with ((c :: x) ++ map (lagm lag 1) x).
    apply truthful_app.
    + apply truthful_id; [cbn [combine]; apply incl_refl|cbn; lia].
    + apply truthful_block; auto. intros z Hz; cbn; auto.
  - apply truthful_blocks; auto. apply incl_refl.
Qed.

Example C56_witness : exists iv xs,
  gm_lag_instruments lagW3 xa [one3; xb] ["CONSTANT"; "b"] None None None 2 true 1 SlxAll
  = Ok (iv, ["W2_b"; "W3_b"], xs, ["CONSTANT"; "b"; "W_b"]).
Proof. eexists _, _. vm_compute. reflexivity. Qed.

(** With an endogenous variable and SLX terms the label says W^2 b but the column is W^3 b. *)
Theorem C56_yend_slx_refuted : exists iv xs,
  gm_lag_instruments lagW3 xa [one3; xb] ["CONSTANT"; "b"] (Some [xa]) (Some [[7;1;2]]%Z) (Some ["z"]) 1 false 1 SlxAll
    = Ok (iv, ["z"; "W2_b"], xs, ["CONSTANT"; "b"; "W_b"]) /\
  nth_error iv 1 = Some (Nat.iter 3 lagW3 xb) /\ Nat.iter 3 lagW3 xb <> Nat.iter 2 lagW3 xb.
Proof. eexists _, _. split; [vm_compute; reflexivity|]. split; [reflexivity|discriminate]. Qed.

(** A variable mask with two SLX orders makes the documented call raise. *)
Theorem C56_mask_two_lags_raises_refuted : 
  gm_lag_instruments lagW3 xa [one3; xa; xb] ["CONSTANT"; "a"; "b"] None None None 1 true 2 (SlxMask [true; false])
  = Err "IndexError".
Proof. reflexivity. Qed.

(** A variable mask with one SLX order: the first instrument is W^2 a, reported as "W_b". *)
Theorem C56_mask_refuted : exists iv names xs xn,
  gm_lag_instruments lagW3 xa [one3; xa; xb] ["CONSTANT"; "a"; "b"] None None None 1 true 1 (SlxMask [true; false])
  = Ok (iv, names, xs, xn) /\ nth_error names 0 = Some "W_b" /\ nth_error iv 0 = Some (Nat.iter 2 lagW3 xa) /\
  lagW3 xb <> Nat.iter 2 lagW3 xa.
Proof. eexists _, _, _, _. split; [reflexivity|]. split; [reflexivity|]. split; [reflexivity|discriminate]. Qed.

Print Assumptions C01_default_x_names.
Print Assumptions C01_user_x_names.
Print Assumptions C01_yend_names.
Print Assumptions C01_q_names.
Print Assumptions C03_total.
Print Assumptions C03_labels.
Print Assumptions C56_gm_lag_names_partial.
Print Assumptions C56_gm_lag_slx_names_partial.
Print Assumptions C56_yend_slx_refuted.
Print Assumptions C56_mask_refuted.
