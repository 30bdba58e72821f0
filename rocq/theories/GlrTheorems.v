(** C91: preparation of the spatial lag model with regimes. *)
From Verif Require Import PyBase LagsModel LagsSpec LagsProofs LagsTheorems NamesModel NamesProofs NamesTheorems RegimesModel RegimesSpec RegimesProofs GlrModel.
Open Scope string_scope.
Open Scope list_scope.
Open Scope nat_scope.

Lemma check_list constant l kx ky : check_cols2regi constant (C2List l) kx (Some ky) false =
  if Nat.eqb (List.length l) (kx + ky) then Ok l else Err "Exception".
Proof. unfold check_cols2regi. cbn [bind app]. rewrite Nat.sub_0_r. reflexivity. Qed.

Lemma take_idx_err {A} (l : list A) idx i : In i idx -> List.length l <= i -> is_ok (take_idx l idx) = false.
Proof.
  induction idx as [|j idx IH]; intros H Hl; [contradiction|]. cbn [take_idx].
  destruct (nth_error l j) eqn:E; [|reflexivity].
  destruct H as [->|H].
  - assert (nth_error l i <> None) by congruence. apply nth_error_Some in H. lia.
  - specialize (IH H Hl). destruct (take_idx l idx); [discriminate IH|reflexivity].
Qed.

Lemma names_short n names rs : List.length names < n -> names <> [] -> is_ok (frame_names n CNone C2All false names rs) = false.
Proof.
  intros H Hn. unfold frame_names. cbn [bind]. unfold set_name_x_regimes.
  destruct names as [|a t]; [congruence|]. set (l := a :: t) in *.
  assert (E : is_ok (take_idx l (where_ is_true_ (repeat true n))) = false).
  { apply take_idx_err with (i := List.length l); [|lia]. apply where_In. exists true. split; auto.
    rewrite nth_error_repeat by lia. reflexivity. }
  destruct (take_idx l _); [discriminate E|reflexivity].
Qed.

Lemma names_ok n constant c yend names rs : names <> [] -> List.length names = n -> constant <> COther ->
  match c with C2All => True | C2List l => n <= List.length l end ->
  exists r, frame_names n constant c yend names rs = Ok r.
Proof.
  intros Hne Hn Hc Hl. unfold frame_names.
  set (flags := match c with C2All => _ | C2List l => _ end).
  assert (Hf : List.length flags = n).
  { unfold flags. destruct c as [|l]; [apply repeat_length|]. destruct yend.
    - unfold last_flags. destruct (Nat.eqb_spec n 0) as [E|E]; [|rewrite skipn_length; lia].
      destruct names; [congruence|cbn in Hn; lia].
    - rewrite firstn_length. lia. }
  clearbody flags.
  assert (G : forall c1 con, (con = CNone \/ con = COne \/ con = CMany) ->
    List.length c1 = (match con with CNone => 0 | _ => 1 end) + n -> exists r, bind (set_name_x_regimes names con c1 rs) (fun p => Ok (fst p)) = Ok r).
  { intros c1 con Hcon H1. unfold set_name_x_regimes.
    destruct names as [|a t] eqn:En; [congruence|].
    set (nm := if match con with CNone => false | _ => true end then _ else _).
    assert (Hnm : List.length nm = List.length c1).
    { unfold nm. destruct Hcon as [E|[E|E]]; subst con; cbn in *; lia. }
    rewrite (take_idx_map nm (where_ is_true_ c1) "") by
      (intros i Hi; apply where_In in Hi; destruct Hi as (b & Hb & _); rewrite Hnm; apply nth_error_Some; congruence).
    cbn [bind].
    rewrite (take_idx_map nm (where_ is_false_ c1) "") by
      (intros i Hi; apply where_In in Hi; destruct Hi as (b & Hb & _); rewrite Hnm; apply nth_error_Some; congruence).
    cbn [bind fst]. eexists. reflexivity. }
  destruct constant; [| | |congruence]; cbn [bind]; apply G; auto; cbn [List.length]; lia.
Qed.

(** the last estimate is the one of the last (global) variable *)
Lemma last_name n l names a rs r : List.length names = n -> n <= List.length l ->
  frame_names (S n) CNone (C2List (l ++ [false])) true (names ++ [a]) rs = Ok r -> exists r', r = r' ++ ["_Global_" ++ a]%string.
Proof.
  intros Hn Hl. unfold frame_names, last_flags. cbn [Nat.eqb bind].
  rewrite app_length. cbn [List.length]. replace (List.length l + 1 - S n) with (List.length l - n) by lia.
  rewrite skipn_app. replace (List.length l - n - List.length l) with 0 by lia. cbn [skipn].
  set (f := skipn (List.length l - n) l).
  assert (Hf : List.length f = n) by (unfold f; rewrite skipn_length; lia). clearbody f.
  unfold set_name_x_regimes.
  assert (E : forall d, match names ++ [a] with [] => d | _ :: _ => names ++ [a] end = names ++ [a]) by (destruct names; reflexivity). cbv beta iota zeta. rewrite E. clear E.
  assert (B : forall p i, In i (where_ p (f ++ [false])) -> i < List.length (names ++ [a])).
  { intros p i Hi. apply where_In in Hi. destruct Hi as (b & Hb & _).
    rewrite app_length in *. cbn. rewrite Hn, <- Hf. replace (List.length f + 1) with (List.length (f ++ [false])) by (rewrite app_length; reflexivity).
    apply nth_error_Some. congruence. }
  rewrite (take_idx_map _ _ "") by apply B. cbn [bind].
  rewrite (take_idx_map _ (where_ is_false_ _) "") by apply B. cbn [bind fst].
  intros [= <-].
  unfold where_ at 2. rewrite where_from_app. cbn [where_from]. change (is_false_ false) with true. cbn iota.
  rewrite !map_app. cbn [map Nat.add]. rewrite app_nth2 by lia. replace (List.length f - List.length names) with 0 by lia. cbn [nth].
  rewrite List.app_assoc. eexists. reflexivity.
Qed.

Lemma lower_length s : String.length (lower s) = String.length s.
Proof. induction s; cbn; auto. Qed.
Lemma lower_all s : lower s = "all" -> String.length s = 3.
Proof. intros H. rewrite <- lower_length, H. reflexivity. Qed.

Lemma q_temp_length names keep it r : q_temp names keep it = Ok r -> List.length r = Nat.min (List.length names) (List.length keep).
Proof.
  revert keep it r; induction names as [|n ns IH]; intros keep it r; cbn [q_temp].
  - intros [= <-]. reflexivity.
  - destruct keep as [|k ks]; [intros [= <-]; reflexivity|]. destruct k.
    + destruct it as [|i it']; [discriminate|]. destruct (q_temp ns ks it') eqn:E; [|discriminate]. cbn [bind]. intros [= <-].
      cbn. f_equal. eapply IH; eauto.
    + destruct (q_temp ns ks it) eqn:E; [|discriminate]. cbn [bind]. intros [= <-]. cbn. f_equal. eapply IH; eauto.
Qed.

Section Thms.
Context {C : Type} (lag : C -> C).
Notation fit := (gm_lag_regimes lag).
(** columns, or none *)
Definition cols (q : option (list C)) : list C := match q with Some l => l | None => [] end.

(** Explicit flags: whatever the list, the call raises as soon as there are SLX terms *)
Theorem C91_slx_flags_refuted : forall y x yend q w_lags slx_lags slx_vars lag_q constant flags rs name_y nx nye nq,
  0 < slx_lags -> is_ok (fit y x yend q w_lags slx_lags slx_vars lag_q constant (C2List flags) rs name_y nx nye nq) = false.
Proof.
  intros y x yend q p s v lq con flags rs ny nx nye nq Hs. unfold gm_lag_regimes. rewrite (proj2 (Nat.ltb_lt _ _) Hs).
  destruct (set_endog lag y x yend q p lq s (to_slxv v)) as [[[yend2 q2] wx]|]; [|reflexivity]. cbn [bind].
  destruct (q_temp _ _ _) as [qt|]; [|reflexivity]. cbn [bind].
  destruct (set_name_q_sp _ _ _ _ _) as [sp|]; [|reflexivity]. cbn [bind].
  rewrite check_list. destruct (Nat.eqb_spec (List.length flags) (List.length (x ++ match wx with Some lx => lx | None => [] end) + List.length yend2)) as [E|E]; [|reflexivity].
  cbn [bind]. unfold tsls_regimes_frames. rewrite check_list, app_length, E. cbn [List.length].
  destruct (Nat.eqb_spec (List.length (x ++ match wx with Some lx => lx | None => [] end) + List.length yend2 + 1)
    (List.length (x ++ match wx with Some lx => lx | None => [] end) + List.length yend2)); [lia|reflexivity].
Qed.

(** Two or more SLX orders for a selection of the variables raise *)
Theorem C91_slx_mask_refuted : forall y x yend q w_lags slx_lags m lag_q constant c rs name_y nx nye nq,
  2 <= slx_lags -> x <> [] -> is_ok (fit y x yend q w_lags slx_lags (SMask m) lag_q constant c rs name_y nx nye nq) = false.
Proof.
  intros y x yend q p s m lq con c rs ny nx nye nq Hs Hx. unfold gm_lag_regimes. rewrite (proj2 (Nat.ltb_lt 0 s)) by lia.
  assert (E : is_ok (set_endog lag y x yend q p lq s (to_slxv (SMask m))) = false).
  { unfold set_endog. rewrite (proj2 (Nat.ltb_lt 0 s)) by lia.
    assert (G : forall mx a b, get_lags_split lag x mx s = Ok (a, b) -> Nat.eqb (List.length m) (List.length x) = true -> np_mask a m = Err "IndexError").
    { intros mx a b H Hm. destruct (Nat.ltb_spec s mx) as [Hmx|Hmx].
      - rewrite get_lags_split_spec in H by lia. injection H as <- <-. unfold np_mask. apply Nat.eqb_eq in Hm.
        rewrite lag_blocks_length, Hm. destruct x as [|x0 x']; [congruence|]. cbn [List.length].
        destruct (Nat.eqb_spec (S (List.length x')) (s * S (List.length x'))) as [E|]; [nia|reflexivity].
      - destruct (get_lags_split_err lag x mx s) as (e & He); [lia|]. congruence. }
    destruct yend as [ye|].
    - destruct q as [q0|]; [|reflexivity].
      destruct (get_lags_split lag x (s + 1) s) as [[a b]|] eqn:E; [|reflexivity]. cbn [bind fst snd to_slxv].
      destruct (Nat.eqb (List.length m) (List.length x)) eqn:Em; [|reflexivity]. rewrite (G _ _ _ E eq_refl). reflexivity.
    - destruct (get_lags_split lag x (s + p) s) as [[a b]|] eqn:E; [|reflexivity]. cbn [bind fst snd to_slxv].
      destruct (Nat.eqb (List.length m) (List.length x)) eqn:Em; [|reflexivity]. rewrite (G _ _ _ E eq_refl). reflexivity. }
  destruct (set_endog _ _ _ _ _ _ _ _ _) as [[[? ?] ?]|]; [discriminate E|reflexivity].
Qed.

Lemma name_q_length nq (q : option (list C)) : (match q with Some l => l <> [] | None => True end) ->
  (match nq with Some l => l = [] \/ List.length l = List.length (cols q) | None => True end) ->
  List.length (set_name_q nq (option_map (@List.length C) q) 0) = List.length (cols q).
Proof.
  intros Hq Hn. destruct q as [q0|]; cbn [option_map cols] in *; [|reflexivity].
  destruct nq as [[|a t]|]; cbn.
  - now rewrite map_length, seq_length.
  - destruct Hn as [Hn|Hn]; [discriminate Hn|exact Hn].
  - now rewrite map_length, seq_length.
Qed.

(** slx_vars = 'all' (the default) raises with four or more exogenous variables *)
Theorem C91_slx_all_refuted : forall y x yend q w_lags slx_lags s lag_q constant c rs name_y nx nye nq,
  0 < slx_lags -> 1 <= w_lags -> 3 < List.length x -> lower s = "all" ->
  match nx with Some l => List.length l = List.length x | None => True end ->
  match q with Some l => l <> [] | None => True end -> (yend = None -> q = None) ->
  match nq with Some l => l = [] \/ List.length l = List.length (cols q) | None => True end ->
  is_ok (fit y x yend q w_lags slx_lags (SStr s) lag_q constant c rs name_y nx nye nq) = false.
Proof.
  intros y x yend q p s v lq con c rs ny nx nye nq Hs Hp Hx Hv Hnx Hq Hyq Hnq. unfold gm_lag_regimes. rewrite (proj2 (Nat.ltb_lt _ _) Hs).
  destruct (set_endog lag y x yend q p lq s (to_slxv (SStr v))) as [[[yend2 q2] wx]|] eqn:E; [|reflexivity]. cbn [bind].
  set (names := set_name_x nx (List.length x) true).
  set (nqs := set_name_q nq (option_map (@List.length C) q) 0).
  assert (Hl : List.length nqs = List.length (cols q)) by (apply name_q_length; auto).
  destruct (q_temp _ _ _) as [qt|] eqn:Eq; [|reflexivity]. cbn [bind].
  assert (Hqt : List.length qt <= 3).
  { apply q_temp_length in Eq. rewrite Eq. unfold selectors. rewrite repeat_length, (lower_all v Hv). lia. }
  destruct (set_name_q_sp_total qt p nqs lq true) as (sp & -> & Hsp). cbn [bind].
  destruct (check_cols2regi _ c _ _ _) as [c0|]; [|reflexivity]. cbn [bind].
  unfold tsls_regimes_frames.
  destruct (check_cols2regi _ (C2List _) _ _ _) as [fl|]; [|reflexivity]. cbn [bind].
  assert (Hq2 : List.length (nqs ++ sp) < List.length q2).
  { rewrite app_length, Hsp, Hl. unfold inst_names.
    unfold set_endog in E. rewrite (proj2 (Nat.ltb_lt _ _) Hs) in E. unfold to_slxv in E. rewrite Hv in E. cbn [String.eqb Ascii.eqb Bool.eqb] in E.
    destruct yend as [ye|].
    - destruct q as [q0|]; [|discriminate E].
      rewrite get_lags_split_spec in E by lia. cbn [bind fst snd] in E.
      injection E as <- <- <-. cbn [cols] in *.
      rewrite app_length, get_lags_spec by lia. rewrite lag_blocks_length.
      assert (G : List.length (if lq then qt ++ nqs else qt) < List.length (if lq then lag_blocks lag (S s) (s + 1 - s) x ++ q0 else lag_blocks lag (S s) (s + 1 - s) x)).
      { replace (s + 1 - s) with 1 by lia. destruct lq; rewrite ?app_length, lag_blocks_length; lia. }
      nia.
    - rewrite (Hyq eq_refl) in *. cbn [cols List.length] in *. rewrite get_lags_split_spec in E by lia. cbn [bind fst snd] in E.
      injection E as <- <- <-. replace (s + p - s) with p by lia. rewrite lag_blocks_length.
      destruct nqs; [|discriminate Hl]. rewrite List.app_nil_r. destruct lq; nia. }
  destruct (nqs ++ sp) as [|n0 nt] eqn:En.
  - exfalso. apply app_eq_nil in En. destruct En as [-> ->]. cbn in Hsp, Hl. 
    assert (List.length (inst_names qt [] lq true) = 0) by nia.
    unfold inst_names in H. assert (List.length qt = 0) by (destruct lq; rewrite ?app_length in H; lia).
    apply q_temp_length in Eq. rewrite H0 in Eq. unfold selectors in Eq. rewrite repeat_length, (lower_all v Hv) in Eq.
    assert (List.length names = List.length x).
    { unfold names, set_name_x. destruct nx as [[|a t]|]; cbn [truthy].
      - rewrite map_length, seq_length. lia.
      - exact Hnx.
      - rewrite map_length, seq_length. lia. }
    lia.
  - pose proof (names_short (List.length q2) (n0 :: nt) rs Hq2) as H. destruct (frame_names _ CNone C2All false _ rs); [|reflexivity].
    discriminate H. discriminate.
Qed.

(** Without SLX terms: accepted with one flag per variable, all names tell the truth, the flag of the spatial lag is False and the last estimate is
    the one of the spatial lag *)
(* partial; missing: SLX terms, where the refutations apply *)
Theorem C91_noslx_partial : forall y x yend q w_lags v lag_q constant flags rs name_y nx nye nq,
  1 <= w_lags -> x <> [] -> List.length nx = List.length x -> constant <> COther ->
  List.length (match yend with Some l => l | None => [] end) = List.length nye ->
  List.length (cols q) = List.length nq -> (yend = None <-> q = None) ->
  NoDup (nx ++ nq) -> (forall s, In s (nx ++ nq) -> startswith "W_" s = false) ->
  List.length flags = List.length x + List.length nye ->
  exists o, fit y x yend q w_lags 0 v lag_q constant (C2List flags) rs name_y (Some nx) (Some nye) (Some nq) = Ok o /\
  g_x o = x /\ g_nx o = nx /\
  g_yend o = (match yend with Some l => l | None => [] end) ++ [lag y] /\ g_nyend o = nye ++ ["W_" ++ name_y]%string /\
  g_q o = cols q ++ lag_blocks lag 1 w_lags (x ++ if lag_q then cols q else []) /\ truthful lag (combine (nx ++ nq) (x ++ cols q)) (g_q o) (g_nq o) /\
  g_flags o = flags ++ [false] /\ exists l, g_names o = l ++ ["_Global_W_" ++ name_y]%string.
Proof.
  intros y x yend q p v lq con flags rs ny nx nye nq Hp Hx Hnx Hcon Hye Hnq Hyq Hd Hpre Hfl.
  unfold gm_lag_regimes. cbn [Nat.ltb Nat.leb].
  assert (E1 : set_name_x (Some nx) (List.length x) true = nx) by (destruct nx; [destruct x; [congruence|discriminate Hnx]|reflexivity]).
  assert (E2 : set_name_yend (Some nye) (option_map (@List.length C) yend) = nye).
  { unfold set_name_yend. destruct yend as [ye|]; cbn [option_map].
    - destruct nye; cbn [truthy]; auto. destruct ye; [reflexivity|discriminate Hye].
    - destruct nye; [reflexivity|discriminate Hye]. }
  assert (E3 : set_name_q (Some nq) (option_map (@List.length C) q) 0 = nq).
  { unfold set_name_q. destruct q as [q0|]; cbn [option_map cols] in *.
    - destruct nq; cbn [truthy]; auto. destruct q0; [reflexivity|discriminate Hnq].
    - destruct nq; [reflexivity|discriminate Hnq]. }
  rewrite E1, E2, E3.
  assert (Ei : inst_names nx nq lq true = nx ++ (if lq then nq else [])) by (unfold inst_names; destruct lq; rewrite ?List.app_nil_r; auto).
  assert (Hd' : NoDup (inst_names nx nq lq true)).
  { rewrite Ei. destruct lq; auto. rewrite List.app_nil_r. apply NoDup_app_l in Hd. auto. }
  assert (Hp' : forall s, In s (inst_names nx nq lq true) -> startswith "W_" s = false).
  { intros s Hs. apply Hpre. rewrite Ei in Hs. apply in_app_iff in Hs. apply in_app_iff. destruct Hs as [?|Hs]; auto. destruct lq; [auto|contradiction]. }
  rewrite (set_name_q_sp_plain nx p nq lq true Hd' Hp'), Ei. cbn [bind].
  assert (E4 : check_cols2regi con (C2List flags) (List.length x) (option_map (@List.length C) yend) false = Ok flags).
  { unfold check_cols2regi. cbn [bind app]. rewrite Nat.sub_0_r, Hfl, <- Hye. destruct yend; cbn [option_map List.length];
    rewrite ?Nat.add_0_r, Nat.eqb_refl; reflexivity. }
  rewrite E4. cbn [bind]. rewrite set_endog_noslx by auto.
  set (ins := label_blocks 1 p (nx ++ (if lq then nq else []))).
  assert (G : forall yend2 q2, List.length yend2 = S (List.length nye) -> List.length q2 = List.length (nq ++ ins) -> nq ++ ins <> [] ->
    exists o, tsls_regimes_frames x yend2 q2 (C2List (flags ++ [false])) con nx (nye ++ [set_name_yend_sp ny]) (nq ++ ins) rs = Ok o /\
      g_x o = x /\ g_nx o = nx /\ g_yend o = yend2 /\ g_nyend o = nye ++ ["W_" ++ ny]%string /\ g_q o = q2 /\ g_nq o = nq ++ ins /\
      g_flags o = flags ++ [false] /\ exists l, g_names o = l ++ ["_Global_W_" ++ ny]%string).
  { intros yend2 q2 Hy2 Hq2 Hne. unfold tsls_regimes_frames. rewrite check_list, app_length, Hfl, Hy2. cbn [List.length].
    replace (List.length x + List.length nye + 1) with (List.length x + S (List.length nye)) by lia. rewrite Nat.eqb_refl. cbn [bind].
    destruct (names_ok (List.length q2) CNone C2All false (nq ++ ins) rs) as (qn & ->); auto; [discriminate|].
    destruct (names_ok (List.length x) con (C2List (flags ++ [false])) false nx rs) as (xn & ->); auto.
    { destruct nx; [destruct x; [congruence|discriminate Hnx]|discriminate]. }
    { rewrite app_length. lia. }
    destruct (names_ok (S (List.length nye)) CNone (C2List (flags ++ [false])) true (nye ++ [set_name_yend_sp ny]) rs) as (yn & Ey); auto.
    { destruct nye; discriminate. }
    { rewrite app_length. cbn. lia. }
    { discriminate. }
    { rewrite app_length. cbn. lia. }
    cbn [bind]. rewrite Ey. cbn [bind].
    eexists. split; [reflexivity|]. cbn. repeat split.
    destruct (last_name (List.length nye) flags nye (set_name_yend_sp ny) rs yn) as (r' & ->); auto; [lia|].
    exists (xn ++ r'). now rewrite List.app_assoc. }
  assert (Hins : ins <> []).
  { unfold ins. destruct p as [|p']; [lia|]. rewrite label_blocks_S. destruct nx; [destruct x; [congruence|discriminate Hnx]|discriminate]. }
  assert (Hx' : incl (combine nx x) (combine (nx ++ nq) (x ++ cols q))) by (intros z Hz; apply combine_app_incl; auto).
  destruct yend as [ye|]; [destruct q as [q0|]; [|destruct Hyq as [_ Hyq]; discriminate (Hyq eq_refl)]|
    destruct Hyq as [Hyq _]; rewrite (Hyq eq_refl) in *]; cbn [bind cols] in *.
  - assert (EL : (if lq then x ++ q0 else x) = x ++ if lq then q0 else []) by (destruct lq; rewrite ?List.app_nil_r; auto). rewrite EL. clear EL.
    destruct (G (ye ++ [lag y]) (q0 ++ lag_blocks lag 1 p (x ++ if lq then q0 else []))) as (o & Eo & H1 & H2 & H3 & H4 & H5 & H6 & H7 & H8).
    { rewrite app_length. cbn. lia. }
    { unfold ins. rewrite !app_length, lag_blocks_length, label_blocks_length, !app_length. destruct lq; cbn [List.length]; lia. }
    { intros H. apply app_eq_nil in H. tauto. }
    exists o. split; [exact Eo|]. repeat (split; [assumption|]). split; [|split; assumption]. rewrite H5, H6. apply truthful_app.
    + apply truthful_id; auto. intros z Hz. apply combine_app_incl_r; auto.
    + apply truthful_blocks.
      * destruct lq; [apply incl_refl|]. rewrite !List.app_nil_r. exact Hx'.
      * destruct lq; rewrite ?app_length; cbn [List.length]; lia.
  - destruct nq; [|discriminate Hnq]. destruct nye; [|discriminate Hye]. cbn [app] in *.
    replace (if lq then @nil C else []) with (@nil C) by (destruct lq; reflexivity). rewrite !List.app_nil_r.
    destruct (G [lag y] (lag_blocks lag 1 p x)) as (o & Eo & H1 & H2 & H3 & H4 & H5 & H6 & H7 & H8); auto.
    { unfold ins. rewrite lag_blocks_length, label_blocks_length. destruct lq; rewrite List.app_nil_r; lia. }
    exists o. split; [exact Eo|]. repeat (split; [assumption|]). split; [|split; assumption]. rewrite H5, H6. unfold ins.
    replace (if lq then @nil string else []) with (@nil string) by (destruct lq; reflexivity). rewrite List.app_nil_r.
    apply truthful_blocks; auto. apply incl_refl.
Qed.

Lemma q_temp_all names it n : List.length names <= n -> List.length it = List.length names -> q_temp names (repeat true n) it = Ok it.
Proof.
  revert it n; induction names as [|a t IH]; intros [|i it] [|n]; cbn; try lia; auto. intros Hn Hl. rewrite IH by lia. reflexivity.
Qed.
Lemma removelast_repeat {A} (a : A) n : removelast (repeat a (n + 1)) = repeat a n.
Proof. rewrite repeat_app. cbn [repeat]. apply removelast_last. Qed.

(** One SLX order of all of at most three variables and no further endogenous variable: accepted, and all names tell the truth *)
(* partial; missing: more orders, masks, endogenous variables (refuted below) and more than three variables (raises) *)
Theorem C91_slx_one_partial : forall y x w_lags lag_q constant rs name_y nx,
  1 <= w_lags -> 1 <= List.length x <= 3 -> List.length nx = List.length x -> constant <> COther -> NoDup nx ->
  exists o, fit y x None None w_lags 1 (SStr "all") lag_q constant C2All rs name_y (Some nx) None None = Ok o /\
  g_x o = x ++ map lag x /\ truthful lag (combine nx x) (g_x o) (g_nx o) /\
  g_yend o = [lag y] /\ g_nyend o = ["W_" ++ name_y]%string /\
  g_q o = lag_blocks lag 2 w_lags x /\ truthful lag (combine nx x) (g_q o) (g_nq o) /\
  g_flags o = repeat true (List.length x + List.length x) ++ [false] /\ exists l, g_names o = l ++ ["_Global_W_" ++ name_y]%string.
Proof.
  intros y x p lq con rs ny nx Hp Hx Hnx Hcon Hd. unfold gm_lag_regimes. change (0 <? 1) with true. cbn iota.
  assert (E1 : set_name_x (Some nx) (List.length x) true = nx) by (destruct nx; [destruct x; [cbn in Hx; lia|discriminate Hnx]|reflexivity]).
  rewrite E1. cbn [option_map]. change (set_name_q None None 0) with (@nil string). change (set_name_yend None None) with (@nil string).
  change (to_slxv (SStr "all")) with SlxAll.
  unfold set_endog. change (0 <? 1) with true. rewrite get_lags_split_spec by lia. cbn [bind fst snd].
  replace (1 + p - 1) with p by lia.
  assert (B1 : lag_blocks lag 1 1 x = map lag x) by (unfold lag_blocks; cbn; rewrite List.app_nil_r; reflexivity). rewrite B1.
  unfold set_name_spatial_lags_v. change (String.eqb "all" "all") with true. cbn iota.
  rewrite set_name_spatial_lags_spec by lia.
  assert (B2 : label_blocks 1 1 nx = map (lag_label 1) nx) by (unfold label_blocks; cbn; rewrite List.app_nil_r; reflexivity). rewrite B2.
  unfold selectors. change (String.length "all") with 3. rewrite q_temp_all by (rewrite ?map_length; lia). cbn [bind].
  change (set_name_q_sp (map (lag_label 1) nx) p [] lq true) with (set_name_q_sp ("" :: map (lag_label 1) nx) p [] lq false).
  rewrite set_name_q_sp_W by auto. cbn [bind app].
  unfold check_cols2regi at 1. cbn [bind app]. rewrite repeat_length, Nat.sub_0_r, Nat.eqb_refl. cbn [bind].
  change (List.length [lag y]) with 1. rewrite removelast_repeat.
  set (n2 := List.length (x ++ map lag x)). assert (Hn2 : n2 = List.length x + List.length x) by (unfold n2; rewrite app_length, map_length; reflexivity).
  unfold tsls_regimes_frames. rewrite check_list, app_length, repeat_length. fold n2. cbn [List.length]. rewrite Nat.eqb_refl. cbn [bind].
  destruct (names_ok (List.length (lag_blocks lag 2 p x)) CNone C2All false (label_blocks 2 p nx) rs) as (qn & ->).
  { destruct p as [|p']; [lia|]. rewrite label_blocks_S. destruct nx; [cbn in Hnx; lia|discriminate]. }
  { rewrite lag_blocks_length, label_blocks_length. congruence. }
  { discriminate. }
  { exact I. }
  destruct (names_ok n2 con (C2List (repeat true n2 ++ [false])) false (nx ++ map (lag_label 1) nx) rs) as (xn & ->).
  { destruct nx; [cbn in Hnx; lia|discriminate]. }
  { rewrite app_length, map_length. lia. }
  { exact Hcon. }
  { rewrite app_length, repeat_length. cbn. lia. }
  destruct (names_ok 1 CNone (C2List (repeat true n2 ++ [false])) true [set_name_yend_sp ny] rs) as (yn & Ey); auto; [discriminate|discriminate| |].
  { rewrite app_length. cbn. lia. }
  cbn [bind]. rewrite Ey. cbn [bind]. eexists. split; [reflexivity|]. cbn [g_x g_yend g_q g_nx g_nyend g_nq g_flags g_names].
  destruct (last_name 0 (repeat true n2) [] (set_name_yend_sp ny) rs yn) as (r' & ->); auto; [lia|].
  split; [reflexivity|]. split.
  { apply truthful_app; [apply truthful_id; [apply incl_refl|auto]|]. change (map lag x) with (map (lagm lag 1) x). apply truthful_block; [apply incl_refl|auto]. }
  repeat (split; [reflexivity|]). split; [apply truthful_blocks; [apply incl_refl|auto]|]. split; [rewrite Hn2; reflexivity|].
  exists (xn ++ r'). now rewrite List.app_assoc.
Qed.
Lemma compress_map {A B} (f : A -> B) (l : list A) m : compress (map f l) m = map f (compress l m).
Proof. revert m; induction l as [|a l IH]; intros [|[|] m]; cbn; auto. now rewrite IH. Qed.

(** One SLX order of the variables that a mask selects: whenever the model is accepted, the regressors are the variables followed by the
    lags of the selected ones, and their names tell the truth (the names of the instruments need not: see below) *)
Theorem C91_slx_mask_names : forall y x w_lags m lag_q constant c rs name_y nx o,
  List.length nx = List.length x -> x <> [] -> List.length m = List.length x ->
  fit y x None None w_lags 1 (SMask m) lag_q constant c rs name_y (Some nx) None None = Ok o ->
  g_x o = x ++ map lag (compress x m) /\ truthful lag (combine nx x) (g_x o) (g_nx o) /\
  g_yend o = [lag y] /\ g_nyend o = ["W_" ++ name_y]%string.
Proof.
  intros y x p m lq con c rs ny nx o Hnx Hx Hm. unfold gm_lag_regimes. change (0 <? 1) with true. cbn iota.
  assert (E1 : set_name_x (Some nx) (List.length x) true = nx) by (destruct nx; [destruct x; [contradiction|discriminate Hnx]|reflexivity]).
  rewrite E1. cbn [option_map]. change (set_name_yend None None) with (@nil string). cbn [to_slxv].
  unfold set_endog. change (0 <? 1) with true.
  destruct (Nat.ltb_spec 1 (1 + p)) as [Hlt|Hge].
  2:{ destruct (get_lags_split_err lag x (1 + p) 1) as (exc & ->); [lia|]. discriminate. }
  rewrite get_lags_split_spec by lia. cbn [bind fst snd].
  assert (B1 : lag_blocks lag 1 1 x = map lag x) by (unfold lag_blocks; cbn; rewrite List.app_nil_r; reflexivity). rewrite B1.
  assert (Em : np_mask (map lag x) m = Ok (map lag (compress x m))).
  { unfold np_mask. rewrite map_length, Hm, Nat.eqb_refl. now rewrite compress_map. }
  rewrite Em. rewrite Hm, Nat.eqb_refl. cbn [bind].
  unfold set_name_spatial_lags_v. rewrite set_name_spatial_lags_spec by lia.
  assert (B2 : label_blocks 1 1 (compress nx m) = map (lag_label 1) (compress nx m)) by (unfold label_blocks; cbn; rewrite List.app_nil_r; reflexivity). rewrite B2.
  destruct (q_temp _ _ _) as [qt|]; [|discriminate]. cbn [bind].
  destruct (set_name_q_sp _ _ _ _ _) as [sp|]; [|discriminate]. cbn [bind].
  destruct (check_cols2regi _ _ _ _ _) as [c0|]; [|discriminate]. cbn [bind]. unfold tsls_regimes_frames.
  destruct (check_cols2regi _ _ _ _ _) as [c1|]; [|discriminate]. cbn [bind].
  destruct (frame_names _ _ _ _ _ _) as [qn|]; [|discriminate]. cbn [bind].
  destruct (frame_names _ _ _ _ _ _) as [xn|]; [|discriminate]. cbn [bind].
  destruct (frame_names _ _ _ _ _ _) as [yn|]; [|discriminate]. cbn [bind]. intros [= <-]. cbn [g_x g_nx g_yend g_nyend].
  split; [reflexivity|]. split; [|split; reflexivity].
  apply truthful_app; [apply truthful_id; [apply incl_refl|auto]|]. change (map lag (compress x m)) with (map (lagm lag 1) (compress x m)).
  apply truthful_block.
  - destruct (combine_compress nx x m) as [->|H]; [|lia]. apply compress_incl.
  - apply compress_length. auto.
Qed.
End Thms.

(** A mask: the instrument W^2 b is reported as W_b; two orders: W^3 b is reported as W2_b; an endogenous variable: W^3 b is reported as W2_b *)
Theorem C91_instrument_names_refuted :
  (exists o, gm_lag_regimes lagW3 xa [xa; xb] None None 1 1 (SMask [true; false]) true CMany C2All ["0"; "1"] "y" (Some ["a"; "b"]) None None = Ok o /\
     g_nx o = ["a"; "b"; "W_a"] /\ g_q o = [Nat.iter 2 lagW3 xa; Nat.iter 2 lagW3 xb] /\ g_nq o = ["W2_a"; "W_b"]) /\
  (exists o, gm_lag_regimes lagW3 xa [xb] None None 1 2 (SStr "all") true CMany C2All ["0"; "1"] "y" (Some ["b"]) None None = Ok o /\
     g_q o = [Nat.iter 3 lagW3 xb] /\ g_nq o = ["W2_b"]) /\
  (exists o, gm_lag_regimes lagW3 xa [xb] (Some [xa]) (Some [[7;1;2]]%Z) 1 1 (SStr "all") false CMany C2All ["0"; "1"] "y" (Some ["b"]) (Some ["e"]) (Some ["z"]) = Ok o /\
     g_q o = [[7;1;2]%Z; Nat.iter 3 lagW3 xb] /\ g_nq o = ["z"; "W2_b"]) /\
  lagW3 xb <> Nat.iter 2 lagW3 xb /\ Nat.iter 2 lagW3 xb <> Nat.iter 3 lagW3 xb.
Proof.
  repeat split; try (eexists; split; [vm_compute; reflexivity|]; repeat split; vm_compute; reflexivity); discriminate.
Qed.

(** Concrete cases: without SLX terms; with them and three variables; with four variables *)
Theorem C91_witness :
  (exists o, gm_lag_regimes lagW3 xa [xb] (Some [xa]) (Some [[7;1;2]]%Z) 1 0 (SStr "all") true CMany (C2List [false; true]) ["0"; "1"] "y" (Some ["b"]) (Some ["e"]) (Some ["z"]) = Ok o /\
     g_names o = ["0_CONSTANT"; "1_CONSTANT"; "_Global_b"; "0_e"; "1_e"; "_Global_W_y"] /\ g_nq o = ["z"; "W_b"; "W_z"]) /\
  (exists o, gm_lag_regimes lagW3 xa [xa; xb; lagW3 xb] None None 2 1 (SStr "all") true COne C2All ["0"; "1"] "y" (Some ["a"; "b"; "c"]) None None = Ok o /\
     g_nx o = ["a"; "b"; "c"; "W_a"; "W_b"; "W_c"] /\ g_nq o = ["W2_a"; "W2_b"; "W2_c"; "W3_a"; "W3_b"; "W3_c"]) /\
  gm_lag_regimes lagW3 xa [xa; xb; lagW3 xb; lagW3 xa] None None 2 1 (SStr "all") true COne C2All ["0"; "1"] "y" (Some ["a"; "b"; "c"; "d"]) None None = Err "IndexError".
Proof. repeat split; try (eexists; split; [vm_compute; reflexivity|]; split; vm_compute; reflexivity). Qed.
