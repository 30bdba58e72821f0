(** C93: the table of Chow tests.  spreg/output.py _summary_chow. *)
From Verif Require Import PyBase RegimesModel RegimesSpec RegimesProofs OutModel GlrTheorems.
Open Scope string_scope.
Open Scope list_scope.
Open Scope nat_scope.

(** ** Specification *)
(** The names of the tests, in the order of Chow.regi: the constant when it varies, then the variables that vary. *)
Definition tested (constant : const_regi) (vars : list string) (flags : list bool) : list string :=
  match constant with CMany => ["CONSTANT"] | _ => [] end ++ map (fun j => nth j vars "") (positions true flags).

(** The variables of a model: exogenous, endogenous, spatial lag *)
Definition model_vars (e : est) (nx ny : list string) (wy : string) : list string :=
  nx ++ (if has_yend e then ny else []) ++ (if has_lag e then [wy] else []).

(** One row per test, with its name, nr-1 degrees of freedom, statistic and probability; then the global test *)
Definition chow_rows {F} (names : list string) (regi : list (F * F)) (kr nr : nat) (joint : F * F) : list (@crow F) :=
  map (fun '(n, v) => {| c_name := Some n; c_df := Some (nr - 1); c_val := Some v |}) (combine names regi)
  ++ [{| c_name := Some "Global test"; c_df := Some (kr * (nr - 1)); c_val := Some joint |}].

(** ** Lemmas *)
Lemma filter_map_S (f : nat -> bool) l : filter f (map S l) = map S (filter (fun j => f (S j)) l).
Proof. induction l as [|a l IH]; [reflexivity|]. cbn [map filter]. rewrite IH. now destruct (f (S a)). Qed.

Lemma positions_cons b m : positions true (b :: m) = (if b then [0] else []) ++ map S (positions true m).
Proof.
  unfold positions. cbn [List.length seq]. rewrite <- seq_shift.
  match goal with |- filter ?f (?a :: ?l) = _ => change (filter f (a :: l)) with ((if f a then [a] else []) ++ filter f l) || change (filter f (a :: l)) with (if f a then a :: filter f l else filter f l) end.
  rewrite filter_map_S. now destruct b.
Qed.

Lemma take_where (vars : list string) m : List.length m <= List.length vars ->
  take_idx vars (where_ is_true_ m) = Ok (map (fun j => nth j vars "") (positions true m)).
Proof.
  intros Hl. rewrite <- pos_true. apply take_idx_map. intros i Hi. apply positions_bound in Hi. lia.
Qed.

Lemma all_true_positions m : forallb is_true_ m = true -> positions true m = seq 0 (List.length m).
Proof. apply forallb_pos_false. Qed.

Lemma frame_rows {F} (ns : list string) (regi : list (F * F)) kr nr joint : List.length ns = List.length regi ->
  chow_frame ns kr nr regi joint = chow_rows ns regi kr nr joint /\
  forallb (fun r : @crow F => match c_df r with Some _ => true | None => false end) (chow_rows ns regi kr nr joint) = true.
Proof.
  intros Hl. assert (E : chow_frame ns kr nr regi joint = chow_rows ns regi kr nr joint).
  { unfold chow_frame, chow_rows. f_equal. rewrite Hl, Nat.max_id.
    revert regi Hl. induction ns as [|n ns IH]; intros [|v regi] Hl; try discriminate; [reflexivity|].
    cbn [List.length seq map combine]. f_equal. rewrite <- seq_shift, map_map. cbn in Hl. rewrite <- IH by lia. reflexivity. }
  split; [exact E|]. unfold chow_rows. rewrite forallb_app. cbn. rewrite andb_true_r.
  apply forallb_forall. intros r Hr. apply in_map_iff in Hr. destruct Hr as ((n, v) & <- & _). reflexivity.
Qed.

Lemma table_rows {F} names attr constant nl kr nr (regi : list (F * F)) joint ns :
  names_chow names attr constant nl = Ok ns -> List.length ns = List.length regi ->
  chow_table names attr constant nl kr nr regi joint = Ok (chow_rows ns regi kr nr joint).
Proof.
  intros E Hl. unfold chow_table. rewrite E. cbn [bind]. destruct (frame_rows ns regi kr nr joint Hl) as (-> & ->). reflexivity.
Qed.

Lemma names_list names m constant nl : List.length m = List.length (tl names) -> nl <= 1 ->
  names_chow names (C2List m) constant nl = Ok (tested constant (tl names) m).
Proof.
  intros Hm Hn. unfold names_chow, tested.
  assert (En : 1 <? nl = false) by (apply Nat.ltb_ge; lia). rewrite En.
  destruct (negb (List.length m =? 0) && forallb is_true_ m)%bool eqn:E.
  - apply andb_prop in E. destruct E as (_ & E). cbn [bind]. rewrite (all_true_positions m E), Hm, map_nth_seq. now destruct constant.
  - rewrite take_where by lia. cbn [bind]. now destruct constant.
Qed.

Lemma names_all names constant nl : nl <= 1 ->
  names_chow names C2All constant nl = Ok (tested constant (tl names) (repeat true (List.length (tl names)))).
Proof.
  intros Hn. unfold names_chow, tested. assert (En : 1 <? nl = false) by (apply Nat.ltb_ge; lia). rewrite En. cbn [bind].
  rewrite (all_true_positions (repeat true _)).
  - rewrite repeat_length, map_nth_seq. now destruct constant.
  - apply forallb_forall. intros b Hb. now apply repeat_spec in Hb.
Qed.

Lemma check_inv constant c kx ky add m : check_cols2regi constant c kx ky add = Ok m ->
  exists cons body, m = cons ++ body /\ List.length cons = (if add then 1 else 0) /\
    (c = C2All /\ body = repeat true (kx + match ky with Some k => k | None => 0 end) \/ c = C2List body) /\
    List.length body = kx + match ky with Some k => k | None => 0 end.
Proof.
  unfold check_cols2regi. set (K := kx + match ky with Some k => k | None => 0 end).
  assert (EK : match ky with Some k => kx + k | None => kx end = K) by (unfold K; destruct ky; lia). rewrite EK.
  set (cf := if add then _ else _).
  assert (Hcf : forall l, cf = Ok l -> List.length l = if add then 1 else 0).
  { intros l. unfold cf. clear EK cf. destruct add; [destruct constant; try discriminate|]; now intros [= <-]. }
  destruct cf as [l0|]; [|discriminate]. specialize (Hcf l0 eq_refl). cbn [bind].
  destruct c as [|l]; cbv zeta; match goal with |- context [Nat.eqb ?a ?b] => destruct (Nat.eqb_spec a b) as [Hl|] end;
    try discriminate; intros [= <-].
  - exists l0, (repeat true K). repeat split; [exact Hcf|now left|apply repeat_length].
  - exists l0, l. rewrite app_length in Hl. repeat split; [exact Hcf|now right|]. destruct add; lia.
Qed.

(** The attributes describe the variables one by one, whatever the class (ML_Error_Regimes apart). *)
Lemma attrs_match e constant c nx ny wy sep names attr flags : e <> ML_Error_R ->
  chow_attrs e constant c nx ny wy sep = Ok (names, attr, flags) ->
  names = "CONSTANT" :: model_vars e nx ny wy /\ List.length flags = List.length (model_vars e nx ny wy) /\
  (attr = C2All /\ flags = repeat true (List.length flags) \/ attr = C2List flags).
Proof.
  intros He. unfold chow_attrs, model_vars.
  destruct e; try contradiction; cbn [has_yend has_lag]; rewrite ?app_nil_r;
    (destruct (check_cols2regi _ _ _ _ _) as [m|] eqn:E; [|discriminate]; apply check_inv in E;
     destruct E as (cons & body & -> & Hc & Hb & Hl); cbn [bind]).
  - destruct cons; [|discriminate]. intros [= <- <- <-]. cbn. rewrite Nat.add_0_r in *. split; [reflexivity|]. split; [exact Hl|].
    destruct Hb as [(-> & ->)| ->]; auto; left; now rewrite repeat_length.
  - destruct cons; [|discriminate]. intros [= <- <- <-]. cbn. split; [reflexivity|]. rewrite app_length. split; [exact Hl|].
    destruct Hb as [(-> & ->)| ->]; auto; left; now rewrite repeat_length.
  - destruct cons; [|discriminate]. cbn [app].
    destruct (check_cols2regi _ (C2List _) _ _ _) as [m'|] eqn:E'; [|discriminate]. apply check_inv in E'.
    destruct E' as (cons' & body' & -> & Hc' & Hb' & Hl'). destruct cons'; [|discriminate].
    destruct Hb' as [(Hx & _)| [= <-]]; [discriminate|]. cbn [bind app]. intros [= <- <- <-].
    split; [reflexivity|]. split; [rewrite Hl', !app_length; reflexivity|]. now right.
  - destruct cons; [|discriminate]. intros [= <- <- <-]. cbn [app]. split; [reflexivity|].
    rewrite Nat.add_0_r in Hl. split; [rewrite !app_length, Hl; reflexivity|]. now right.
  - destruct cons as [|b [|]]; try discriminate. intros [= <- <- <-]. cbn [app tl]. rewrite Nat.add_0_r in *. split; [reflexivity|].
    split; [exact Hl|]. destruct Hb as [(-> & ->)| ->]; auto; left; now rewrite repeat_length.
  - destruct cons as [|b [|]]; try discriminate. intros [= <- <- <-]. cbn [app tl]. split; [reflexivity|].
    rewrite app_length. split; [exact Hl|]. destruct Hb as [(-> & ->)| ->]; auto; left; now rewrite repeat_length.
  - destruct cons; [|discriminate]. cbn [app].
    destruct (check_cols2regi _ (C2List _) _ _ _) as [m'|] eqn:E'; [|discriminate]. apply check_inv in E'.
    destruct E' as (cons' & body' & -> & Hc' & Hb' & Hl'). destruct cons' as [|b [|]]; try discriminate.
    destruct Hb' as [(Hx & _)| [= <-]]; [discriminate|]. cbn [bind app tl]. intros [= <- <- <-].
    split; [reflexivity|]. split; [rewrite Hl', !app_length; reflexivity|]. now right.
Qed.

(** ** Theorems *)
(** One equation, every class but ML_Error_Regimes: each test is printed with the name of the variable that it tests. *)
Theorem C93_table : forall F e constant c nx ny wy sep names attr flags nlambda kr nr (regi : list (F * F)) joint,
  e <> ML_Error_R -> chow_attrs e constant c nx ny wy sep = Ok (names, attr, flags) -> nlambda <= 1 ->
  List.length regi = List.length (tested constant (model_vars e nx ny wy) flags) ->
  chow_table names attr constant nlambda kr nr regi joint =
  Ok (chow_rows (tested constant (model_vars e nx ny wy) flags) regi kr nr joint).
Proof.
  intros F e constant c nx ny wy sep names attr flags nl kr nr regi joint He Ha Hn Hr.
  destruct (attrs_match _ _ _ _ _ _ _ _ _ _ He Ha) as (-> & Hl & Hattr). apply table_rows; [|now symmetry].
  destruct Hattr as [(-> & Hf)| ->].
  - rewrite names_all by exact Hn. cbn [tl]. rewrite Hf, Hl. reflexivity.
  - now rewrite names_list by (cbn [tl]; assumption).
Qed.

(** The flags are those asked for, variable by variable, and the spatial lag's own flag comes last (every class). *)
Theorem C93_flags : forall e constant c nx ny wy sep names attr flags,
  chow_attrs e constant c nx ny wy sep = Ok (names, attr, flags) ->
  flags = match c with
          | C2All => repeat true (List.length nx + if has_yend e then List.length ny else 0)
          | C2List l => l
          end ++ if has_lag e then [match e with GM_Lag_R => sep | _ => false end] else [].
Proof.
  intros e constant c nx ny wy sep names attr flags. unfold chow_attrs.
  destruct e; cbn [has_yend has_lag]; rewrite ?app_nil_r;
    (destruct (check_cols2regi _ _ _ _ _) as [m|] eqn:E; [|discriminate]; apply check_inv in E;
     destruct E as (cons & body & -> & Hc & Hb & Hl); cbn [bind]);
    try (destruct (check_cols2regi _ (C2List _) _ _ _) as [m'|] eqn:E'; [|discriminate]; apply check_inv in E';
         destruct E' as (cons' & body' & -> & Hc' & Hb' & Hl'); destruct Hb' as [(Hx & _)|Hb']; [discriminate|]; injection Hb' as <-;
         cbn [bind]);
    intros [= <- <- <-];
    repeat match goal with
           | H : List.length ?l = 0 |- _ => destruct l; [clear H|discriminate]
           | H : List.length ?l = 1 |- _ => destruct l as [|? [|]]; try discriminate; clear H
           end; cbn [app tl]; destruct Hb as [(-> & ->)| ->]; reflexivity.
Qed.

(** The order of the tests is that of the varying columns of the design (C07, C08, C09: [layout] with the flag of the constant in front) *)
Theorem C93_order : forall constant vars flags, constant <> COther ->
  let mask := match constant with CMany => true :: flags | COne => false :: flags | _ => flags end in
  let full := match constant with CNone => vars | _ => "CONSTANT" :: vars end in
  tested constant vars flags = map (fun j => nth j full "") (positions true mask).
Proof.
  intros constant vars flags Hc. cbv zeta. unfold tested.
  destruct constant; try contradiction; [reflexivity| |]; rewrite positions_cons; cbn [app map nth]; now rewrite map_map.
Qed.

(** One equation per regime: all coefficients vary.  When lambda has inference (or there is no lambda) the table is right. *)
Theorem C93_multi : forall F e vm_lambda nx ny wy nr m (regi : list (F * F)) joint names nl kr,
  2 <= nr -> m <> [] -> forallb is_true_ m = true ->
  (vm_lambda = true \/ e = OLS_R \/ e = TSLS_R \/ e = GM_Lag_R \/ e = ML_Lag_R) ->
  chow_attrs_multi e vm_lambda nx ny wy nr = (names, nl, kr) -> List.length regi = kr ->
  chow_table names (C2List m) CMany nl kr nr regi joint =
  Ok (chow_rows (("CONSTANT" :: model_vars e nx ny wy) ++
                 match e with OLS_R | TSLS_R | GM_Lag_R | ML_Lag_R => [] | _ => ["lambda"] end) regi kr nr joint).
Proof.
  intros F e vl nx ny wy nr m regi joint names nl kr Hnr Hm Ht He Ha Hr.
  assert (En : names_chow names (C2List m) CMany nl = Ok (("CONSTANT" :: tl names) ++ if Nat.ltb 1 nl then ["lambda"] else [])).
  { unfold names_chow. rewrite Ht. assert (El : negb (List.length m =? 0) = true) by (destruct m; [contradiction|reflexivity]).
    rewrite El. cbn [andb bind]. destruct (1 <? nl); [reflexivity|now rewrite app_nil_r]. }
  assert (Enr : 1 <? nr = true) by (apply Nat.ltb_lt; lia).
  unfold chow_attrs_multi in Ha. unfold model_vars.
  destruct e; injection Ha as <- <- <-; cbn [tl] in En; change (1 <? 0) with false in En; rewrite ?Enr in En;
    (apply table_rows; [exact En|]; rewrite Hr);
    try (destruct He as [->|[He|[He|[He|He]]]]; try discriminate He);
    rewrite ?app_nil_r; cbn [List.length app]; rewrite ?app_length; cbn [List.length has_yend has_lag]; rewrite ?app_length; cbn [List.length]; lia.
Qed.

(** Otherwise (GM_Error_Regimes, GM_Endog_Error_Regimes and GM_Combo_Regimes with regime_err_sep) a row "lambda" without value follows. *)
Theorem C93_multi_lambda_refuted : forall F e nx ny wy nr m (regi : list (F * F)) joint names nl kr,
  2 <= nr -> m <> [] -> forallb is_true_ m = true -> e = GM_Error_R \/ e = GM_Endog_R \/ e = GM_Combo_R ->
  chow_attrs_multi e false nx ny wy nr = (names, nl, kr) -> List.length regi = kr ->
  exists t, chow_table names (C2List m) CMany nl kr nr regi joint = Ok t /\
    t = map (fun '(n, v) => {| c_name := Some n; c_df := Some (nr - 1); c_val := Some v |})
          (combine ("CONSTANT" :: model_vars e nx ny wy) regi)
        ++ [{| c_name := Some "lambda"; c_df := Some (nr - 1); c_val := None |};
            {| c_name := Some "Global test"; c_df := Some (kr * (nr - 1)); c_val := Some joint |}].
Proof.
  intros F e nx ny wy nr m regi joint names nl kr Hnr Hm Ht He Ha Hr.
  assert (Enr : 1 <? nr = true) by (apply Nat.ltb_lt; lia).
  assert (Ek : names = "CONSTANT" :: model_vars e nx ny wy /\ nl = nr /\ kr = List.length names).
  { unfold chow_attrs_multi in Ha. destruct He as [-> |[-> | ->]]; injection Ha as <- <- <-; rewrite Nat.add_0_r; repeat split. }
  destruct Ek as (-> & -> & ->). set (vs := "CONSTANT" :: model_vars e nx ny wy) in *.
  assert (En : names_chow vs (C2List m) CMany nr = Ok (vs ++ ["lambda"])).
  { unfold names_chow. rewrite Ht. assert (El : negb (List.length m =? 0) = true) by (destruct m; [contradiction|reflexivity]).
    rewrite El, Enr. reflexivity. }
  eexists. split; [|reflexivity]. unfold chow_table. rewrite En. cbn [bind].
  assert (Ef : chow_frame (vs ++ ["lambda"]) (List.length vs) nr regi joint =
    map (fun '(n, v) => {| c_name := Some n; c_df := Some (nr - 1); c_val := Some v |}) (combine vs regi)
        ++ [{| c_name := Some "lambda"; c_df := Some (nr - 1); c_val := None |};
            {| c_name := Some "Global test"; c_df := Some (List.length vs * (nr - 1)); c_val := Some joint |}]).
  { unfold chow_frame. rewrite app_length, Hr. cbn [List.length]. rewrite Nat.max_l by lia. rewrite seq_app, map_app, <- app_assoc.
    destruct (frame_rows vs regi (List.length vs) nr joint (eq_sym Hr)) as (E & _).
    unfold chow_frame, chow_rows in E. apply app_inj_tail in E. destruct E as (E & _). rewrite <- E, Hr, Nat.max_id. f_equal.
    - apply map_ext_in. intros i Hi. apply in_seq in Hi. rewrite nth_error_app1 by lia. reflexivity.
    - cbn [seq map plus]. rewrite nth_error_app2, Nat.sub_diag by lia. cbn [nth_error option_map app].
      assert (E2 : nth_error regi (List.length vs) = None) by (apply nth_error_None; lia). now rewrite E2. }
  rewrite Ef, forallb_app. cbn [forallb c_df]. rewrite !andb_true_r.
  assert (G : forallb (fun r : @crow F => match c_df r with Some _ => true | None => false end)
     (map (fun '(n, v) => {| c_name := Some n; c_df := Some (nr - 1); c_val := Some v |}) (combine vs regi)) = true).
  { apply forallb_forall. intros r Hi. apply in_map_iff in Hi. destruct Hi as ((n, v) & <- & _). reflexivity. }
  now rewrite G.
Qed.

(** ML_Error_Regimes: reg.cols2regi starts with the flag of the constant, so that every flag is read one position too far. *)
Lemma ml_attrs constant m nx ny wy sep : List.length m = List.length nx -> constant = CMany \/ constant = COne ->
  chow_attrs ML_Error_R constant (C2List m) nx ny wy sep =
  Ok ("CONSTANT" :: nx, C2List ((match constant with CMany => true | _ => false end) :: m), m).
Proof.
  intros Hm [-> | ->]; unfold chow_attrs, check_cols2regi; cbn [bind app List.length]; rewrite Hm; cbn [Nat.sub];
    rewrite Nat.sub_0_r, Nat.eqb_refl; reflexivity.
Qed.

(** The table is right when everything varies ... *)
Theorem C93_ml_error_all : forall F m nx ny wy sep names attr flags nl kr nr (regi : list (F * F)) joint,
  List.length m = List.length nx -> forallb is_true_ m = true -> nl <= 1 ->
  chow_attrs ML_Error_R CMany (C2List m) nx ny wy sep = Ok (names, attr, flags) ->
  List.length regi = List.length (tested CMany nx flags) ->
  chow_table names attr CMany nl kr nr regi joint = Ok (chow_rows (tested CMany nx flags) regi kr nr joint).
Proof.
  intros F m nx ny wy sep names attr flags nl kr nr regi joint Hm Ht Hn Ha Hr. rewrite ml_attrs in Ha by auto. injection Ha as <- <- <-.
  apply table_rows; [|now symmetry]. unfold names_chow. cbn [List.length Nat.eqb negb forallb is_true_ andb tl]. rewrite Ht. cbn [bind].
  assert (En : 1 <? nl = false) by (apply Nat.ltb_ge; lia). rewrite En. unfold tested.
  now rewrite (all_true_positions m Ht), Hm, map_nth_seq.
Qed.

(** ... there is no table when the last variable varies and something does not, ... *)
Theorem C93_ml_error_no_table_refuted : forall F constant m nx ny wy sep names attr flags nl kr nr (regi : list (F * F)) joint,
  List.length (m ++ [true]) = List.length nx -> constant = COne \/ constant = CMany /\ forallb is_true_ m = false ->
  chow_attrs ML_Error_R constant (C2List (m ++ [true])) nx ny wy sep = Ok (names, attr, flags) ->
  chow_text (chow_table names attr constant nl kr nr regi joint) = None.
Proof.
  intros F constant m nx ny wy sep names attr flags nl kr nr regi joint Hm Hc Ha.
  rewrite ml_attrs in Ha by (try exact Hm; tauto). injection Ha as <- <- <-.
  unfold chow_table, names_chow. cbn [tl].
  set (b := match constant with CMany => true | _ => false end).
  assert (E : (negb (List.length (b :: m ++ [true]) =? 0) && forallb is_true_ (b :: m ++ [true]))%bool = false).
  { cbn [List.length Nat.eqb negb andb forallb is_true_]. unfold b. destruct Hc as [-> |(-> & Hf)]; [reflexivity|].
    rewrite forallb_app, Hf. reflexivity. }
  rewrite E.
  assert (Ei : is_ok (take_idx nx (where_ is_true_ (b :: m ++ [true]))) = false).
  { apply (take_idx_err _ _ (List.length nx)); [|lia]. rewrite <- pos_true, positions_cons. apply in_or_app. right.
    rewrite app_length in Hm. cbn in Hm. replace (List.length nx) with (S (List.length m)) by lia. apply in_map.
    unfold positions. apply filter_In. rewrite app_length. split; [apply in_seq; cbn; lia|].
    rewrite app_nth2, Nat.sub_diag by lia. reflexivity. }
  destruct (take_idx nx _); [discriminate|]. reflexivity.
Qed.

(** ... and otherwise, with a global constant, every test carries the name of the next variable; with a varying constant the
    tests are labelled CONSTANT, the first variable, and the variables after those tested, with one row too many. *)
Theorem C93_ml_error_shift_refuted : forall F constant m nx ny wy sep names attr flags nl kr nr (regi : list (F * F)) joint,
  List.length (m ++ [false]) = List.length nx -> constant = CMany \/ constant = COne -> nl <= 1 ->
  chow_attrs ML_Error_R constant (C2List (m ++ [false])) nx ny wy sep = Ok (names, attr, flags) ->
  List.length regi = List.length (tested constant nx flags) ->
  let after := map (fun j => nth (S j) nx "") (positions true flags) in
  let rows ns := map (fun '(n, v) => {| c_name := Some n; c_df := Some (nr - 1); c_val := Some v |}) (combine ns regi) in
  chow_table names attr constant nl kr nr regi joint =
  Ok (match constant with
      | COne => rows after
      | _ => rows ("CONSTANT" :: removelast (nth 0 nx "" :: after)) ++
             [{| c_name := Some (last (nth 0 nx "" :: after) ""); c_df := Some (nr - 1); c_val := None |}]
      end ++ [{| c_name := Some "Global test"; c_df := Some (kr * (nr - 1)); c_val := Some joint |}]).
Proof.
  intros F constant m nx ny wy sep names attr flags nl kr nr regi joint Hm Hc Hn Ha Hr after rows.
  rewrite ml_attrs in Ha by (try exact Hm; tauto). injection Ha as <- <- <-.
  assert (En : 1 <? nl = false) by (apply Nat.ltb_ge; lia).
  set (b := match constant with CMany => true | _ => false end).
  assert (Ef : forallb is_true_ (b :: m ++ [false]) = false) by (cbn; rewrite forallb_app; cbn; rewrite !andb_false_r; reflexivity).
  assert (Hpos : forall j, In j (positions true (m ++ [false])) -> S j < List.length nx).
  { intros j Hj. unfold positions in Hj. apply filter_In in Hj. destruct Hj as (Hj & Hb). apply in_seq in Hj.
    rewrite app_length in *. cbn in Hm, Hj. destruct (Nat.eq_dec j (List.length m)) as [->|]; [|lia].
    rewrite app_nth2, Nat.sub_diag in Hb by lia. discriminate. }
  assert (Et : take_idx nx (where_ is_true_ (b :: m ++ [false])) = Ok ((if b then [nth 0 nx ""] else []) ++ after)).
  { rewrite <- pos_true, positions_cons. rewrite (take_idx_map nx _ "").
    - rewrite map_app, map_map. now destruct b.
    - intros i Hi. apply in_app_or in Hi. destruct Hi as [Hi|Hi].
      + rewrite app_length in Hm. cbn in Hm. destruct b; [destruct Hi as [<-|[]]; lia|contradiction].
      + apply in_map_iff in Hi. destruct Hi as (j & <- & Hj). apply Hpos, Hj. }
  unfold tested in Hr.
  assert (Ha2 : List.length after = List.length (positions true (m ++ [false]))) by (unfold after; now rewrite map_length).
  destruct Hc as [-> | ->].
  - set (al := nth 0 nx "" :: after) in *.
    assert (Enc : names_chow ("CONSTANT" :: nx) (C2List (b :: m ++ [false])) CMany nl = Ok (("CONSTANT" :: removelast al) ++ [last al ""])).
    { unfold names_chow. cbn [tl]. rewrite Ef, andb_false_r, Et. cbn [bind]. rewrite En. cbn [app].
      change (nth 0 nx "" :: after) with al. rewrite <- (app_removelast_last "" (l := al)) by discriminate. reflexivity. }
    unfold chow_table. rewrite Enc. cbn [bind]. set (hd := "CONSTANT" :: removelast al) in *.
    assert (Hhd : List.length hd = List.length regi).
    { unfold hd. cbn [List.length]. assert (Hal : List.length al = S (List.length after)) by reflexivity.
      rewrite (app_removelast_last "" (l := al)) in Hal by discriminate. rewrite app_length in Hal. cbn in Hal.
      rewrite Hr, app_length, map_length. cbn. lia. }
    assert (Efr : chow_frame (hd ++ [last al ""]) kr nr regi joint =
      (rows hd ++ [{| c_name := Some (last al ""); c_df := Some (nr - 1); c_val := None |}]) ++
      [{| c_name := Some "Global test"; c_df := Some (kr * (nr - 1)); c_val := Some joint |}]).
    { unfold chow_frame. rewrite app_length. cbn [List.length]. rewrite Nat.max_l by lia. rewrite seq_app, map_app. f_equal.
      destruct (frame_rows hd regi kr nr joint Hhd) as (E & _).
      unfold chow_frame, chow_rows in E. apply app_inj_tail in E. destruct E as (E & _). unfold rows. rewrite <- E, Hhd, Nat.max_id. f_equal.
      - apply map_ext_in. intros i Hi. apply in_seq in Hi. rewrite nth_error_app1 by lia. reflexivity.
      - cbn [seq map plus]. rewrite <- Hhd, nth_error_app2, Nat.sub_diag by lia. cbn [nth_error option_map].
        assert (E2 : nth_error regi (List.length hd) = None) by (apply nth_error_None; lia). now rewrite E2. }
    rewrite Efr, !forallb_app. cbn [forallb c_df]. rewrite !andb_true_r.
    assert (G : forallb (fun r : @crow F => match c_df r with Some _ => true | None => false end) (rows hd) = true).
    { unfold rows. apply forallb_forall. intros r Hi. apply in_map_iff in Hi. destruct Hi as ((n, v) & <- & _). reflexivity. }
    now rewrite G.
  - assert (Enc : names_chow ("CONSTANT" :: nx) (C2List (b :: m ++ [false])) COne nl = Ok after).
    { unfold names_chow. cbn [tl]. rewrite Ef, andb_false_r, Et. cbn [bind]. now rewrite En. }
    rewrite (table_rows _ _ _ _ _ _ _ _ after Enc); [reflexivity|]. rewrite Ha2, Hr. cbn [app]. now rewrite map_length.
Qed.

(** With a global constant and distinct names no test carries its own name. *)
Theorem C93_ml_error_one_wrong_refuted : forall nx m v, NoDup nx -> List.length (m ++ [false]) = List.length nx ->
  v < List.length (positions true (m ++ [false])) ->
  nth v (map (fun j => nth (S j) nx "") (positions true (m ++ [false]))) "" <> nth v (tested COne nx (m ++ [false])) "".
Proof.
  intros nx m v Hd Hm Hv. unfold tested. cbn [app].
  set (ps := positions true (m ++ [false])) in *.
  rewrite (nth_indep _ "" (nth (S 0) nx "")) by (rewrite map_length; exact Hv). rewrite (map_nth (fun j => nth (S j) nx "")).
  rewrite (nth_indep (map _ ps) "" (nth 0 nx "")) by (rewrite map_length; exact Hv). rewrite (map_nth (fun j => nth j nx "")).
  assert (Hj : In (nth v ps 0) ps) by (apply nth_In; exact Hv). set (j := nth v ps 0) in *. clearbody j.
  unfold ps, positions in Hj. apply filter_In in Hj. destruct Hj as (Hj & Hb).
  apply in_seq in Hj. rewrite app_length in Hm, Hj. cbn [List.length] in Hm, Hj.
  assert (Hlt : S j < List.length nx).
  { destruct (Nat.eq_dec j (List.length m)) as [E|]; [|lia]. rewrite E, app_nth2, Nat.sub_diag in Hb by lia. discriminate. }
  intros E. assert (Hne : S j = j); [|lia].
  apply (proj1 (NoDup_nth nx "") Hd); [exact Hlt|lia|exact E].
Qed.

(** Concrete cases: two regimes; x2 varies; the table of OLS_Regimes and the one of ML_Error_Regimes for the same tests *)
Example C93_witness :
  (chow_attrs OLS_R CMany (C2List [false; true; false]) ["x1"; "x2"; "x3"] [] "" false =
     Ok (["CONSTANT"; "x1"; "x2"; "x3"], C2List [false; true; false], [false; true; false]) /\
   chow_table ["CONSTANT"; "x1"; "x2"; "x3"] (C2List [false; true; false]) CMany 0 2 2 [(1, 2); (3, 4)] (5, 6) =
     Ok [{| c_name := Some "CONSTANT"; c_df := Some 1; c_val := Some (1, 2) |};
         {| c_name := Some "x2"; c_df := Some 1; c_val := Some (3, 4) |};
         {| c_name := Some "Global test"; c_df := Some 2; c_val := Some (5, 6) |}]) /\
  (chow_attrs ML_Error_R CMany (C2List [false; true; false]) ["x1"; "x2"; "x3"] [] "" false =
     Ok (["CONSTANT"; "x1"; "x2"; "x3"], C2List [true; false; true; false], [false; true; false]) /\
   chow_table ["CONSTANT"; "x1"; "x2"; "x3"] (C2List [true; false; true; false]) CMany 1 2 2 [(1, 2); (3, 4)] (5, 6) =
     Ok [{| c_name := Some "CONSTANT"; c_df := Some 1; c_val := Some (1, 2) |};
         {| c_name := Some "x1"; c_df := Some 1; c_val := Some (3, 4) |};
         {| c_name := Some "x3"; c_df := Some 1; c_val := None |};
         {| c_name := Some "Global test"; c_df := Some 2; c_val := Some (5, 6) |}]) /\
  (chow_attrs GM_Combo_R CMany (C2List [false; true; true]) ["x1"; "x2"] ["e"] "W_y" false =
     Ok (["CONSTANT"; "x1"; "x2"; "e"; "W_y"], C2List [false; true; true; false], [false; true; true; false]) /\
   tested CMany (model_vars GM_Combo_R ["x1"; "x2"] ["e"] "W_y") [false; true; true; false] = ["CONSTANT"; "x2"; "e"]).
Proof. repeat split. Qed.
