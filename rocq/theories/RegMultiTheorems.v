(** Property theorems C13 (estimation by regimes: assembly).  spreg/ols_regimes.py:542-681, spreg/regimes.py:673-690. *)
From Verif Require Import PyBase RegimesModel RegimesProofs RegWModel RegWSpec RegWProofs RegMultiModel RegMultiProofs.
Open Scope string_scope.
Open Scope list_scope.
Open Scope nat_scope.

(** a regime result with the shapes its regression produces *)
Definition shaped {F} (kb kv nobs : nat) (q : rres (F := F)) : Prop :=
  List.length (r_betas q) = kb /\ List.length (r_vm q) = kv /\ (forall row, In row (r_vm q) -> List.length row = kv) /\
  List.length (r_u q) = nobs /\ List.length (r_predy q) = nobs.

Section T.
Context {F R : Type} (f0 : F) (req : forall a b : R, {a = b} + {a <> b}).

Lemma multi_ok (regimes regimes_set : list R) kb kv (results : R -> rres) :
  NoDup regimes_set -> (forall r, In r regimes_set -> shaped kb kv (List.length (obs_of req regimes r)) (results r)) ->
  exists m, regimes_multi f0 (List.length regimes) kb kv regimes_set (regi_ids_of req regimes) results = Ok m /\
    m_betas m = List.concat (map (fun r => r_betas (results r)) regimes_set) /\
    m_vm m = bd f0 (List.length regimes_set) kv 0 (map (fun r => r_vm (results r)) regimes_set) /\
    List.length (m_u m) = List.length regimes /\ List.length (m_predy m) = List.length regimes /\
    (forall r k i, In r regimes_set -> nth_error (obs_of req regimes r) k = Some i ->
      nth_error (m_u m) i = nth_error (r_u (results r)) k /\ nth_error (m_predy m) i = nth_error (r_predy (results r)) k) /\
    m_name_x m = List.concat (map (fun r => r_name_x (results r)) regimes_set) /\
    m_name_y m = List.concat (map (fun r => chars (r_name_y (results r))) regimes_set).
Proof.
  intros Hn Hs. unfold regimes_multi.
  destruct (multi_inv f0 (List.length regimes) kb kv (regi_ids_of req regimes) results regimes_set (List.length regimes_set) []
    {| m_betas := repeat f0 (List.length regimes_set * kb); m_vm := repeat (repeat f0 (List.length regimes_set * kv)) (List.length regimes_set * kv);
       m_u := repeat f0 (List.length regimes); m_predy := repeat f0 (List.length regimes); m_name_y := []; m_name_x := [] |})
    as (st & E & P1 & P2 & P3 & P4 & P5 & P6 & P7); cbn [app List.length m_betas m_vm m_u m_predy]; rewrite ?repeat_length; auto.
  - intros r Hr. destruct (Hs r Hr) as (S1 & S2 & S3 & S4 & S5). rewrite where_obs. split; [apply obs_of_NoDup|]. split.
    { intros i Hi. apply (obs_of_In req) in Hi. apply nth_error_Some. congruence. }
    split; [auto|]. split; [split; auto|]. split; auto.
  - intros r s i _ _ Hi Hj. rewrite !where_obs in *. apply (obs_of_In req) in Hi, Hj. congruence.
  - intros r k i [].
  - exists st. cbn [List.length] in E. rewrite E. cbn [bind snd app] in *. split; [auto|]. split; [auto|]. split; [auto|]. split; [auto|].
    split; [auto|]. split; [|split; auto]. intros r k i Hr Hk. apply P5; auto. now rewrite where_obs.
Qed.

(** C13: coefficients: the a-th coefficient of the c-th regime is at c * kb + a. *)
Theorem C13_betas : forall (regimes regimes_set : list R) kb kv (results : R -> rres),
  NoDup regimes_set -> (forall r, In r regimes_set -> shaped kb kv (List.length (obs_of req regimes r)) (results r)) ->
  exists m, regimes_multi f0 (List.length regimes) kb kv regimes_set (regi_ids_of req regimes) results = Ok m /\
    List.length (m_betas m) = List.length regimes_set * kb /\
    forall c r a, nth_error regimes_set c = Some r -> a < kb -> nth_error (m_betas m) (c * kb + a) = nth_error (r_betas (results r)) a.
Proof.
  intros regimes rs kb kv results Hn Hs. destruct (multi_ok regimes rs kb kv results Hn Hs) as (m & E & Eb & _). exists m. split; auto.
  assert (G : forall b, In b (map (fun r => r_betas (results r)) rs) -> List.length b = kb).
  { intros b Hb. apply in_map_iff in Hb. destruct Hb as (r & <- & Hr). apply Hs; auto. }
  rewrite Eb. split.
  - clear - G. induction rs as [|r rs IH]; auto. cbn. rewrite app_length, IH by (intros; apply G; cbn; auto). rewrite G by (cbn; auto). lia.
  - intros c r a Hc Ha. apply concat_nth; auto. now rewrite nth_error_map, Hc.
Qed.

(** C13: covariance: the block of a pair of regimes is the regime's own matrix on the diagonal and zero elsewhere. *)
Theorem C13_vm : forall (regimes regimes_set : list R) kb kv (results : R -> rres),
  NoDup regimes_set -> (forall r, In r regimes_set -> shaped kb kv (List.length (obs_of req regimes r)) (results r)) ->
  exists m, regimes_multi f0 (List.length regimes) kb kv regimes_set (regi_ids_of req regimes) results = Ok m /\
    List.length (m_vm m) = List.length regimes_set * kv /\
    forall c d r s a e, nth_error regimes_set c = Some r -> nth_error regimes_set d = Some s -> a < kv -> e < kv ->
    exists row, nth_error (m_vm m) (c * kv + a) = Some row /\ List.length row = List.length regimes_set * kv /\
      (r = s -> exists br, nth_error (r_vm (results r)) a = Some br /\ nth_error row (d * kv + e) = nth_error br e) /\
      (r <> s -> nth_error row (d * kv + e) = Some f0).
Proof.
  intros regimes rs kb kv results Hn Hs. destruct (multi_ok regimes rs kb kv results Hn Hs) as (m & E & _ & Ev & _). exists m. split; auto.
  assert (G : forall b, In b (map (fun r => r_vm (results r)) rs) -> blk kv b).
  { intros b Hb. apply in_map_iff in Hb. destruct Hb as (r & <- & Hr). destruct (Hs r Hr) as (_ & S2 & S3 & _). split; auto. }
  rewrite Ev. split; [now rewrite bd_length, map_length|].
  intros c d r s a e Hc Hd Ha He.
  assert (Hdn : d < List.length rs) by (apply nth_error_Some; congruence).
  destruct (bd_cell f0 (List.length rs) kv _ G (map_length _ _) c d a e (r_vm (results r))) as (row & R1 & R2 & R3); auto.
  { now rewrite nth_error_map, Hc. }
  exists row. split; auto. split; auto. rewrite NoDup_nth_error in Hn. split.
  - intros <-. assert (c = d) by (apply Hn; [apply nth_error_Some; congruence|congruence]). subst d.
    rewrite Nat.eqb_refl in R3. destruct (nth_error (r_vm (results r)) a) as [br|] eqn:Eb; [eauto|].
    apply nth_error_None in Eb. destruct (Hs r) as (_ & S2 & _); [eapply nth_error_In; eauto|]. lia.
  - intros Hne. destruct (Nat.eqb_spec c d) as [->|]; [exfalso; congruence|auto].
Qed.

(** C13: every observation gets residual and fitted value of its own regime's regression, at its own place;
    nothing is left unwritten. *)
Theorem C13_residuals : forall (regimes regimes_set : list R) kb kv (results : R -> rres),
  NoDup regimes_set -> (forall r, In r regimes -> In r regimes_set) ->
  (forall r, In r regimes_set -> shaped kb kv (List.length (obs_of req regimes r)) (results r)) ->
  exists m, regimes_multi f0 (List.length regimes) kb kv regimes_set (regi_ids_of req regimes) results = Ok m /\
    List.length (m_u m) = List.length regimes /\ List.length (m_predy m) = List.length regimes /\
    forall i r, nth_error regimes i = Some r ->
      exists k u p, nth_error (obs_of req regimes r) k = Some i /\
        nth_error (r_u (results r)) k = Some u /\ nth_error (m_u m) i = Some u /\
        nth_error (r_predy (results r)) k = Some p /\ nth_error (m_predy m) i = Some p.
Proof.
  intros regimes rs kb kv results Hn Hr Hs. destruct (multi_ok regimes rs kb kv results Hn Hs) as (m & E & _ & _ & L1 & L2 & H & _).
  exists m. split; auto. split; auto. split; auto. intros i r Hi.
  assert (Hin : In r rs) by (apply Hr; eapply nth_error_In; eauto).
  assert (Ho : In i (obs_of req regimes r)) by (apply (obs_of_In req); auto).
  apply In_nth_error in Ho. destruct Ho as (k & Hk). destruct (Hs r Hin) as (_ & _ & _ & S4 & S5).
  assert (Hlt : k < List.length (obs_of req regimes r)) by (apply nth_error_Some; congruence).
  destruct (nth_error (r_u (results r)) k) as [u|] eqn:Eu; [|apply nth_error_None in Eu; lia].
  destruct (nth_error (r_predy (results r)) k) as [p|] eqn:Ep; [|apply nth_error_None in Ep; lia].
  destruct (H r k i Hin Hk) as [H1 H2]. exists k, u, p. rewrite H1, H2. repeat split; auto.
Qed.

(** C13: if in each regime's regression fitted value plus residual is that regime's y, this holds for the combined object. *)
Theorem C13_fit_identity : forall (fadd : F -> F -> F) (y : list F) (regimes regimes_set : list R) kb kv (results : R -> rres),
  NoDup regimes_set -> (forall r, In r regimes -> In r regimes_set) -> List.length y = List.length regimes ->
  (forall r, In r regimes_set -> shaped kb kv (List.length (obs_of req regimes r)) (results r) /\
     forall k i p u, nth_error (obs_of req regimes r) k = Some i -> nth_error (r_predy (results r)) k = Some p ->
       nth_error (r_u (results r)) k = Some u -> nth_error y i = Some (fadd p u)) ->
  exists m, regimes_multi f0 (List.length regimes) kb kv regimes_set (regi_ids_of req regimes) results = Ok m /\
    forall i, i < List.length y -> exists p u, nth_error (m_predy m) i = Some p /\ nth_error (m_u m) i = Some u /\ nth_error y i = Some (fadd p u).
Proof.
  intros fadd y regimes rs kb kv results Hn Hr Hl Hs.
  destruct (C13_residuals regimes rs kb kv results Hn Hr (fun r Hin => proj1 (Hs r Hin))) as (m & E & _ & _ & H).
  exists m. split; auto. intros i Hi. rewrite Hl in Hi.
  destruct (nth_error regimes i) as [r|] eqn:Er; [|apply nth_error_None in Er; lia].
  destruct (H i r Er) as (k & u & p & K1 & K2 & K3 & K4 & K5). exists p, u. split; auto. split; auto.
  destruct (Hs r) as [_ Hy]; [apply Hr; eapply nth_error_In; eauto|]. eapply Hy; eauto.
Qed.

(** C13: the names of the coefficients are those of the regimes, in the same order as the coefficients. *)
Theorem C13_names : forall (regimes regimes_set : list R) kb kv (results : R -> rres),
  NoDup regimes_set -> (forall r, In r regimes_set -> shaped kb kv (List.length (obs_of req regimes r)) (results r)) ->
  exists m, regimes_multi f0 (List.length regimes) kb kv regimes_set (regi_ids_of req regimes) results = Ok m /\
    m_name_x m = flat_map (fun r => r_name_x (results r)) regimes_set /\
    List.length (m_name_y m) = fold_right Nat.add 0 (map (fun r => String.length (r_name_y (results r))) regimes_set).
Proof.
  intros regimes rs kb kv results Hn Hs. destruct (multi_ok regimes rs kb kv results Hn Hs) as (m & E & _ & _ & _ & _ & _ & Ex & Ey).
  exists m. split; auto. rewrite Ex, Ey, flat_map_concat_map. split; auto.
  clear. induction rs as [|r rs IH]; auto. cbn. rewrite app_length, IH. f_equal. induction (r_name_y (results r)); cbn; auto.
Qed.
End T.

(** C13, the claim one might expect of name_y: one name per regime.  It fails: the list holds the characters of the names. *)
Theorem C13_name_y_refuted : ~ (forall (regimes regimes_set : list nat) kb kv (results : nat -> rres (F := Z)) m,
  NoDup regimes_set -> (forall r, In r regimes_set -> shaped kb kv (List.length (obs_of Nat.eq_dec regimes r)) (results r)) ->
  regimes_multi 0%Z (List.length regimes) kb kv regimes_set (regi_ids_of Nat.eq_dec regimes) results = Ok m ->
  m_name_y m = map (fun r => r_name_y (results r)) regimes_set).
Proof.
  intros H.
  specialize (H [1] [1] 1 1 (fun _ => {| r_betas := [7%Z]; r_vm := [[2%Z]]; r_u := [3%Z]; r_predy := [4%Z]; r_name_y := "1_CRIME"; r_name_x := ["1_CONSTANT"] |}) _
    ltac:(repeat constructor; cbn; intuition) ltac:(intros r [<-|[]]; repeat split; cbn; intros row [<-|[]]; reflexivity) eq_refl).
  discriminate H.
Qed.

Example C13_witness :
  let res := fun r => {| r_betas := if r =? 1 then [11; 12]%Z else [21; 22]%Z; r_vm := if r =? 1 then [[1; 2]; [3; 4]]%Z else [[5; 6]; [7; 8]]%Z;
                         r_u := if r =? 1 then [100; 101]%Z else [200]%Z; r_predy := if r =? 1 then [300; 301]%Z else [400]%Z;
                         r_name_y := "y"; r_name_x := ["a"; "b"] |} in
  NoDup [1; 2] /\ (forall r, In r [1; 2] -> shaped 2 2 (List.length (obs_of Nat.eq_dec [1; 2; 1] r)) (res r)) /\
  match regimes_multi 0%Z 3 2 2 [1; 2] (regi_ids_of Nat.eq_dec [1; 2; 1]) res with
  | Ok m => (m_betas m, m_vm m, m_u m, m_predy m) | Err _ => ([], [], [], []) end
  = ([11; 12; 21; 22], [[1; 2; 0; 0]; [3; 4; 0; 0]; [0; 0; 5; 6]; [0; 0; 7; 8]], [100; 200; 101], [300; 400; 301])%Z.
Proof.
  split; [repeat constructor; cbn; intuition discriminate|]. split; [|reflexivity].
  intros r [<-|[<-|[]]]; repeat split; cbn; intros row [<-|[<-|[]]]; reflexivity.
Qed.

(** Constant columns. *)
Section C.
Context {F R : Type} (feq : forall a b : F, {a = b} + {a <> b}).

(** the column takes two different values within these observations *)
Definition varies (col : list F) (obs : list nat) : Prop :=
  exists i j a b, In i obs /\ In j obs /\ nth_error col i = Some a /\ nth_error col j = Some b /\ a <> b.

Lemma const_on_spec col idx : idx <> [] -> (forall i, In i idx -> i < List.length col) ->
  exists b, const_on feq col idx = Ok b /\ (negb b = true <-> varies col idx).
Proof.
  intros Hne Hb. unfold const_on. destruct (take_idx_ok col idx Hb) as (v & E & Lv & Hv). rewrite E. cbn [bind].
  destruct v as [|a t]; [destruct idx; [congruence|discriminate]|]. eexists. split; [reflexivity|].
  rewrite negb_true_iff. destruct idx as [|i0 idx]; [congruence|].
  pose proof (Hv 0 i0 eq_refl) as H0. cbn in H0. split.
  - intros Hf. assert (G : exists x, In x t /\ a <> x).
    { clear - Hf. induction t as [|x t IH]; [discriminate|]. cbn in Hf. destruct (feq a x) as [->|N].
      - destruct IH as (z & Hz & Nz); [exact Hf|]. exists z; cbn; auto.
      - exists x; cbn; auto. }
    destruct G as (x & Hx & Nx). assert (Hx' : In x (a :: t)) by (cbn; auto). apply (take_idx_In _ _ _ _ E) in Hx'.
    destruct Hx' as (j & Hj & Ej). exists i0, j, a, x. cbn; auto 10.
  - intros (i & j & x & z & Hi & Hj & Ei & Ej & Nxz). apply not_true_is_false. intros Hall. rewrite forallb_forall in Hall.
    assert (G : forall y, In y (a :: t) -> y = a).
    { intros y [<-|Hy]; auto. specialize (Hall y Hy). destruct (feq a y); congruence. }
    apply Nxz. rewrite (G x), (G z); auto; apply (take_idx_In _ _ _ _ E); eauto.
Qed.

Definition wf_cols (n : nat) (cols : list (list F)) := forall c, In c cols -> List.length c = n.

Lemma mapM_const idx cols n : idx <> [] -> (forall i, In i idx -> i < n) -> wf_cols n cols ->
  exists mask, mapM (fun c => const_on feq c idx) cols = Ok mask /\ Forall2 (fun c b => negb b = true <-> varies c idx) cols mask.
Proof.
  intros Hne Hb. induction cols as [|c cols IH]; intros Hw; [exists []; split; [reflexivity|constructor]|].
  destruct (const_on_spec c idx Hne) as (b & E & Hv). { intros i Hi. rewrite (Hw c) by (cbn; auto). auto. }
  destruct IH as (mask & Em & Hm). { intros c' Hc'. apply Hw. cbn; auto. }
  exists (b :: mask). cbn [mapM]. rewrite E. cbn [bind]. rewrite Em. cbn [bind]. split; auto.
Qed.

Lemma where_take (names : list string) mask : List.length names = List.length mask -> take_idx names (where_ is_true_ mask) = Ok (compress names mask).
Proof.
  intros Hl. unfold where_.
  assert (G : forall (pre l : list string), List.length l = List.length mask -> take_idx (pre ++ l) (where_from is_true_ (List.length pre) mask) = Ok (compress l mask)).
  { clear Hl. induction mask as [|b mask IH]; intros pre l Hl; [now destruct l|]. destruct l as [|x l]; [discriminate|].
    cbn in Hl. injection Hl as Hl. specialize (IH (pre ++ [x]) l Hl). rewrite <- app_assoc, app_length in IH. cbn [app List.length] in IH.
    rewrite Nat.add_1_r in IH. destruct b; cbn [where_from is_true_ compress].
    - cbn [take_idx]. rewrite nth_error_app2, Nat.sub_diag by lia. cbn [nth_error]. rewrite IH. reflexivity.
    - exact IH. }
  exact (G [] names Hl).
Qed.

Lemma filter_compress names mask : NoDup names -> List.length names = List.length mask ->
  filter (fun e => if in_dec string_dec e (compress names mask) then false else true) names = compress names (map negb mask).
Proof.
  revert mask. intros mask Hn Hl.
  assert (G : forall names mask (S : list string), NoDup names -> List.length names = List.length mask ->
     (forall e, In e names -> (In e S <-> In e (compress names mask))) ->
     filter (fun e => if in_dec string_dec e S then false else true) names = compress names (map negb mask)).
  { clear. induction names as [|x names IH]; intros mask S Hn Hl HS; [now destruct mask|]. destruct mask as [|b mask]; [discriminate|].
    injection Hl as Hl. inversion Hn; subst. cbn [filter map compress].
    assert (Hsub : forall e, In e (compress names mask) -> In e names).
    { clear. revert mask. induction names as [|y names IH]; intros [|b mask] e; cbn; try contradiction.
      destruct b; cbn; intros; [destruct H; eauto|eauto]. }
    assert (IHe : filter (fun e => if in_dec string_dec e S then false else true) names = compress names (map negb mask)).
    { apply IH; auto. intros e He. rewrite HS by (cbn; auto). cbn [compress]. destruct b; [|reflexivity]. cbn. split; [intros [->|?]; [contradiction|auto]|auto]. }
    specialize (HS x (or_introl eq_refl)). cbn [compress] in HS. destruct b; cbn [negb].
    - destruct (in_dec string_dec x S); [exact IHe|]. exfalso. apply n. apply HS. cbn; auto.
    - destruct (in_dec string_dec x S) as [Q|Q]; [exfalso; apply HS in Q; apply Hsub in Q; contradiction|]. now rewrite IHe. }
  apply G; auto. reflexivity.
Qed.

Lemma compress_combine {A B} (a : list A) (b : list B) m : List.length a = List.length m -> List.length b = List.length m ->
  combine (compress a m) (compress b m) = compress (combine a b) m.
Proof.
  revert a b; induction m as [|x m IH]; intros [|y a] [|z b] H1 H2; cbn in *; try discriminate; auto.
  destruct x; cbn; rewrite IH; auto.
Qed.
Lemma compress_length {A B} (a : list A) (b : list B) m : List.length a = List.length m -> List.length b = List.length m ->
  List.length (compress a m) = List.length (compress b m).
Proof.
  revert a b; induction m as [|x m IH]; intros [|y a] [|z b] H1 H2; cbn in *; try discriminate; auto.
  destruct x; cbn; rewrite (IH a b); auto.
Qed.
Lemma compress_incl {A} (a : list A) m x : In x (compress a m) -> In x a.
Proof. revert m; induction a as [|y a IH]; intros [|b m]; cbn; try contradiction. destruct b; cbn; intuition eauto. Qed.
Lemma compress_NoDup {A} (a : list A) m : NoDup a -> NoDup (compress a m).
Proof.
  intros H; revert m; induction H as [|y a Hy Ha IH]; intros [|b m]; cbn; try constructor. destruct b; auto.
  constructor; auto. intros Hi. apply Hy. eapply compress_incl; eauto.
Qed.

(** C13: the columns kept before estimation are exactly those that vary within every regime, in their order, each with its own name;
    names must be distinct. *)
Theorem C13_constant_columns : forall (ids : R -> list nat) (regimes_set : list R) names cols n,
  NoDup names -> List.length names = List.length cols -> wf_cols n cols ->
  (forall r, In r regimes_set -> ids r <> [] /\ forall i, In i (ids r) -> i < n) ->
  exists names' cols' (keep : string * list F -> bool),
    check_const_regi feq ids regimes_set names cols = Ok (names', cols') /\ List.length names' = List.length cols' /\
    combine names' cols' = filter keep (combine names cols) /\
    (forall p, In p (combine names cols) -> (keep p = true <-> forall r, In r regimes_set -> varies (snd p) (ids r))).
Proof.
  intros ids rs. induction rs as [|r rs IH]; intros names cols n Hn Hl Hw Hid.
  - exists names, cols, (fun _ => true). split; [reflexivity|]. split; auto. split; [|intros; split; [intros _ ? []|auto]].
    induction (combine names cols) as [|q l IHl]; [reflexivity|]. cbn. now rewrite <- IHl.
  - unfold check_const_regi. cbn [foldM]. destruct (Hid r) as [Hne Hb]; [cbn; auto|].
    destruct (mapM_const (ids r) cols n Hne Hb Hw) as (mask & Em & Hm). unfold const_step at 1. rewrite Em. cbn [bind].
    assert (Lm : List.length cols = List.length mask) by (clear - Hm; induction Hm; cbn; auto).
    rewrite where_take by congruence. cbn [bind]. rewrite filter_compress by (auto; congruence).
    assert (Lnm : List.length (map negb mask) = List.length mask) by apply map_length.
    destruct (IH (compress names (map negb mask)) (compress cols (map negb mask)) n) as (names' & cols' & keep & E & L' & C' & K').
    + now apply compress_NoDup.
    + apply compress_length; congruence.
    + intros c Hc. apply Hw. eapply compress_incl; eauto.
    + intros s Hs. apply Hid. cbn; auto.
    + assert (V : exists vr : string * list F -> bool, (forall p, In p (combine names cols) -> (vr p = true <-> varies (snd p) (ids r))) /\
         compress (combine names cols) (map negb mask) = filter vr (combine names cols)).
      { exists (fun p => match const_on feq (snd p) (ids r) with Ok b => negb b | Err _ => false end). split.
        - intros [nm c] Hp. apply in_combine_r in Hp. cbn [snd].
          destruct (const_on_spec c (ids r) Hne) as (b & Eb & Hv). { intros i Hi. rewrite (Hw c Hp). auto. }
          rewrite Eb. exact Hv.
        - clear - Em Hl. revert names mask Em Hl. induction cols as [|c cols IHc]; intros [|nm names] mask Em Hl; try discriminate.
          + cbn in *. injection Em as <-. reflexivity.
          + cbn [mapM] in Em. destruct (const_on feq c (ids r)) as [b|] eqn:Eb; [|discriminate]. cbn [bind] in Em.
            destruct (mapM _ cols) as [mt|] eqn:Et; [|discriminate]. cbn [bind] in Em. injection Em as <-.
            cbn [combine map compress filter snd]. rewrite Eb. injection Hl as Hl. rewrite (IHc names mt eq_refl Hl). reflexivity. }
      destruct V as (vr & Hvr & Ecomp).
      exists names', cols', (fun p => vr p && keep p). split; [exact E|]. split; auto. split.
      * rewrite C', compress_combine by congruence. rewrite Ecomp.
        clear. induction (combine names cols) as [|q l IHl]; [reflexivity|]. cbn [filter]. destruct (vr q); cbn [filter andb]; [|exact IHl].
        destruct (keep q); congruence.
      * intros p Hp. rewrite andb_true_iff, (Hvr p Hp). split.
        -- intros [H1 H2] s [<-|Hs]; auto. apply K'; auto. rewrite compress_combine, Ecomp by congruence. apply filter_In. split; auto. now apply Hvr.
        -- intros H. assert (H1 : varies (snd p) (ids r)) by (apply H; cbn; auto). split; auto. apply K'.
           { rewrite compress_combine, Ecomp by congruence. apply filter_In. split; auto. now apply Hvr. }
           intros s Hs. apply H. cbn; auto.
Qed.
End C.

(** C13: with a repeated variable name the names and the columns kept no longer correspond (here: one name, two columns kept
    besides the constant one). *)
Theorem C13_duplicate_names_refuted : ~ (forall (ids : nat -> list nat) regimes_set names (cols : list (list Z)) names' cols',
  List.length names = List.length cols -> check_const_regi Z.eq_dec ids regimes_set names cols = Ok (names', cols') ->
  List.length names' = List.length cols').
Proof.
  intros H. specialize (H (fun _ => [0; 1]) [1] ["a"; "b"; "a"] [[1; 1]; [2; 3]; [4; 5]]%Z _ _ eq_refl eq_refl). discriminate H.
Qed.

Example C13_constant_witness :
  check_const_regi Z.eq_dec (fun r => if r =? 1 then [0; 1] else [2; 3]) [1; 2] ["a"; "b"; "c"]
    [[1; 2; 3; 3]; [2; 3; 4; 5]; [4; 4; 5; 6]]%Z = Ok (["b"], [[2; 3; 4; 5]%Z]).
Proof. reflexivity. Qed.
Print Assumptions C13_betas.
Print Assumptions C13_vm.
Print Assumptions C13_residuals.
Print Assumptions C13_constant_columns.
