(** C37: stge_pre; C38: the general-to-specific searches. *)
From Coq Require Import QArith Lia.
From Verif Require Import PyBase SearchModel SearchTheorems.
Local Open Scope string_scope.
Local Open Scope list_scope.
Local Open Scope nat_scope.

(* ---------- specification ---------- *)
(** the documented name of each specification *)
Inductive names : string -> spec -> Prop :=
| n_ols : names "OLS" (Spec false false false)
| n_lag : names "LAG" (Spec false true false)
| n_err : names "ERROR" (Spec false false true)
| n_sarsar : names "SARSAR" (Spec false true true)
| n_slx : names "SLX" (Spec true false false)
| n_sdm : names "SDM" (Spec true true false)
| n_slxerr : names "SLX-ERR" (Spec true false true)
| n_gns : names "GNS" (Spec true true true).

(* ---------- C37 ---------- *)
Section Pre.
Variable fit : spec -> option data.
Variables (p lmwx rlmwx lme lml rlme rlml : Q) (d0 d : data) (slx : bool).
Hypothesis HO : fit OLS = Some d0.
Hypothesis Hw : d_lmwx d0 = Some lmwx.
Hypothesis Hrw : d_rlmwx d0 = Some rlmwx.
(** first step: WX is kept exactly when both tests on WX reject *)
Hypothesis Hslx : slx = true <-> (Qlt lmwx p /\ Qlt rlmwx p).
Hypothesis HD : fit (Spec slx false false) = Some d.
Hypothesis He : d_lme d = Some lme.
Hypothesis Hl : d_lml d = Some lml.
Hypothesis Hre : d_rlme d = Some rlme.
Hypothesis Hrl : d_rlml d = Some rlml.

(** second step: the classic tree on the tests of the first step's model *)
Local Notation rule := (classic_rule p lml lme rlml rlme (ak_of fit (Spec slx true false) p)).
(** the one corner with the wrong label *)
Definition bad_corner : Prop :=
  slx = true /\ ak_of fit (Spec slx true false) p = None /\ Qlt lml p /\ Qlt lme p /\ Qlt rlml p /\ Qlt rlme p /\ Qle rlml rlme.

Lemma slx_eq : plt (d_lmwx d0) (Some p) && plt (d_rlmwx d0) (Some p) = slx.
Proof.
  rewrite Hw, Hrw. destruct slx.
  - destruct (proj1 Hslx eq_refl) as [a b]. apply plt_iff in a. apply plt_iff in b. now rewrite a, b.
  - apply Bool.not_true_is_false. intro H. apply andb_prop in H. destruct H as [a b]. cmp.
    assert (false = true) by (apply Hslx; auto). discriminate.
Qed.

Definition idv := if slx then 4 else 0.
Lemma pre_choice_rule : exists lab k s cl, pre_choice fit d slx (Some p) = Some (lab, k) /\ rule cl s /\
  (names lab (Spec slx (s_wy s) (s_err s)) \/ (bad_corner /\ lab = "LAG")) /\
  ((k = idv /\ s = OLS) \/ (k = idv + 1 /\ s = LAG) \/ (k = idv + 2 /\ s = ERROR) \/ (k = idv + 3 /\ s = SARSAR)).
Proof.
  unfold pre_choice. rewrite He, Hl, Hre, Hrl. rewrite !pge_negb, !pgt_negb. fold idv.
  destruct (plt (Some lml) (Some p)) eqn:E1; destruct (plt (Some lme) (Some p)) eqn:E2; cbn [negb andb].
  - destruct (plt (Some rlml) (Some p)) eqn:E3; destruct (plt (Some rlme) (Some p)) eqn:E4; cbn [negb andb].
    + set (AK := ak_of fit (Spec slx true false) p).
      assert (HA : AK = match (match fit (Spec slx true false) with Some dl => d_ak dl | None => None end) with
         None => None | Some None => Some False | Some (Some a) => Some (Qle a p) end).
      { unfold AK, ak_of. destruct (fit (Spec slx true false)); reflexivity. }
      destruct (match fit (Spec slx true false) with Some dl => d_ak dl | None => None end) as [ak|] eqn:EA.
      * destruct (ple ak (Some p)) eqn:E5; cbn [negb andb].
        { do 4 eexists. split; [reflexivity|]. split; [|split; [|tauto]].
          - destruct ak as [a|]; [|discriminate]. cmp. rewrite HA. apply (cr_sarsar _ _ _ _ _ _ (Qle a p)); try assumption; reflexivity.
          - left. unfold idv. destruct slx; constructor. }
        assert (N : forall P : Prop, AK = Some P -> ~ P).
        { intros P HP. rewrite HA in HP. destruct ak as [a|]; injection HP as <-; [|tauto]. intro HH. cmp. eapply Qlt_not_le; eauto. }
        destruct (ple (Some rlml) (Some rlme)) eqn:E6; cbn [negb andb]; do 4 eexists; (split; [reflexivity|]);
          (split; [cmp; first [apply cr_lagb; assumption | apply cr_errb; assumption]|]); (split; [|tauto]); left; unfold idv; destruct slx; constructor.
      * assert (N : forall P : Prop, AK = Some P -> ~ P) by (rewrite HA; discriminate).
        destruct (ple (Some rlml) (Some rlme)) eqn:E6; cbn [negb andb]; do 4 eexists; (split; [reflexivity|]);
          (split; [cmp; first [apply cr_lagb; assumption | apply cr_errb; assumption]|]); (split; [|tauto]).
        { destruct slx eqn:ES; [right|left; constructor]. cmp. split; [|reflexivity]. unfold bad_corner. rewrite ES.
          repeat (split; [first [reflexivity | assumption] |]). assumption. }
        { left. unfold idv. destruct slx; constructor. }
    + do 4 eexists. split; [reflexivity|]. split; [cmp; now apply cr_lagr|]. split; [|tauto]. left. unfold idv. destruct slx; constructor.
    + do 4 eexists. split; [reflexivity|]. split; [cmp; now apply cr_errr|]. split; [|tauto]. left. unfold idv. destruct slx; constructor.
    + destruct (ple (Some rlml) (Some rlme)) eqn:E6; cbn [negb andb]; do 4 eexists; (split; [reflexivity|]);
          (split; [cmp; first [apply cr_lagn; assumption | apply cr_errn; assumption]|]); (split; [|tauto]); left; unfold idv; destruct slx; constructor.
  - do 4 eexists. split; [reflexivity|]. split; [cmp; now apply cr_lag|]. split; [|tauto]. left. unfold idv. destruct slx; constructor.
  - do 4 eexists. split; [reflexivity|]. split; [cmp; now apply cr_err|]. split; [|tauto]. left. unfold idv. destruct slx; constructor.
  - do 4 eexists. split; [reflexivity|]. split; [cmp; now apply cr_none|].
    split; [|left; split; [unfold idv; destruct slx; reflexivity | reflexivity]]. left. unfold idv. destruct slx; constructor.
Qed.

(** the model: WX as the first step says, Wy and the error term as the classic tree says *)
Theorem C37_model cl s : rule cl s -> let s' := Spec slx (s_wy s) (s_err s) in
  exists lab out, stge_pre fit (Some p) false = Ok (lab, None) /\ stge_pre fit (Some p) true = Ok out /\ delivered fit s' lab out /\
    (names lab s' \/ (bad_corner /\ lab = "LAG")).
Proof.
  intros R'. unfold stge_pre. rewrite HO, slx_eq, HD. destruct pre_choice_rule as (l & k & s0 & c & E & R & N & K). rewrite E.
  destruct (rule_fun _ _ _ _ _ _ _ _ _ _ R R') as [-> ->]. clear R'. cbv zeta.
  exists l. unfold delivered, final, idv in *.
  assert (HD' := HD).
  destruct slx eqn:ES; destruct K as [[-> ->]|[[-> ->]|[[-> ->]|[-> ->]]]]; cbn [Nat.add s_wy s_err OLS LAG ERROR SARSAR] in *;
    try rewrite HD'; try (eexists; split; [reflexivity|]; split; [reflexivity|]; split; [reflexivity | exact N]);
    match goal with |- context [fit ?a] => destruct (fit a) eqn:F end;
    eexists; (split; [reflexivity|]); (split; [reflexivity|]); (split; [|exact N]); try reflexivity; eexists; split; reflexivity.
Qed.

(** the label names the estimated model, except in the corner of line 700 *)
Theorem C37_label_partial cl s : rule cl s -> ~ bad_corner ->
  exists lab, names lab (Spec slx (s_wy s) (s_err s)) /\ stge_pre fit (Some p) false = Ok (lab, None).
Proof. intros R NB. destruct (C37_model cl s R) as (lab & out & A & _ & _ & [N|[B _]]); [eauto | contradiction]. Qed.
End Pre.

(** line 700: the lag model with WX estimates, but its AK test raises: the answer is labelled LAG and carries a spatial Durbin model *)
Definition wd37 : data := Data (Some (1#1000)%Q) (Some (1#2000)%Q) (Some (1#500)%Q) (Some (1#600)%Q) (Some (1#400)%Q) (Some (1#400)%Q) (Some (1#2)%Q)
  (Some (1#100)%Q) [] (Some (1#1000)%Q) None.
Theorem C37_refuted : exists fit p lab s d, stge_pre fit p true = Ok (lab, Some (s, d)) /\ ~ names lab s.
Proof. exists (fun _ => Some wd37), (Some (1#100)%Q), "LAG", SDM, wd37. split; [reflexivity|]. intro H. inversion H. Qed.
Example C37_witness : stge_pre (fun _ => Some wd) (Some (1#100)%Q) true = Ok ("SLX-ERR", Some (SLXERR, wd)).
Proof. reflexivity. Qed.

(* ---------- C38 ---------- *)
Definition all_sig (p : Q) (l : list Q) : Prop := forall x, In x l -> Qlt x p.
Definition none_sig (p : Q) (l : list Q) : Prop := forall x, In x l -> ~ Qlt x p.
(** position i holds the largest p-value, the first of them in a tie *)
Definition least_sig (l : list Q) (i : nat) : Prop :=
  i < List.length l /\ forall j, j < List.length l -> Qle (nth j l 0%Q) (nth i l 0%Q) /\ (j < i -> Qlt (nth j l 0%Q) (nth i l 0%Q)).

Lemma np_max_spec l : forall x, exists m, fold_left (fun m y => if is_nan m then m else if is_nan y then y else if plt m y then y else m) (map Some l) (Some x) = Some m
  /\ In m (x :: l) /\ forall y, In y (x :: l) -> Qle y m.
Proof.
  induction l as [|y l IH]; intro x; cbn [map fold_left is_nan].
  - exists x. split; [reflexivity|]. split; [now left|]. intros y [->|[]]. apply Qle_refl.
  - destruct (plt (Some x) (Some y)) eqn:E.
    + destruct (IH y) as (m & H & I & M).
      exists m. split; [exact H|]. split; [right; exact I|]. intros z [->|Hz]; [|now apply M].
      cmp. apply Qle_trans with y; [now apply Qlt_le_weak | apply M; now left].
    + destruct (IH x) as (m & H & I & M).
      exists m. split; [exact H|]. split; [destruct I; [now left | right; now right]|]. intros z [->|[->|Hz]].
      * apply M; now left.
      * cmp. apply Qle_trans with x; [now apply Qnot_lt_le | apply M; now left].
      * apply M; now right.
Qed.
Lemma np_min_spec l : forall x, exists m, fold_left (fun m y => if is_nan m then m else if is_nan y then y else if plt y m then y else m) (map Some l) (Some x) = Some m
  /\ In m (x :: l) /\ forall y, In y (x :: l) -> Qle m y.
Proof.
  induction l as [|y l IH]; intro x; cbn [map fold_left is_nan].
  - exists x. split; [reflexivity|]. split; [now left|]. intros y [->|[]]. apply Qle_refl.
  - destruct (plt (Some y) (Some x)) eqn:E.
    + destruct (IH y) as (m & H & I & M).
      exists m. split; [exact H|]. split; [right; exact I|]. intros z [->|Hz]; [|now apply M].
      cmp. apply Qle_trans with y; [apply M; now left | now apply Qlt_le_weak].
    + destruct (IH x) as (m & H & I & M).
      exists m. split; [exact H|]. split; [destruct I; [now left | right; now right]|]. intros z [->|[->|Hz]].
      * apply M; now left.
      * cmp. apply Qle_trans with x; [apply M; now left | now apply Qnot_lt_le].
      * apply M; now right.
Qed.
Lemma all_sig_iff p l : l <> [] -> plt (np_max (map Some l)) (Some p) = true <-> all_sig p l.
Proof.
  destruct l as [|x l]; [congruence|]. intros _. unfold np_max. simpl map. cbv beta iota.
  destruct (np_max_spec l x) as (m & H & I & M). rewrite H, plt_iff. split.
  - intros L y Hy. eapply Qle_lt_trans; [now apply M | assumption].
  - intro A. now apply A.
Qed.
Lemma none_sig_iff p l : l <> [] -> pge (np_min (map Some l)) (Some p) = true <-> none_sig p l.
Proof.
  destruct l as [|x l]; [congruence|]. intros _. unfold np_min. simpl map. cbv beta iota.
  destruct (np_min_spec l x) as (m & H & I & M). rewrite H, pge_iff. split.
  - intros L y Hy LT. apply L. apply (Qle_lt_trans _ y); [now apply M | assumption].
  - intro A. now apply A.
Qed.
Lemma argmax_spec l : forall pre best m,
  (best < List.length pre -> nth best pre 0%Q = m -> (forall j, j < List.length pre -> Qle (nth j pre 0%Q) m /\ (j < best -> Qlt (nth j pre 0%Q) m)) ->
   least_sig (pre ++ l) (argmax_from (map Some l) (List.length pre) best (Some m))).
Proof.
  induction l as [|y l IH]; intros pre best m Hb Hm HM.
  - simpl. rewrite app_nil_r. split; [assumption|]. intros j Hj. rewrite Hm. now apply HM.
  - cbn [map argmax_from is_nan orb].
    replace (pre ++ y :: l) with ((pre ++ [y]) ++ l) by (rewrite <- app_assoc; reflexivity).
    replace (S (List.length pre)) with (List.length (pre ++ [y])) by (rewrite app_length; simpl; lia).
    destruct (plt (Some m) (Some y)) eqn:E; cmp; apply IH; try rewrite app_length; simpl.
    + lia.
    + rewrite app_nth2, Nat.sub_diag by lia. reflexivity.
    + intros j Hj. destruct (Nat.eq_dec j (List.length pre)) as [->|ne].
      * rewrite app_nth2, Nat.sub_diag by lia. split; [apply Qle_refl | lia].
      * rewrite app_nth1 by lia. destruct (HM j ltac:(lia)) as [A _].
        assert (L : Qlt (nth j pre 0%Q) y) by (eapply Qle_lt_trans; eassumption).
        split; [now apply Qlt_le_weak | auto].
    + lia.
    + rewrite app_nth1 by lia. assumption.
    + intros j Hj. destruct (Nat.eq_dec j (List.length pre)) as [->|ne].
      * rewrite app_nth2, Nat.sub_diag by lia. split; [now apply Qnot_lt_le | lia].
      * rewrite app_nth1 by lia. apply HM. lia.
Qed.
Lemma least_sig_fun l i j : least_sig l i -> least_sig l j -> i = j.
Proof.
  intros [Li Hi] [Lj Hj]. destruct (Nat.lt_total i j) as [L|[L|L]]; auto; exfalso.
  - destruct (Hj i Li) as [_ A]. destruct (Hi j Lj) as [B _]. exact (Qlt_not_le _ _ (A L) B).
  - destruct (Hi j Lj) as [_ A]. destruct (Hj i Li) as [B _]. exact (Qlt_not_le _ _ (A L) B).
Qed.
Lemma argmax_least l : l <> [] -> least_sig l (np_argmax (map Some l)).
Proof.
  destruct l as [|x l]; [congruence|]. intros _. change (x :: l) with ([x] ++ l).
  apply (argmax_spec l [x] 0 x); simpl; try lia; auto.
  intros j Hj. assert (j = 0) as -> by lia. simpl. split; [apply Qle_refl | lia].
Qed.
Lemma least_last l i : l <> [] -> least_sig l i -> Nat.eqb (np_argmax (map Some l)) i = true.
Proof. intros NE H. apply Nat.eqb_eq. eapply least_sig_fun; [now apply argmax_least | assumption]. Qed.
Lemma least_not l i : l <> [] -> ~ least_sig l i -> Nat.eqb (np_argmax (map Some l)) i = false.
Proof. intros NE H. apply Nat.eqb_neq. intro E. apply H. rewrite <- E. now apply argmax_least. Qed.

(** what the p-values of the spatial coefficients of a model say *)
Inductive verdict := All | None_ | Mixed_last | Mixed_prev | Mixed_other.
Definition says (p : Q) (l : list Q) (v : verdict) : Prop :=
  match v with
  | All => all_sig p l
  | None_ => none_sig p l
  | Mixed_last => ~ all_sig p l /\ ~ none_sig p l /\ least_sig l (List.length l - 1)
  | Mixed_prev => ~ all_sig p l /\ ~ none_sig p l /\ ~ least_sig l (List.length l - 1) /\ least_sig l (List.length l - 2)
  | Mixed_other => ~ all_sig p l /\ ~ none_sig p l /\ ~ least_sig l (List.length l - 1) /\ ~ least_sig l (List.length l - 2)
  end.
Lemma says_total p l : l <> [] -> exists v, says p l v.
Proof.
  intro NE. destruct (plt (np_max (map Some l)) (Some p)) eqn:A; [exists All; now apply all_sig_iff in A|].
  assert (A' : ~ all_sig p l) by (rewrite <- all_sig_iff by assumption; congruence).
  destruct (pge (np_min (map Some l)) (Some p)) eqn:B; [exists None_; now apply none_sig_iff in B|].
  assert (B' : ~ none_sig p l) by (rewrite <- none_sig_iff by assumption; congruence).
  pose proof (argmax_least l NE) as L.
  destruct (Nat.eq_dec (np_argmax (map Some l)) (List.length l - 1)) as [e|e].
  { exists Mixed_last. unfold says. rewrite <- e. auto. }
  assert (e1 : ~ least_sig l (List.length l - 1)) by (intro Z; apply e; eapply least_sig_fun; eauto).
  destruct (Nat.eq_dec (np_argmax (map Some l)) (List.length l - 2)) as [f|f].
  { exists Mixed_prev. unfold says. rewrite <- f. auto. }
  exists Mixed_other. unfold says. repeat (split; [assumption|]). intro Z; apply f; eapply least_sig_fun; eauto.
Qed.

Section GNS.
Variable fit : spec -> option data.
Variables (k : nat) (p cf : Q) (z : spec -> list Q).
(** z s: p-values of the coefficients after the constant and the k columns of x, in the order WX, Wy, error *)
Hypothesis Hz : forall s d, fit s = Some d -> skipn (1 + k) (d_z d) = map Some (z s) /\ z s <> [].
Hypothesis Hcf : forall d, fit SDM = Some d -> d_cfh d = Some cf.

(** the documented tree: drop the least significant spatial term and look again *)
Inductive gns_rule : string -> option spec -> Prop :=
| g_fail : fit GNS = None -> gns_rule "Exception: GNS parameters out of bounds" None
| g_gns : fit GNS <> None -> says p (z GNS) All -> gns_rule "GNS" (Some GNS)
| g_ols : fit GNS <> None -> says p (z GNS) None_ -> gns_rule "OLS" (Some OLS)
| g_sdm_fail : fit GNS <> None -> says p (z GNS) Mixed_last -> fit SDM = None -> gns_rule "Exception: SDM parameters out of bounds" None
| g_sdm : fit GNS <> None -> says p (z GNS) Mixed_last -> fit SDM <> None -> says p (z SDM) All -> Qlt cf p -> gns_rule "SDM" (Some SDM)
| g_sdm_cf : fit GNS <> None -> says p (z GNS) Mixed_last -> fit SDM <> None -> says p (z SDM) All -> ~ Qlt cf p -> gns_rule "ERROR" (Some ERROR)
| g_sdm_ols : fit GNS <> None -> says p (z GNS) Mixed_last -> fit SDM <> None -> says p (z SDM) None_ -> gns_rule "OLS" (Some OLS)
| g_sdm_slx : fit GNS <> None -> says p (z GNS) Mixed_last -> fit SDM <> None -> says p (z SDM) Mixed_last -> gns_rule "SLX" (Some SLX)
| g_sdm_lag : forall v, fit GNS <> None -> says p (z GNS) Mixed_last -> fit SDM <> None -> says p (z SDM) v -> v = Mixed_prev \/ v = Mixed_other ->
    gns_rule "LAG" (Some LAG)
| g_err_fail : fit GNS <> None -> says p (z GNS) Mixed_prev -> fit SLXERR = None -> gns_rule "Exception: SLX Error parameters out of bounds" None
| g_err : fit GNS <> None -> says p (z GNS) Mixed_prev -> fit SLXERR <> None -> says p (z SLXERR) All -> gns_rule "SLX-ERR" (Some SLXERR)
| g_err_ols : fit GNS <> None -> says p (z GNS) Mixed_prev -> fit SLXERR <> None -> says p (z SLXERR) None_ -> gns_rule "OLS" (Some OLS)
| g_err_slx : fit GNS <> None -> says p (z GNS) Mixed_prev -> fit SLXERR <> None -> says p (z SLXERR) Mixed_last -> gns_rule "SLX" (Some SLX)
| g_err_err : forall v, fit GNS <> None -> says p (z GNS) Mixed_prev -> fit SLXERR <> None -> says p (z SLXERR) v -> v = Mixed_prev \/ v = Mixed_other ->
    gns_rule "ERROR" (Some ERROR)
| g_sar_fail : fit GNS <> None -> says p (z GNS) Mixed_other -> fit SARSAR = None -> gns_rule "Exception: SARSAR parameters out of bounds" None
| g_sar : fit GNS <> None -> says p (z GNS) Mixed_other -> fit SARSAR <> None -> says p (z SARSAR) All -> gns_rule "SARSAR" (Some SARSAR)
| g_sar_ols : fit GNS <> None -> says p (z GNS) Mixed_other -> fit SARSAR <> None -> says p (z SARSAR) None_ -> gns_rule "OLS" (Some OLS)
| g_sar_lag : fit GNS <> None -> says p (z GNS) Mixed_other -> fit SARSAR <> None -> says p (z SARSAR) Mixed_last -> gns_rule "LAG" (Some LAG)
| g_sar_err : forall v, fit GNS <> None -> says p (z GNS) Mixed_other -> fit SARSAR <> None -> says p (z SARSAR) v -> v = Mixed_prev \/ v = Mixed_other ->
    gns_rule "ERROR" (Some ERROR).

(** the code's tests on a fitted model's p-values *)
Definition code_says (l : list pv) (v : verdict) : Prop :=
  match v with
  | All => plt (np_max l) (Some p) = true
  | None_ => plt (np_max l) (Some p) = false /\ pge (np_min l) (Some p) = true
  | Mixed_last => plt (np_max l) (Some p) = false /\ pge (np_min l) (Some p) = false /\ Nat.eqb (np_argmax l) (List.length l - 1) = true
  | Mixed_prev => plt (np_max l) (Some p) = false /\ pge (np_min l) (Some p) = false /\ Nat.eqb (np_argmax l) (List.length l - 1) = false
      /\ Nat.eqb (np_argmax l) (List.length l - 2) = true
  | Mixed_other => plt (np_max l) (Some p) = false /\ pge (np_min l) (Some p) = false /\ Nat.eqb (np_argmax l) (List.length l - 1) = false
      /\ Nat.eqb (np_argmax l) (List.length l - 2) = false
  end.
Lemma says_code s d v : fit s = Some d -> says p (z s) v -> code_says (pstats k d) v.
Proof.
  intros F S. destruct (Hz _ _ F) as [E NE]. unfold pstats. rewrite E. set (l := z s) in *. clearbody l.
  assert (A : ~ all_sig p l -> plt (np_max (map Some l)) (Some p) = false).
  { intro N. apply Bool.not_true_is_false. now rewrite all_sig_iff. }
  assert (B : ~ none_sig p l -> pge (np_min (map Some l)) (Some p) = false).
  { intro N. apply Bool.not_true_is_false. now rewrite none_sig_iff. }
  destruct v; cbn in S |- *; rewrite ?map_length.
  - now apply all_sig_iff.
  - split; [|now apply none_sig_iff]. apply A. intro N. destruct l as [|x l]; [congruence|].
    apply (S x); [now left | apply N; now left].
  - destruct S as (S1 & S2 & S3). repeat split; auto. now apply least_last.
  - destruct S as (S1 & S2 & S3 & S4). repeat split; auto; [now apply least_not | now apply least_last].
  - destruct S as (S1 & S2 & S3 & S4). repeat split; auto; now apply least_not.
Qed.

Ltac getfit F := match goal with H : fit ?s <> None |- _ => destruct (fit s) eqn:F; [clear H | congruence] end.
Ltac usecode := repeat match goal with
  | F : fit ?s = Some ?d, S : says p (z ?s) ?v |- _ => let C := fresh "C" in pose proof (says_code s d v F S) as C; clear S; cbn in C
  end.
Ltac rw := repeat match goal with H : _ /\ _ |- _ => destruct H end;
  repeat match goal with H : _ = true |- _ => rewrite H | H : _ = false |- _ => rewrite H end.

Theorem C38_gns_total : exists lab s, gns_rule lab s.
Proof.
  destruct (fit GNS) as [d|] eqn:F; [|do 2 eexists; now apply g_fail].
  assert (FN : fit GNS <> None) by congruence.
  destruct (says_total p (z GNS)) as [v S]; [now apply (Hz _ _ F)|].
  destruct v.
  - do 2 eexists; now apply g_gns.
  - do 2 eexists; now apply g_ols.
  - destruct (fit SDM) as [ds|] eqn:G; [|do 2 eexists; now apply g_sdm_fail].
    assert (GN : fit SDM <> None) by congruence.
    destruct (says_total p (z SDM)) as [v S']; [now apply (Hz _ _ G)|]. destruct v.
    + destruct (plt (Some cf) (Some p)) eqn:E; cmp; do 2 eexists; [now apply g_sdm | now apply g_sdm_cf].
    + do 2 eexists; now apply g_sdm_ols.
    + do 2 eexists; now apply g_sdm_slx.
    + do 2 eexists; eapply g_sdm_lag; eauto.
    + do 2 eexists; eapply g_sdm_lag; eauto.
  - destruct (fit SLXERR) as [ds|] eqn:G; [|do 2 eexists; now apply g_err_fail].
    assert (GN : fit SLXERR <> None) by congruence.
    destruct (says_total p (z SLXERR)) as [v S']; [now apply (Hz _ _ G)|]. destruct v.
    + do 2 eexists; now apply g_err.
    + do 2 eexists; now apply g_err_ols.
    + do 2 eexists; now apply g_err_slx.
    + do 2 eexists; eapply g_err_err; eauto.
    + do 2 eexists; eapply g_err_err; eauto.
  - destruct (fit SARSAR) as [ds|] eqn:G; [|do 2 eexists; now apply g_sar_fail].
    assert (GN : fit SARSAR <> None) by congruence.
    destruct (says_total p (z SARSAR)) as [v S']; [now apply (Hz _ _ G)|]. destruct v.
    + do 2 eexists; now apply g_sar.
    + do 2 eexists; now apply g_sar_ols.
    + do 2 eexists; now apply g_sar_lag.
    + do 2 eexists; eapply g_sar_err; eauto.
    + do 2 eexists; eapply g_sar_err; eauto.
Qed.

(** what the caller gets for a leaf of the tree *)
Definition gns_answer (finmod : bool) (lab : string) (s : option spec) (out : string * option model) : Prop :=
  match s with
  | None => out = (lab, None)
  | Some s => if finmod then delivered fit s lab out else out = (lab, None)
  end.

Lemma gns_step d v : fit GNS = Some d -> says p (z GNS) v -> code_says (pstats k d) v.
Proof. apply says_code. Qed.

(** OLS and SLX are estimated outside a try, so they must not raise *)
Theorem C38_gns lab s finmod : fit OLS <> None -> fit SLX <> None -> gns_rule lab s ->
  exists out, gets_gns fit k (Some p) finmod = Ok out /\ gns_answer finmod lab s out.
Proof.
  intros NO NS R. unfold gets_gns.
  destruct (fit OLS) as [dO|] eqn:FO; [clear NO|congruence]. destruct (fit SLX) as [dS|] eqn:FS; [clear NS|congruence].
  assert (FIN : forall t l m, (t = OLS /\ l = "OLS") \/ (t = SLX /\ l = "SLX") \/ (t = ERROR /\ l = "ERROR") \/ (t = LAG /\ l = "LAG") ->
     exists out, gns_finish fit finmod l m = Ok out /\ (finmod = true -> delivered fit t l out) /\ (finmod = false -> out = (l, m))).
  { intros t l m H. unfold gns_finish. destruct finmod; [|eexists; split; [reflexivity|]; split; [discriminate|auto]].
    destruct H as [[-> ->]|[[-> ->]|[[-> ->]|[-> ->]]]]; cbn [String.eqb Ascii.eqb Bool.eqb].
    - rewrite FO. eexists; split; [reflexivity|]. split; [intros _; unfold delivered; now rewrite FO | discriminate].
    - rewrite FS. eexists; split; [reflexivity|]. split; [intros _; unfold delivered; now rewrite FS | discriminate].
    - eexists; split; [reflexivity|]. split; [intros _; unfold delivered, final | discriminate].
      destruct (fit ERROR); [reflexivity|]. eexists; split; reflexivity.
    - eexists; split; [reflexivity|]. split; [intros _; unfold delivered, final | discriminate].
      destruct (fit LAG); [reflexivity|]. eexists; split; reflexivity. }
  assert (LEAF : forall t l, (t = OLS /\ l = "OLS") \/ (t = SLX /\ l = "SLX") \/ (t = ERROR /\ l = "ERROR") \/ (t = LAG /\ l = "LAG") ->
     exists out, gns_finish fit finmod l None = Ok out /\ gns_answer finmod l (Some t) out).
  { intros t l H. destruct (FIN t l None H) as (out & A & B & C). exists out. split; [exact A|]. unfold gns_answer. destruct finmod; auto. }
  assert (KEEP : forall t l dt, fit t = Some dt -> (t = GNS /\ l = "GNS") \/ (t = SDM /\ l = "SDM") \/ (t = SLXERR /\ l = "SLX-ERR") \/ (t = SARSAR /\ l = "SARSAR") ->
     exists out, gns_finish fit finmod l (keep finmod t dt) = Ok out /\ gns_answer finmod l (Some t) out).
  { intros t l dt F H. unfold gns_answer, gns_finish, keep, delivered.
    destruct H as [[-> ->]|[[-> ->]|[[-> ->]|[-> ->]]]]; destruct finmod; eexists; (split; [reflexivity|]); rewrite ?F; reflexivity. }
  inversion R as [F E1 E2|F S E1 E2|F S E1 E2|F S G E1 E2|F S G T C E1 E2|F S G T C E1 E2|F S G T E1 E2|F S G T E1 E2|v F S G T V E1 E2
    |F S G E1 E2|F S G T E1 E2|F S G T E1 E2|F S G T E1 E2|v F S G T V E1 E2
    |F S G E1 E2|F S G T E1 E2|F S G T E1 E2|F S G T E1 E2|v F S G T V E1 E2];
    [rewrite F; eexists; split; reflexivity | ..];
    (destruct (fit GNS) as [d|] eqn:FG; [clear F | congruence]);
    pose proof (says_code _ _ _ FG S) as CG; cbn [code_says] in CG; cbv zeta; rw;
    try (now apply KEEP; auto); try (now apply LEAF; auto);
    (try (rewrite G; eexists; split; reflexivity));
    match type of G with fit ?a <> None => (destruct (fit a) as [ds|] eqn:FD; [clear G | congruence]) end;
    pose proof (says_code _ _ _ FD T) as CD; try (destruct V as [V|V]; subst v); cbn [code_says] in CD; cbv zeta; rw;
    try (rewrite (Hcf _ eq_refl); (apply plt_iff in C || apply plt_false in C); rewrite C);
    first [now apply KEEP; auto | now apply LEAF; auto].
Qed.

(** a model that comes back carries its own name and is the estimate of that specification; no model: the label is an exception *)
Theorem C38_gns_agree lab m d : fit OLS <> None -> fit SLX <> None -> gets_gns fit k (Some p) true = Ok (lab, Some (m, d)) ->
  names lab m /\ fit m = Some d.
Proof.
  intros NO NS H. destruct C38_gns_total as (l & s & R). destruct (C38_gns l s true NO NS R) as (out & A & B).
  rewrite H in A. injection A as <-. unfold gns_answer, delivered in B.
  destruct s as [s|]; [|discriminate]. destruct (fit s) as [ds|] eqn:F.
  - injection B as -> -> ->. split; [|assumption]. inversion R; subst; constructor.
  - destruct B as (msg & _ & B). discriminate.
Qed.

(** a returned GNS, SLX-ERR, SARSAR or SDM has every spatial coefficient significant, SDM also rejects the common factor restriction *)
Theorem C38_gns_sig lab m d : fit OLS <> None -> fit SLX <> None -> gets_gns fit k (Some p) true = Ok (lab, Some (m, d)) ->
  lab = "GNS" \/ lab = "SDM" \/ lab = "SLX-ERR" \/ lab = "SARSAR" ->
  (forall x, In x (skipn (1 + k) (d_z d)) -> exists q, x = Some q /\ Qlt q p) /\ (lab = "SDM" -> exists c, d_cfh d = Some c /\ Qlt c p).
Proof.
  intros NO NS H L. destruct C38_gns_total as (l & s & R). destruct (C38_gns l s true NO NS R) as (out & A & B).
  rewrite H in A. injection A as <-. unfold gns_answer, delivered in B.
  destruct s as [s|]; [|discriminate]. destruct (fit s) as [ds|] eqn:F; [|destruct B as (msg & _ & B); discriminate].
  injection B as -> -> ->. destruct (Hz _ _ F) as [E _].
  assert (G : all_sig p (z s) /\ (l = "SDM" -> Qlt cf p)).
  { inversion R; subst; try (destruct L as [L|[L|[L|L]]]; discriminate); (split; [assumption | try discriminate; auto]). }
  destruct G as [G1 G2]. split.
  - rewrite E. intros x Hx. apply in_map_iff in Hx. destruct Hx as (q & <- & Hq). eauto.
  - intros ->. exists cf. inversion R; subst. split; [now apply Hcf | auto].
Qed.
End GNS.

(** concrete run: GNS mixed with lambda least significant, then SDM with every term significant and a rejected common factor *)
Definition fitw (s : spec) : option data :=
  let mk zs := Some (Data (Some (1#2)%Q) None None None None None None None zs (Some (1#1000)%Q) (Some (Some (1#2)%Q))) in
  match s with
  | Spec true true true => mk [None; None; Some (1#1000)%Q; Some (1#900)%Q; Some (1#3)%Q]
  | Spec true true false => mk [None; None; Some (1#1000)%Q; Some (1#900)%Q]
  | _ => mk [None; None; Some (1#1000)%Q]
  end.
Definition zw (s : spec) : list Q := match s with Spec true true true => [1#1000; 1#900; 1#3]%Q | Spec true true false => [1#1000; 1#900]%Q | _ => [1#1000]%Q end.
Example C38_witness : (forall s d, fitw s = Some d -> skipn (1 + 1) (d_z d) = map Some (zw s) /\ zw s <> []) /\
  (exists d, gets_gns fitw 1 (Some (1#100)%Q) true = Ok ("SDM", Some (SDM, d))) /\
  (exists d, gets_sdm fitw 1 (Some (1#100)%Q) true = Ok ("SDM", Some (SDM, d))).
Proof.
  split; [|split; eexists; reflexivity].
  intros [[|] [|] [|]] d H; injection H as <-; split; (reflexivity || discriminate).
Qed.

(* ---------- gets_sdm ---------- *)
Section SDMSearch.
Variable fit : spec -> option data.
Variables (k : nat) (p cf : Q) (z : spec -> list Q) (lme : spec -> Q) (ak : spec -> Q).
Hypothesis Hz : forall s d, fit s = Some d -> skipn (1 + k) (d_z d) = map Some (z s) /\ z s <> [].
Hypothesis Hcf : forall d, fit SDM = Some d -> d_cfh d = Some cf.
(** the LM error test of OLS and SLX, and the AK test of SDM and LAG, give finite p-values (AKtest does not raise) *)
Hypothesis Hlme : forall s d, s_wy s = false -> s_err s = false -> fit s = Some d -> d_lme d = Some (lme s).
Hypothesis Hak : forall s d, s_wy s = true -> s_err s = false -> fit s = Some d -> d_ak d = Some (Some (ak s)).
Hypothesis HO : fit OLS <> None.
Hypothesis HX : fit SLX <> None.

(** start from SDM: a fully significant SDM is a spatial error model if the common factor restriction holds, else GNS if its residuals are
    still spatially correlated; no spatial term: OLS or ERROR; Wy weakest: SLX or SLX with error; WX weakest: LAG or SARSAR *)
Inductive sdm_rule : string -> option spec -> Prop :=
| d_fail : fit SDM = None -> sdm_rule "Exception: SDM parameters out of bounds" None
| d_err : fit SDM <> None -> says p (z SDM) All -> ~ Qlt cf p -> sdm_rule "ERROR" (Some ERROR)
| d_gns : fit SDM <> None -> says p (z SDM) All -> Qlt cf p -> Qlt (ak SDM) p -> sdm_rule "GNS" (Some GNS)
| d_sdm : fit SDM <> None -> says p (z SDM) All -> Qlt cf p -> ~ Qlt (ak SDM) p -> sdm_rule "SDM" (Some SDM)
| d_nerr : fit SDM <> None -> says p (z SDM) None_ -> Qlt (lme OLS) p -> sdm_rule "ERROR" (Some ERROR)
| d_ols : fit SDM <> None -> says p (z SDM) None_ -> ~ Qlt (lme OLS) p -> sdm_rule "OLS" (Some OLS)
| d_slxerr : fit SDM <> None -> says p (z SDM) Mixed_last -> Qlt (lme SLX) p -> sdm_rule "SLX-Err" (Some SLXERR)
| d_slx : fit SDM <> None -> says p (z SDM) Mixed_last -> ~ Qlt (lme SLX) p -> sdm_rule "SLX" (Some SLX)
| d_lag_fail : forall v, fit SDM <> None -> says p (z SDM) v -> v = Mixed_prev \/ v = Mixed_other -> fit LAG = None ->
    sdm_rule "Exception: LAG parameters out of bounds" None
| d_sarsar : forall v, fit SDM <> None -> says p (z SDM) v -> v = Mixed_prev \/ v = Mixed_other -> fit LAG <> None -> Qlt (ak LAG) p ->
    sdm_rule "SARSAR" (Some SARSAR)
| d_lag : forall v, fit SDM <> None -> says p (z SDM) v -> v = Mixed_prev \/ v = Mixed_other -> fit LAG <> None -> ~ Qlt (ak LAG) p ->
    sdm_rule "LAG" (Some LAG).

Theorem C38_sdm_total : exists lab s, sdm_rule lab s.
Proof.
  destruct (fit SDM) as [d|] eqn:F; [|do 2 eexists; now apply d_fail].
  assert (FN : fit SDM <> None) by congruence.
  destruct (says_total p (z SDM)) as [v S]; [now apply (Hz _ _ F)|].
  assert (DEC : forall x, Qlt x p \/ ~ Qlt x p).
  { intro x. destruct (plt (Some x) (Some p)) eqn:E; cmp; auto. }
  destruct v.
  - destruct (DEC cf); [|do 2 eexists; now apply d_err].
    destruct (DEC (ak SDM)); do 2 eexists; [now apply d_gns | now apply d_sdm].
  - destruct (DEC (lme OLS)); do 2 eexists; [now apply d_nerr | now apply d_ols].
  - destruct (DEC (lme SLX)); do 2 eexists; [now apply d_slxerr | now apply d_slx].
  - destruct (fit LAG) eqn:FL; [|do 2 eexists; eapply d_lag_fail; eauto].
    assert (fit LAG <> None) by congruence.
    destruct (DEC (ak LAG)); do 2 eexists; [eapply d_sarsar; eauto | eapply d_lag; eauto].
  - destruct (fit LAG) eqn:FL; [|do 2 eexists; eapply d_lag_fail; eauto].
    assert (fit LAG <> None) by congruence.
    destruct (DEC (ak LAG)); do 2 eexists; [eapply d_sarsar; eauto | eapply d_lag; eauto].
Qed.

Ltac rw := repeat match goal with H : _ /\ _ |- _ => destruct H end;
  repeat match goal with H : _ = true |- _ => rewrite H | H : _ = false |- _ => rewrite H end.
Ltac toB := repeat match goal with
  | H : Qlt _ p |- _ => apply plt_iff in H
  | H : ~ Qlt _ p |- _ => apply plt_false in H end.

Theorem C38_sdm lab s finmod : sdm_rule lab s ->
  exists out, gets_sdm fit k (Some p) finmod = Ok out /\ gns_answer fit finmod lab s out.
Proof.
  intro R. unfold gets_sdm.
  assert (LEAF : forall t l, (t = GNS /\ l = "GNS") \/ (t = SLXERR /\ l = "SLX-Err") \/ (t = ERROR /\ l = "ERROR") \/ (t = SARSAR /\ l = "SARSAR") ->
     exists out, sdm_finish fit finmod l None = Ok out /\ gns_answer fit finmod l (Some t) out).
  { intros t l H. unfold sdm_finish, gns_answer, delivered, final.
    destruct H as [[-> ->]|[[-> ->]|[[-> ->]|[-> ->]]]]; destruct finmod; cbn [String.eqb Ascii.eqb Bool.eqb];
      eexists; (split; [reflexivity|]); try reflexivity;
      match goal with |- context [fit ?a] => destruct (fit a); [reflexivity|] end; eexists; split; reflexivity. }
  assert (KEEP : forall t l dt, fit t = Some dt -> (t = OLS /\ l = "OLS") \/ (t = SDM /\ l = "SDM") \/ (t = SLX /\ l = "SLX") \/ (t = LAG /\ l = "LAG") ->
     exists out, sdm_finish fit finmod l (keep finmod t dt) = Ok out /\ gns_answer fit finmod l (Some t) out).
  { intros t l dt F H. unfold gns_answer, sdm_finish, keep, delivered.
    destruct H as [[-> ->]|[[-> ->]|[[-> ->]|[-> ->]]]]; destruct finmod; eexists; (split; [reflexivity|]); rewrite ?F; reflexivity. }
  destruct (fit OLS) as [dO|] eqn:FO; [|congruence]. destruct (fit SLX) as [dS|] eqn:FX; [|congruence].
  pose proof (fun d F => Hak SDM d eq_refl eq_refl F) as AKS. pose proof (fun d F => Hak LAG d eq_refl eq_refl F) as AKL.
  pose proof (Hlme OLS _ eq_refl eq_refl FO) as LO. pose proof (Hlme SLX _ eq_refl eq_refl FX) as LX.
  assert (CODE : forall d v, fit SDM = Some d -> says p (z SDM) v -> code_says p (pstats k d) v).
  { intros d v. apply says_code. exact Hz. }
  pose proof (fun d F => Hcf d F) as CF.
  inversion R as [F E1 E2|F S C E1 E2|F S C A E1 E2|F S C A E1 E2|F S C E1 E2|F S C E1 E2|F S C E1 E2|F S C E1 E2
    |v F S V L E1 E2|v F S V L C E1 E2|v F S V L C E1 E2];
    [rewrite F; eexists; split; reflexivity | ..];
    (destruct (fit SDM) as [d|] eqn:FG; [clear F | congruence]);
    pose proof (CODE _ _ eq_refl S) as CG; try (destruct V as [V|V]; subst v); cbn [code_says] in CG; cbv zeta; rw;
    try rewrite (CF _ eq_refl); try rewrite (AKS _ eq_refl); toB; rewrite ?LO, ?LX;
    try rewrite pge_negb; rw; cbn [negb]; rw;
    try (now apply LEAF; auto); try (now apply KEEP; auto);
    try (rewrite L; eexists; split; reflexivity);
    (destruct (fit LAG) as [dl|] eqn:FL; [clear L | congruence]); rewrite (AKL _ eq_refl); rw;
    first [now apply LEAF; auto | now apply KEEP; auto].
Qed.

(** label and model agree; the model with lagged x and a spatial error is labelled "SLX-Err" by this search ("SLX-ERR" by the others) *)
Theorem C38_sdm_agree lab m d : gets_sdm fit k (Some p) true = Ok (lab, Some (m, d)) ->
  (names lab m \/ (lab = "SLX-Err" /\ m = SLXERR)) /\ fit m = Some d.
Proof.
  intro H. destruct C38_sdm_total as (l & s & R). destruct (C38_sdm l s true R) as (out & A & B).
  rewrite H in A. injection A as <-. unfold gns_answer, delivered in B.
  destruct s as [s|]; [|discriminate]. destruct (fit s) as [ds|] eqn:F.
  - injection B as -> -> ->. split; [|assumption]. inversion R; subst; try (left; constructor). right; auto.
  - destruct B as (msg & _ & B). discriminate.
Qed.
End SDMSearch.
