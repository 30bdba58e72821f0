(** C35, C36: the forward searches follow their decision tree. *)
From Coq Require Import QArith Lia.
From Verif Require Import PyBase SearchModel.
Local Open Scope string_scope.
Local Open Scope list_scope.
Local Open Scope nat_scope.

(* ---------- specification ---------- *)
(** significance on rational p-values, strictly below the threshold *)
Definition sig (x p : Q) : Prop := Qlt x p.

(** The documented tree.  [ak]: the Anselin-Kelejian test of the lag model rejects (Some True), does not (Some False), or the lag model could not
    be estimated or tested (None). *)
Inductive classic_rule (p lml lme rlml rlme : Q) (ak : option Prop) : string -> spec -> Prop :=
| cr_none : ~ sig lml p -> ~ sig lme p -> classic_rule p lml lme rlml rlme ak "OLS" OLS
| cr_lag : sig lml p -> ~ sig lme p -> classic_rule p lml lme rlml rlme ak "LAG" LAG
| cr_err : ~ sig lml p -> sig lme p -> classic_rule p lml lme rlml rlme ak "ERROR" ERROR
| cr_lagr : sig lml p -> sig lme p -> sig rlml p -> ~ sig rlme p -> classic_rule p lml lme rlml rlme ak "LAGr" LAG
| cr_errr : sig lml p -> sig lme p -> ~ sig rlml p -> sig rlme p -> classic_rule p lml lme rlml rlme ak "ERRORr" ERROR
| cr_sarsar : forall P, sig lml p -> sig lme p -> sig rlml p -> sig rlme p -> ak = Some P -> P ->
    classic_rule p lml lme rlml rlme ak "SARSAR" SARSAR
| cr_lagb : sig lml p -> sig lme p -> sig rlml p -> sig rlme p -> (forall P, ak = Some P -> ~ P) -> Qle rlml rlme ->
    classic_rule p lml lme rlml rlme ak "LAG_BR" LAG
| cr_errb : sig lml p -> sig lme p -> sig rlml p -> sig rlme p -> (forall P, ak = Some P -> ~ P) -> Qlt rlme rlml ->
    classic_rule p lml lme rlml rlme ak "ERROR_Br" ERROR
| cr_lagn : sig lml p -> sig lme p -> ~ sig rlml p -> ~ sig rlme p -> Qle rlml rlme -> classic_rule p lml lme rlml rlme ak "LAG_Nr" LAG
| cr_errn : sig lml p -> sig lme p -> ~ sig rlml p -> ~ sig rlme p -> Qlt rlme rlml -> classic_rule p lml lme rlml rlme ak "ERROR_Nr" ERROR.

(** the AK test of a fitted lag model against p (a NaN p-value does not reject) *)
Definition ak_of (fit : spec -> option data) (s : spec) (p : Q) : option Prop :=
  match fit s with
  | None => None
  | Some d => match d_ak d with None => None | Some None => Some False | Some (Some a) => Some (Qle a p) end
  end.

(** what is returned once the tree has named a specification: the fitted model, or the label with an exception message and no model *)
Definition delivered (fit : spec -> option data) (s : spec) (lab : string) (out : string * option model) : Prop :=
  match fit s with
  | Some d => out = (lab, Some (s, d))
  | None => exists msg, fst out = (lab ++ " -- Exception: " ++ msg)%string /\ snd out = None
  end.

(* ---------- comparisons ---------- *)
Lemma plt_iff x y : plt (Some x) (Some y) = true <-> Qlt x y.
Proof.
  unfold plt. rewrite Bool.negb_true_iff. split; intro H.
  - apply Qnot_le_lt. intro E. apply Qle_bool_iff in E. congruence.
  - destruct (Qle_bool y x) eqn:E; auto. apply Qle_bool_iff in E. exfalso. eapply Qlt_not_le; eauto.
Qed.
Lemma plt_false x y : plt (Some x) (Some y) = false <-> ~ Qlt x y.
Proof. rewrite <- plt_iff. destruct (plt _ _); split; intros; try congruence; exfalso; auto. Qed.
Lemma pge_iff x y : pge (Some x) (Some y) = true <-> ~ Qlt x y.
Proof. unfold pge, ple. rewrite Qle_bool_iff. split; intro H; [now apply Qle_not_lt | now apply Qnot_lt_le]. Qed.
Lemma pge_false x y : pge (Some x) (Some y) = false <-> Qlt x y.
Proof. rewrite <- plt_iff. unfold pge, ple, plt. destruct (Qle_bool y x); simpl; split; congruence. Qed.
Lemma ple_iff x y : ple (Some x) (Some y) = true <-> Qle x y.
Proof. apply Qle_bool_iff. Qed.
Lemma ple_false x y : ple (Some x) (Some y) = false <-> Qlt y x.
Proof. rewrite <- plt_iff. unfold ple, plt. destruct (Qle_bool x y); simpl; split; congruence. Qed.
Lemma pge_negb x y : pge (Some x) (Some y) = negb (plt (Some x) (Some y)).
Proof. unfold pge, ple, plt. now rewrite Bool.negb_involutive. Qed.
Lemma pgt_negb x y : pgt (Some x) (Some y) = negb (ple (Some x) (Some y)).
Proof. reflexivity. Qed.

Ltac cmp := repeat match goal with
  | H : plt (Some _) (Some _) = true |- _ => apply plt_iff in H
  | H : plt (Some _) (Some _) = false |- _ => apply plt_false in H
  | H : ple (Some _) (Some _) = true |- _ => apply ple_iff in H
  | H : ple (Some _) (Some _) = false |- _ => apply ple_false in H
  end.

Lemma rule_fun p a b c d ak l1 s1 l2 s2 : classic_rule p a b c d ak l1 s1 -> classic_rule p a b c d ak l2 s2 -> l1 = l2 /\ s1 = s2.
Proof.
  intros H1 H2. unfold sig in *.
  destruct H1; destruct H2; auto; unfold sig in *; try tauto;
    try (exfalso; match goal with h : (forall P, ak = Some P -> ~ P), e : ak = Some ?Q, q : ?Q |- _ => exact (h _ e q) end);
    try (exfalso; match goal with h : Qlt ?a ?b, h2 : Qle ?b ?a |- _ => exact (Qlt_not_le _ _ h h2) end).
Qed.

(* ---------- C35 ---------- *)
Section Classic.
Variable fit : spec -> option data.
Variables (p lme lml rlme rlml : Q) (d : data).
Hypothesis HO : fit OLS = Some d.
Hypothesis He : d_lme d = Some lme.
Hypothesis Hl : d_lml d = Some lml.
Hypothesis Hre : d_rlme d = Some rlme.
Hypothesis Hrl : d_rlml d = Some rlml.

Local Notation rule := (classic_rule p lml lme rlml rlme (ak_of fit LAG p)).

(** the code's choice, as the label and the index k of the final model *)
Lemma classic_choice_rule : exists lab k s, classic_choice fit d (Some p) = (Some lab, k) /\ rule lab s /\
  ((k = 0 /\ s = OLS) \/ ((k = 1 \/ k = 4) /\ s = LAG) \/ (k = 2 /\ s = ERROR) \/ (k = 3 /\ s = SARSAR)).
Proof.
  unfold classic_choice. rewrite He, Hl, Hre, Hrl. rewrite !pge_negb, !pgt_negb.
  destruct (plt (Some lml) (Some p)) eqn:E1; destruct (plt (Some lme) (Some p)) eqn:E2; cbn [negb andb].
  - destruct (plt (Some rlml) (Some p)) eqn:E3; destruct (plt (Some rlme) (Some p)) eqn:E4; cbn [negb andb].
    + unfold ak_of. destruct (fit LAG) as [dl|] eqn:EL.
      * destruct (d_ak dl) as [ak|] eqn:EA.
        { destruct (ple ak (Some p)) eqn:E5; cbn [negb andb].
          - do 3 eexists. split; [reflexivity|]. split; [|tauto].
            destruct ak as [a|]; [|discriminate]. cmp. apply (cr_sarsar _ _ _ _ _ _ (Qle a p)); try assumption; reflexivity.
          - assert (N : forall P : Prop, match ak with Some a => Some (Qle a p) | None => Some False end = Some P -> ~ P).
            { intros P HP. destruct ak as [a|]; injection HP as <-; [|tauto]. intro HH. cmp. eapply Qlt_not_le; eauto. }
            destruct (ple (Some rlml) (Some rlme)) eqn:E6; cbn [negb andb]; do 3 eexists; (split; [reflexivity|]);
              (split; [|tauto]); cmp; [apply cr_lagb | apply cr_errb]; assumption. }
        { destruct (ple (Some rlml) (Some rlme)) eqn:E6; cbn [negb andb]; do 3 eexists; (split; [reflexivity|]);
            (split; [|tauto]); cmp; [apply cr_lagb | apply cr_errb]; (assumption || discriminate). }
      * destruct (ple (Some rlml) (Some rlme)) eqn:E6; cbn [negb andb]; do 3 eexists; (split; [reflexivity|]);
          (split; [|tauto]); cmp; [apply cr_lagb | apply cr_errb]; (assumption || discriminate).
    + do 3 eexists. split; [reflexivity|]. split; [|tauto]. cmp. now apply cr_lagr.
    + do 3 eexists. split; [reflexivity|]. split; [|tauto]. cmp. now apply cr_errr.
    + destruct (ple (Some rlml) (Some rlme)) eqn:E6; cbn [negb andb]; do 3 eexists; (split; [reflexivity|]);
        (split; [|tauto]); cmp; [apply cr_lagn | apply cr_errn]; assumption.
  - do 3 eexists. split; [reflexivity|]. split; [|tauto]. cmp. now apply cr_lag.
  - do 3 eexists. split; [reflexivity|]. split; [|tauto]. cmp. now apply cr_err.
  - do 3 eexists. split; [reflexivity|]. split; [|tauto]. cmp. now apply cr_none.
Qed.

(** with finmod=False the label is the one and only label the tree gives *)
Theorem C35_label lab : (exists s, rule lab s) <-> stge_classic fit (Some p) false = Ok (lab, None).
Proof.
  unfold stge_classic. rewrite HO. destruct classic_choice_rule as (l & k & s & E & R & _). rewrite E. split.
  - intros [s' R']. destruct (rule_fun _ _ _ _ _ _ _ _ _ _ R R') as [-> _]. reflexivity.
  - intro H. injection H as <-. eauto.
Qed.

(** with finmod=True the model is the one the tree names, estimated, with its label; if it cannot be estimated there is no model and the label says so *)
Theorem C35_model lab s : rule lab s -> exists out, stge_classic fit (Some p) true = Ok out /\ delivered fit s lab out.
Proof.
  intro R'. unfold stge_classic. rewrite HO. destruct classic_choice_rule as (l & k & s0 & E & R & K). rewrite E.
  destruct (rule_fun _ _ _ _ _ _ _ _ _ _ R R') as [-> ->]. clear R'.
  unfold delivered, final.
  destruct K as [[-> ->]|[[[->| ->] ->]|[[-> ->]|[-> ->]]]].
  - rewrite HO. eauto.
  - destruct (fit LAG) eqn:F; eexists; (split; [reflexivity|]); [reflexivity|]. exists "GM LAG parameters outside bounds". auto.
  - destruct (fit LAG) eqn:F; eexists; (split; [reflexivity|]); [reflexivity|]. exists "GM LAG parameters outside bounds". auto.
  - destruct (fit ERROR) eqn:F; eexists; (split; [reflexivity|]); [reflexivity|]. exists "GMM Error parameters outside bounds". auto.
  - destruct (fit SARSAR) eqn:F; eexists; (split; [reflexivity|]); [reflexivity|]. exists "SARSAR parameters outside bounds". auto.
Qed.

(** OLS is kept exactly when no LM test is significant *)
Theorem C35_ols : stge_classic fit (Some p) true = Ok ("OLS", Some (OLS, d)) <-> (~ Qlt lml p /\ ~ Qlt lme p).
Proof.
  split.
  - intro H. destruct classic_choice_rule as (l & k & s & E & R & K). destruct (C35_model l s R) as (out & H1 & H2).
    rewrite H in H1. injection H1 as <-. unfold delivered in H2. destruct (fit s) eqn:F.
    + injection H2 as H2 H3 H4. inversion R; subst; try discriminate; unfold sig in *; auto.
    + destruct H2 as (m & H3 & H4). discriminate.
  - intros [H1 H2]. destruct (C35_model "OLS" OLS) as (out & H3 & H4); [now apply cr_none|].
    unfold delivered in H4. rewrite HO in H4. now subst.
Qed.
End Classic.

(** NaN: with a NaN LM p-value the chosen label can be missing altogether (the name result is unbound) *)
Theorem C35_nan fit p d finmod : fit OLS = Some d -> d_lml d = None -> stge_classic fit p finmod = Err "UnboundLocalError".
Proof. intros H N. unfold stge_classic, classic_choice. rewrite H, N. cbv [pge ple plt]. destruct p; simpl; reflexivity. Qed.

(** concrete: both robust tests significant, AK does not reject *)
Definition wd : data := Data (Some (1#1000)%Q) (Some (1#2000)%Q) (Some (1#500)%Q) (Some (1#400)%Q) (Some (1#400)%Q) (Some (1#400)%Q) (Some (1#2)%Q) (Some (1#100)%Q) [Some (1#2)%Q; Some (1#2)%Q; Some (1#2)%Q; Some (1#1000)%Q] (Some (1#1000)%Q) (Some (Some (1#3)%Q)).
Example C35_witness : stge_classic (fun _ => Some wd) (Some (1#100)%Q) true = Ok ("ERROR_Br", Some (ERROR, wd)) /\
  classic_rule (1#100) (1#2000) (1#1000) (1#400) (1#500) (ak_of (fun _ => Some wd) LAG (1#100)) "ERROR_Br" ERROR.
Proof.
  split; [reflexivity|]. apply cr_errb; try (unfold sig; reflexivity).
  intros P H. injection H as <-. intro HH. apply Qle_bool_iff in HH. discriminate.
Qed.

(* ---------- C36 ---------- *)
(** Koley-Bera: the joint test first (not significant only if its p-value exceeds p: a tie counts as significant), then the two robust tests
    (significant strictly below p) *)
Inductive kb_rule (p spdur rlwx rdury : Q) : string -> spec -> Prop :=
| kr_joint : Qlt p spdur -> kb_rule p spdur rlwx rdury "OLS" OLS
| kr_both : ~ Qlt p spdur -> sig rlwx p -> sig rdury p -> kb_rule p spdur rlwx rdury "SDM" SDM
| kr_lag : ~ Qlt p spdur -> ~ sig rlwx p -> sig rdury p -> kb_rule p spdur rlwx rdury "LAG" LAG
| kr_slx : ~ Qlt p spdur -> sig rlwx p -> ~ sig rdury p -> kb_rule p spdur rlwx rdury "SLX" SLX
| kr_none : ~ Qlt p spdur -> ~ sig rlwx p -> ~ sig rdury p -> kb_rule p spdur rlwx rdury "OLS" OLS.

Lemma kb_fun p a b c l1 s1 l2 s2 : kb_rule p a b c l1 s1 -> kb_rule p a b c l2 s2 -> l1 = l2 /\ s1 = s2.
Proof. intros H1 H2. destruct H1; destruct H2; auto; unfold sig in *; tauto. Qed.

Section KB.
Variable fit : spec -> option data.
Variables (p spdur rlwx rdury : Q) (d : data).
Hypothesis HO : fit OLS = Some d.
Hypothesis Hs : d_spdurbin d = Some spdur.
Hypothesis Hx : d_rlmwx d = Some rlwx.
Hypothesis Hy : d_rlmdurlag d = Some rdury.

Lemma kb_choice_rule : exists lab k s, kb_choice d (Some p) = (lab, k) /\ kb_rule p spdur rlwx rdury lab s /\
  ((k = 0 /\ s = OLS) \/ (k = 1 /\ s = LAG) \/ (k = 2 /\ s = SLX) \/ (k = 3 /\ s = SDM)).
Proof.
  unfold kb_choice. rewrite Hs, Hx, Hy. unfold pgt.
  destruct (plt (Some p) (Some spdur)) eqn:E0.
  { do 3 eexists. split; [reflexivity|]. split; [|tauto]. cmp. now apply kr_joint. }
  destruct (plt (Some rlwx) (Some p)) eqn:E1; destruct (plt (Some rdury) (Some p)) eqn:E2; cbn [negb andb];
    do 3 eexists; (split; [reflexivity|]); (split; [|tauto]); cmp;
    [apply kr_both | apply kr_slx | apply kr_lag | apply kr_none]; assumption.
Qed.

Theorem C36_label lab : (exists s, kb_rule p spdur rlwx rdury lab s) <-> stge_kb fit (Some p) false = Ok (lab, None).
Proof.
  unfold stge_kb. rewrite HO. destruct kb_choice_rule as (l & k & s & E & R & _). rewrite E. split.
  - intros [s' R']. destruct (kb_fun _ _ _ _ _ _ _ _ R R') as [-> _]. reflexivity.
  - intro H. injection H as <-. eauto.
Qed.

(** the SLX final model is OLS with lagged x, estimated outside a try: when it fails the call raises, in every other case the tree's model comes back *)
Theorem C36_model lab s : kb_rule p spdur rlwx rdury lab s -> (s = SLX -> fit SLX <> None) ->
  exists out, stge_kb fit (Some p) true = Ok out /\ delivered fit s lab out.
Proof.
  intros R' NS. unfold stge_kb. rewrite HO. destruct kb_choice_rule as (l & k & s0 & E & R & K). rewrite E.
  destruct (kb_fun _ _ _ _ _ _ _ _ R R') as [-> ->]. clear R'.
  unfold delivered, final.
  destruct K as [[-> ->]|[[-> ->]|[[-> ->]|[-> ->]]]].
  - rewrite HO. eauto.
  - destruct (fit LAG) eqn:F; eexists; (split; [reflexivity|]); [reflexivity|]. exists "GM Lag parameters outside bounds". auto.
  - destruct (fit SLX) eqn:F; [eauto|]. exfalso. now apply NS.
  - destruct (fit SDM) eqn:F; eexists; (split; [reflexivity|]); [reflexivity|]. exists "SDM parameters outside bounds". auto.
Qed.

(** every answer names the model in hand: the label is OLS, LAG, SLX or SDM and the model is of that specification *)
Theorem C36_agree lab m dm : stge_kb fit (Some p) true = Ok (lab, Some (m, dm)) ->
  fit m = Some dm /\ ((lab = "OLS" /\ m = OLS) \/ (lab = "LAG" /\ m = LAG) \/ (lab = "SLX" /\ m = SLX) \/ (lab = "SDM" /\ m = SDM)).
Proof.
  intro H. destruct kb_choice_rule as (l & k & s & E & R & K).
  assert (NS : s = SLX -> fit SLX <> None).
  { intros -> F. unfold stge_kb in H. rewrite HO, E in H. destruct K as [[-> K]|[[-> K]|[[-> K]|[-> K]]]]; try discriminate K.
    rewrite F in H. discriminate. }
  destruct (C36_model l s R NS) as (out & H1 & H2). rewrite H in H1. injection H1 as <-. unfold delivered in H2.
  destruct (fit s) as [ds|] eqn:F.
  - injection H2 as -> -> ->. split; [assumption|]. inversion R; tauto.
  - destruct H2 as (mm & _ & H2). discriminate.
Qed.
End KB.

(** the branch the code comments as never reached is reached: joint test significant, neither robust test *)
Example C36_witness : stge_kb (fun _ => Some (Data None None None None None (Some (1#2)%Q) (Some (1#2)%Q) (Some (1#1000)%Q) [] None None)) (Some (1#100)%Q) false = Ok ("OLS", None)
  /\ kb_rule (1#100) (1#1000) (1#2) (1#2) "OLS" OLS
  /\ stge_kb (fun _ => Some (Data None None None None None (Some (1#1000)%Q) (Some (1#1000)%Q) (Some (1#100)%Q) [] None None)) (Some (1#100)%Q) false = Ok ("SDM", None).
Proof.
  split; [reflexivity|]. split; [|reflexivity].
  apply kr_none; unfold sig; intro H; apply plt_iff in H; discriminate.
Qed.
