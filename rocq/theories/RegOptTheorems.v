(** C98: HAC requests in the regimes classes. *)
From Coq Require Import String Bool List.
From Verif Require Import PyBase ChecksModel RegOptModel.
Import ListNotations.
Open Scope string_scope.
Open Scope bool_scope.

(** specification: the request for regressions by regime as the user makes it *)
Definition asks_split (c : cls) (o : ropts) : bool :=
  match c with GM_Lag_Regimes => o_lag_sep o | _ => o_err_sep o end.
(** robust spelled 'hac', in any letter case *)
Definition hac_request (o : ropts) : bool := match o_robust o with Some s => String.eqb (lower s) "hac" | None => false end.

Lemma is_eq r s : is r s = true <-> r = Some s.
Proof.
destruct r as [t|]; simpl; [|split; discriminate].
split; [intro H; apply String.eqb_eq in H; congruence | intro H; injection H as ->; apply String.eqb_refl].
Qed.

Lemma accepted o : hac_request o = true -> forall c r, construct c o = Ok r -> exists k, o_gwk o = GKernel k.
Proof.
unfold hac_request, construct, check_robust; destruct (o_robust o) as [s|]; [|discriminate].
intros L c r; destruct (String.eqb s "") eqn:E; [apply String.eqb_eq in E; subst; discriminate|].
rewrite L; destruct (o_gwk o); simpl; try discriminate; eauto.
Qed.

(** C98: when one regression per regime is run *)
Theorem C98_split_iff c o r : construct c o = Ok r ->
  (r_multi r = true <-> asks_split c o = true /\ o_vary o = true /\ o_many o = true /\ o_robust o <> Some "hac").
Proof.
unfold construct; destruct check_robust; [|discriminate]; intro H; injection H as <-.
rewrite <- is_eq; destruct o as [es ls ro gw va ma]; destruct c;
  unfold asks_split, ols_regimes, gm_lag_regimes, tsls_regimes; simpl;
  destruct (is ro "hac"), es, va, ma; try destruct ls; simpl; intuition (congruence || discriminate).
Qed.

(** C98: robust='hac' always gives the kernel covariance of one joint regression, with error by regimes disabled and the user told so *)
Theorem C98_hac_joint c o r : o_robust o = Some "hac" -> construct c o = Ok r ->
  r_multi r = false /\ r_cov r = CHac /\ r_err_sep r = false /\ r_weighted r = false /\ r_warn r = asks_split c o.
Proof.
intros R H; assert (Q : hac_request o = true) by (unfold hac_request; rewrite R; reflexivity).
destruct (accepted o Q c r H) as [k G]; revert H; unfold construct; destruct check_robust; [|discriminate].
intro H; injection H as <-; destruct o as [es ls ro gw va ma]; simpl in *; subst ro gw.
destruct c, es, ls, va, ma; repeat split; reflexivity.
Qed.

(** C98: no options lead to robust.hac_multi, nor to the warning that "error and lag by regimes have been disabled" *)
Theorem C98_unreachable c o r : construct c o = Ok r -> r_hac_multi r = false /\ r_warn2 r = false.
Proof.
unfold construct; destruct check_robust; [|discriminate]; intro H; injection H as <-.
destruct o as [es ls ro gw va ma]; destruct c; unfold ols_regimes, gm_lag_regimes, tsls_regimes; simpl;
  destruct (is ro "hac"), es, va, ma; try destruct ls; simpl; auto.
Qed.

(** C98: GM_Lag_Regimes keeps the lag by regimes with robust='hac', and then only is it kept without error by regimes *)
Theorem C98_lag_kept o r : construct GM_Lag_Regimes o = Ok r ->
  r_lag_sep r = o_lag_sep o /\ r_err_sep r = o_lag_sep o && negb (is (o_robust o) "hac").
Proof.
unfold construct; destruct check_robust; [|discriminate]; intro H; injection H as <-.
destruct o as [es ls ro gw va ma]; unfold gm_lag_regimes, tsls_regimes; simpl; destruct (is ro "hac"), es, ls, va, ma; simpl; auto.
Qed.

(** C98: 'hac' in another letter case, which check_robust accepts: the kernel is used exactly if the regression is not split *)
Theorem C98_spelling c o r : hac_request o = true -> construct c o = Ok r ->
  (r_cov r = CHac <-> r_multi r = false) /\ (r_multi r = true -> r_cov r = CWhite /\ r_warn r = false).
Proof.
intros Q H; destruct (accepted o Q c r H) as [k G].
assert (O : is (o_robust o) "ogmm" = false).
{ destruct (is _ _) eqn:E; [|reflexivity]; apply is_eq in E; unfold hac_request in Q; rewrite E in Q; discriminate. }
assert (T : truthy (o_robust o) = true).
{ unfold hac_request in Q; destruct (o_robust o) as [s|]; [|discriminate]; simpl; destruct (String.eqb s "") eqn:E; [|reflexivity].
  apply String.eqb_eq in E; subst; discriminate. }
assert (S : exists s, o_robust o = Some s) by (destruct (o_robust o); [eauto|discriminate]).
destruct S as [s S]; revert H; unfold construct; destruct check_robust; [|discriminate]; intro H; injection H as <-.
destruct o as [es ls ro gw va ma]; simpl in *; subst ro gw.
destruct c; unfold ols_regimes, gm_lag_regimes, tsls_regimes, base_tsls_cov; simpl in *; rewrite ?O;
  destruct (String.eqb s "hac") eqn:E, es, va, ma; try destruct ls; simpl; rewrite ?T, ?O; simpl; intuition discriminate.
Qed.

(** C98: a White request never runs with the kernel in split regressions, and always does with a kernel given otherwise *)
Theorem C98_white c o r : o_robust o = Some "white" -> construct c o = Ok r ->
  r_cov r = (if negb (r_multi r) && truthy_gwk (o_gwk o) then CHac else CWhite).
Proof.
intros R; unfold construct; destruct check_robust; [|discriminate]; intro H; injection H as <-.
destruct o as [es ls ro gw va ma]; simpl in *; subst ro.
destruct c, es, ls, va, ma, gw; reflexivity.
Qed.

(* partial; missing: OLS_Regimes (refuted below) and other spellings (refuted below) *)
(** C98: an optimal GMM request: TSLS_Regimes and GM_Lag_Regimes answer it, split or not, whatever gwk is *)
Theorem C98_ogmm_partial c o r : o_robust o = Some "ogmm" -> c <> OLS_Regimes -> construct c o = Ok r -> r_cov r = COgmm.
Proof.
intros R N; unfold construct; destruct check_robust; [|discriminate]; intro H; injection H as <-.
destruct o as [es ls ro gw va ma]; simpl in *; subst ro.
destruct c; [contradiction| |]; destruct es, ls, va, ma; reflexivity.
Qed.

(** C98: OLS_Regimes accepts the request and never answers it: White's covariance matrix, or the kernel's, under the label 'ogmm' *)
Theorem C98_ogmm_refuted o : o_robust o = Some "ogmm" -> exists r, construct OLS_Regimes o = Ok r /\
  r_cov r = (if negb (r_multi r) && truthy_gwk (o_gwk o) then CHac else CWhite).
Proof.
intros R; unfold construct, check_robust; rewrite R; simpl; eexists; split; [reflexivity|].
destruct o as [es ls ro gw va ma]; simpl in *; subst ro.
destruct es, va, ma, gw; reflexivity.
Qed.

(** C98: any other spelling of 'ogmm' is accepted by all three classes and never answered by the optimal GMM covariance *)
Theorem C98_ogmm_spelling_refuted c o s : o_robust o = Some s -> lower s = "ogmm" -> s <> "ogmm" ->
  exists r, construct c o = Ok r /\ (r_cov r = CHac \/ r_cov r = CWhite).
Proof.
intros R L N; destruct (String.eqb s "") eqn:E0; [apply String.eqb_eq in E0; subst; discriminate|].
assert (NH : String.eqb s "hac" = false) by (destruct (String.eqb s "hac") eqn:E; [apply String.eqb_eq in E; subst; discriminate|reflexivity]).
assert (NO : String.eqb s "ogmm" = false) by (apply String.eqb_neq; exact N).
unfold construct, check_robust; rewrite R, E0, L; simpl; eexists; split; [reflexivity|].
destruct o as [es ls ro gw va ma]; simpl in *; subst ro.
destruct c; unfold ols_regimes, gm_lag_regimes, tsls_regimes, base_tsls_cov; simpl; rewrite NH, ?NO; simpl;
  destruct es, va, ma; try destruct ls; simpl; rewrite ?NH, ?NO; simpl; rewrite ?NH, ?NO, ?E0; simpl; destruct gw; simpl; auto.
Qed.

(** C98: the option '' of OLS_Regimes is robust, that of TSLS_Regimes is not *)
Theorem C98_empty c o r : o_robust o = Some "" -> o_gwk o = GNone -> construct c o = Ok r ->
  r_cov r = match c with OLS_Regimes => CWhite | _ => CClassic end.
Proof.
intros R G; unfold construct; destruct check_robust; [|discriminate]; intro H; injection H as <-.
destruct o as [es ls ro gw va ma]; simpl in *; subst ro gw.
destruct c, es, ls, va, ma; reflexivity.
Qed.

(** C98: groupwise heteroskedasticity (the second, weighted regression) is for OLS_Regimes without a robust option *)
Theorem C98_weighted c o r : construct c o = Ok r ->
  (r_weighted r = true <-> c = OLS_Regimes /\ o_err_sep o = true /\ o_robust o = None /\ (o_vary o && o_many o = false)).
Proof.
unfold construct; destruct check_robust; [|discriminate]; intro H; injection H as <-.
destruct o as [es ls ro gw va ma]; destruct c, ro as [s|]; unfold ols_regimes, gm_lag_regimes, tsls_regimes; simpl;
  try destruct (String.eqb s "hac"); destruct es, va, ma; try destruct ls; simpl; intuition (congruence || discriminate).
Qed.

(** a kernel which check_robust accepts: one observation, weight 1 *)
Definition kern1 : kern := {| k_diag := [1%Q]; k_weights := [[1%Q]] |}.

(** C98: robust='hac' with all the options asking for separate regressions *)
Example C98_witness : forall c, exists r, construct c (ROpts true true (Some "hac") (GKernel kern1) true true) = Ok r /\ r_cov r = CHac /\ r_warn r = true.
Proof. intros []; eexists; repeat split; reflexivity. Qed.

(** C98: 'HAC' is accepted with its kernel, and White's covariance matrix is reported under the label 'HAC' *)
Theorem C98_case_refuted : forall c, exists o r, hac_request o = true /\ construct c o = Ok r /\ r_multi r = true /\ r_cov r = CWhite.
Proof.
intros c; exists (ROpts true true (Some "HAC") (GKernel kern1) true true).
destruct c; eexists; repeat split; reflexivity.
Qed.

(** C98: in the same class the same White request with the same kernel gives the kernel's covariance matrix unless the regressions are split *)
Theorem C98_white_refuted : forall c, exists o1 o2 r1 r2, o_robust o1 = Some "white" /\ o_robust o2 = Some "white" /\ o_gwk o1 = o_gwk o2 /\
  construct c o1 = Ok r1 /\ construct c o2 = Ok r2 /\ r_cov r1 = CWhite /\ r_cov r2 = CHac.
Proof.
intros c; exists (ROpts true true (Some "white") (GKernel kern1) true true), (ROpts false false (Some "white") (GKernel kern1) true true).
destruct c; do 2 eexists; repeat split; reflexivity.
Qed.

(** C98: "OGMM" is such a spelling *)
Example C98_ogmm_witness : lower "OGMM" = "ogmm" /\ exists r, construct TSLS_Regimes (ROpts false false (Some "OGMM") GNone true true) = Ok r /\ r_cov r = CWhite.
Proof. split; [reflexivity | eexists; split; reflexivity]. Qed.
