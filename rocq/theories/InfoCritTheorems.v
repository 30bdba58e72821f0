(** Property theorems C34. *)
From Coq Require Import Reals Lra ZArith Lia.
From Verif Require Import InfoCritModel.
Open Scope R_scope.

Lemma aic_core n utu : (0 < n)%nat -> 0 < utu ->
  INR n * (ln ((2 * PI * utu) / INR n) + 1) = - 2 * log_likelihood n utu.
Proof.
  intros Hn Hu. assert (Hn' : 0 < INR n) by (apply lt_0_INR; exact Hn).
  unfold log_likelihood.
  replace (2 * PI * utu / INR n) with ((2 * PI) * (utu / INR n)) by (field; lra).
  assert (Hp : 0 < 2 * PI) by (pose proof PI_RGT_0; lra).
  rewrite ln_mult; [|exact Hp|apply Rdiv_lt_0_compat; lra].
  replace (utu / (utu / INR n)) with (INR n) by (field; lra). lra.
Qed.

(** the criteria computed from the residual sum of squares are the textbook ones for the Gaussian likelihood *)
Theorem C34_akaike : forall n k utu, (0 < n)%nat -> 0 < utu ->
  akaike n k utu None = 2 * INR k - 2 * log_likelihood n utu /\
  akaike n k utu None = akaike n k utu (Some (log_likelihood n utu)).
Proof. intros n k utu Hn Hu. unfold akaike. rewrite aic_core by assumption. lra. Qed.

Theorem C34_schwarz : forall n k utu, (0 < n)%nat -> 0 < utu ->
  schwarz n k utu None = INR k * ln (INR n) - 2 * log_likelihood n utu /\
  schwarz n k utu None = schwarz n k utu (Some (log_likelihood n utu)).
Proof. intros n k utu Hn Hu. unfold schwarz. rewrite aic_core by assumption. lra. Qed.

(** a smaller residual sum of squares has a larger likelihood, hence a smaller criterion at equal k *)
Theorem C34_likelihood_decreasing : forall n utu utu', (0 < n)%nat -> 0 < utu -> utu < utu' ->
  log_likelihood n utu' < log_likelihood n utu.
Proof.
  intros n utu utu' Hn Hu Hlt. assert (Hn' : 0 < INR n) by (apply lt_0_INR; exact Hn). unfold log_likelihood.
  replace (utu / (utu / INR n)) with (INR n) by (field; lra).
  replace (utu' / (utu' / INR n)) with (INR n) by (field; lra).
  assert (H : ln (utu / INR n) < ln (utu' / INR n)).
  { apply ln_increasing; [apply Rdiv_lt_0_compat; lra|]. unfold Rdiv. apply Rmult_lt_compat_r; [apply Rinv_0_lt_compat; lra|lra]. }
  assert (INR n * ln (utu / INR n) < INR n * ln (utu' / INR n)) by (apply Rmult_lt_compat_l; lra). lra.
Qed.

(** non-negative, at least one degree of freedom, equal to |2 (l1 - l0)| *)
Theorem C34_likratio : forall l0 l1 k0 k1 s df, likratiotest (Some l0) (Some l1) k0 k1 = Some (s, df) ->
  s = Rabs (2 * (l1 - l0)) /\ 0 <= s /\ (1 <= df)%Z /\ ((k0 < k1)%Z -> df = (k1 - k0)%Z).
Proof.
  intros l0 l1 k0 k1 s df H. unfold likratiotest in H. inversion H; clear H.
  assert (Hs : (if Rlt_dec (2 * (l1 - l0)) 0 then - (2 * (l1 - l0)) else 2 * (l1 - l0)) = Rabs (2 * (l1 - l0))).
  { destruct (Rlt_dec (2 * (l1 - l0)) 0); [rewrite Rabs_left by lra; reflexivity|rewrite Rabs_right by lra; reflexivity]. }
  rewrite Hs. split; [reflexivity|]. split; [apply Rabs_pos|].
  destruct (Z.ltb_spec 0 (k1 - k0)); split; try lia; intros; lia.
Qed.

(** the statistic does not depend on the order of the models *)
(* partial; missing: the degrees of freedom do depend on the order (C34_likratio_df_refuted) *)
Theorem C34_likratio_symmetric_partial : forall l0 l1 k0 k1 s df s' df',
  likratiotest (Some l0) (Some l1) k0 k1 = Some (s, df) -> likratiotest (Some l1) (Some l0) k1 k0 = Some (s', df') -> s = s'.
Proof.
  intros l0 l1 k0 k1 s df s' df' H H'. apply C34_likratio in H, H'. destruct H as (-> & _), H' as (-> & _).
  replace (2 * (l0 - l1)) with (- (2 * (l1 - l0))) by lra. symmetry. apply Rabs_Ropp.
Qed.

(** ... but the degrees of freedom do: with the larger model first they are always 1. *)
Theorem C34_likratio_df_refuted : exists l0 l1 k0 k1 s df s' df',
  likratiotest (Some l0) (Some l1) k0 k1 = Some (s, df) /\ likratiotest (Some l1) (Some l0) k1 k0 = Some (s', df') /\
  s = s' /\ df = 3%Z /\ df' = 1%Z.
Proof.
  exists 0, 5, 2%Z, 5%Z.
  destruct (likratiotest (Some 0) (Some 5) 2 5) as [[s df]|] eqn:E; [|discriminate].
  destruct (likratiotest (Some 5) (Some 0) 5 2) as [[s' df']|] eqn:E'; [|discriminate].
  exists s, df, s', df'. split; [reflexivity|]. split; [reflexivity|]. split; [eapply C34_likratio_symmetric_partial; eauto|].
  unfold likratiotest in E, E'. inversion E; inversion E'. split; reflexivity.
Qed.

Example C34_witness : (0 < 3)%nat /\ 0 < 1 /\ likratiotest None (Some 1) 1 2 = None.
Proof. split; [lia|]. split; [lra|reflexivity]. Qed.

Print Assumptions C34_akaike.
Print Assumptions C34_schwarz.
Print Assumptions C34_likelihood_decreasing.
Print Assumptions C34_likratio.
Print Assumptions C34_likratio_symmetric_partial.
Print Assumptions C34_likratio_df_refuted.
