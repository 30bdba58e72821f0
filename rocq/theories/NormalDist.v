(** A distribution function with density proportional to exp (- t^2 / 2) exists, and its Mills ratio inequality. *)
From Coq Require Import Reals Lra Psatz.
From Coquelicot Require Import Coquelicot.
Local Open Scope R_scope.

Record normal0 (Phi phi : R -> R) : Prop := Normal0 {
  n_cdf : forall t, derivable_pt_lim Phi t (phi t);
  n_pdf : forall t, derivable_pt_lim phi t (- t * phi t);
  n_pos : forall t, 0 < phi t;
  n_cdf_pos : forall t, 0 < Phi t;
  n_sym : forall t, Phi (- t) = 1 - Phi t;
  n_even : forall t, phi (- t) = phi t;
  n_tail : forall e, 0 < e -> exists s, forall t, t < s -> Phi t < e }.

Lemma incr_of_deriv f f' a b : a <= b -> (forall c, a <= c <= b -> derivable_pt_lim f c (f' c)) ->
  (forall c, a <= c <= b -> 0 <= f' c) -> f a <= f b.
Proof.
intros ab D P. destruct (Req_dec a b) as [->|N]; [lra|].
assert (L : a < b) by lra. destruct (MVT_cor2 f f' a b L D) as [c [E C]].
assert (0 <= f' c) by (apply P; lra). nra.
Qed.
Lemma sincr_of_deriv f f' a b : a < b -> (forall c, a <= c <= b -> derivable_pt_lim f c (f' c)) ->
  (forall c, a <= c <= b -> 0 < f' c) -> f a < f b.
Proof.
intros L D P. destruct (MVT_cor2 f f' a b L D) as [c [E C]].
assert (0 < f' c) by (apply P; lra). nra.
Qed.

Lemma mills Phi phi : normal0 Phi phi -> forall t, 0 < phi t + t * Phi t.
Proof.
intros N t. destruct (Rle_or_lt 0 t) as [P|P].
{ pose proof (n_pos _ _ N t). pose proof (n_cdf_pos _ _ N t). nra. }
pose (h := fun s => (- phi s / s - Phi s)).
pose (h' := fun s => (phi s / (s * s))).
assert (D : forall s, s < 0 -> derivable_pt_lim h s (h' s)).
{ intros s s0. unfold h.
  replace (h' s) with ((- (- s * phi s) * id s - 1 * (- phi s)) / (Rsqr (id s)) - phi s)
    by (unfold h', id, Rsqr; field; lra).
  apply (derivable_pt_lim_minus (fun s => - phi s / s) Phi); [|apply (n_cdf _ _ N)].
  apply (derivable_pt_lim_div (fun s => - phi s) id).
  - apply (derivable_pt_lim_opp phi), (n_pdf _ _ N).
  - apply derivable_pt_lim_id.
  - unfold id; lra. }
assert (H' : forall s, s < 0 -> 0 < h' s).
{ intros s s0. unfold h'. apply Rdiv_lt_0_compat; [apply (n_pos _ _ N)|nra]. }
assert (I : forall a b, a < b -> b < 0 -> h a < h b).
{ intros a b ab b0. apply sincr_of_deriv with (f' := h'); auto; intros c [? ?]; [apply D|apply H']; lra. }
assert (Z : forall s, s < 0 -> 0 <= h s).
{ intros s s0. destruct (Rle_or_lt 0 (h s)) as [Q|Q]; auto. exfalso.
  destruct (n_tail _ _ N (- h s)) as [r Hr]; [lra|].
  pose (m := Rmin s r - 1).
  assert (ms : m < s) by (unfold m; pose proof (Rmin_l s r); lra).
  assert (mr : m < r) by (unfold m; pose proof (Rmin_r s r); lra).
  pose proof (I m s ms s0). pose proof (Hr m mr).
  assert (h m > - Phi m).
  { unfold h. assert (0 < - phi m / m); [|lra].
    replace (- phi m / m) with (phi m / - m) by (field; lra).
    apply Rdiv_lt_0_compat; [apply (n_pos _ _ N)|lra]. }
  lra. }
assert (0 < h t). { apply Rle_lt_trans with (h (t - 1)); [apply Z; lra|apply I; lra]. }
assert (phi t + t * Phi t = - t * h t) by (unfold h; field; lra).
nra.
Qed.

Definition gauss (t : R) : R := exp (- (t * t) / 2).
Definition G (t : R) : R := RInt gauss 0 t.
Lemma gauss_deriv t : derivable_pt_lim gauss t (- t * gauss t).
Proof.
unfold gauss. apply is_derive_Reals. auto_derive; [trivial|]. replace (- (t * t) * / 2) with (- (t * t) / 2) by field. field.
Qed.
Lemma gauss_pos t : 0 < gauss t.
Proof. apply exp_pos. Qed.
Lemma gauss_even t : gauss (- t) = gauss t.
Proof. unfold gauss; f_equal; field. Qed.
Lemma G_deriv t : derivable_pt_lim G t (gauss t).
Proof.
apply is_derive_Reals. unfold G. apply is_derive_RInt with (a := 0).
- exists (mkposreal 1 Rlt_0_1). intros u _. apply (RInt_correct (V := R_CompleteNormedModule)).
  apply (ex_RInt_continuous (V := R_CompleteNormedModule)). intros z _.
  apply continuity_pt_filterlim, derivable_continuous_pt. exists (- z * gauss z). apply gauss_deriv.
- apply continuity_pt_filterlim, derivable_continuous_pt. exists (- t * gauss t). apply gauss_deriv.
Qed.
Lemma G0 : G 0 = 0.
Proof. unfold G. exact (RInt_point (V := R_CompleteNormedModule) 0 gauss). Qed.
Lemma G_incr a b : a < b -> G a < G b.
Proof. intros H; apply sincr_of_deriv with (f' := gauss); auto; intros; [apply G_deriv|apply gauss_pos]. Qed.
Lemma gauss_le t : gauss t <= 2 * / (1 + t ^ 2).
Proof.
unfold gauss. replace (- (t * t) / 2) with (- (t * t / 2)) by field. rewrite exp_Ropp.
assert (E : 1 + t * t / 2 <= exp (t * t / 2)).
{ destruct (Req_dec (t * t / 2) 0) as [Z|Z]; [rewrite Z, exp_0; lra|]. left; apply exp_ineq1. nra. }
assert (0 < (1 + t ^ 2) / 2) by nra.
replace (2 * / (1 + t ^ 2)) with (/ ((1 + t ^ 2) / 2)) by (field; nra).
apply Rinv_le_contravar; nra.
Qed.
Lemma G_bound t : G t <= PI.
Proof.
destruct (Rle_or_lt t 0) as [N|P].
{ pose proof PI_RGT_0. destruct (Req_dec t 0) as [->|]; [rewrite G0; lra|]. assert (G t < G 0) by (apply G_incr; lra). rewrite G0 in *; lra. }
assert (H : 2 * atan 0 - G 0 <= 2 * atan t - G t).
{ apply incr_of_deriv with (f := fun t => 2 * atan t - G t) (f' := fun t => 2 * / (1 + t ^ 2) - gauss t).
  - lra.
  - intros c _. apply (derivable_pt_lim_minus (fun t => 2 * atan t) G); [|apply G_deriv].
    apply (derivable_pt_lim_scal atan 2). exact (derivable_pt_lim_atan c).
  - intros c _. pose proof (gauss_le c). lra. }
rewrite atan_0, G0 in H. pose proof (atan_bound t). lra.
Qed.
Lemma G_odd t : G (- t) = - G t.
Proof.
assert (H : forall a b, a <= b -> G a + G (- a) = G b + G (- b)).
{ intros a b ab. assert (D : forall c, derivable_pt_lim (fun t => G t + G (- t)) c 0).
  { intros c. replace 0 with (gauss c + gauss (- c) * (- (1))) by (rewrite gauss_even; ring).
    apply (derivable_pt_lim_plus G (fun t => G (- t))); [apply G_deriv|].
    apply (derivable_pt_lim_comp (fun t => - t) G); [|apply G_deriv].
    apply (derivable_pt_lim_opp id), derivable_pt_lim_id. }
  apply Rle_antisym.
  - apply incr_of_deriv with (f := fun t => G t + G (- t)) (f' := fun _ => 0); auto; intros; lra.
  - assert (X : - (G a + G (- a)) <= - (G b + G (- b))); [|lra].
    apply incr_of_deriv with (f := fun t => - (G t + G (- t))) (f' := fun _ => - 0); auto; intros; [|lra].
    apply (derivable_pt_lim_opp (fun t => G t + G (- t))). apply D. }
destruct (Rle_or_lt 0 t) as [P|P].
- pose proof (H 0 t P) as E. rewrite Ropp_0, G0 in E. lra.
- pose proof (H t 0 (Rlt_le _ _ P)) as E. rewrite Ropp_0, G0 in E. lra.
Qed.

Theorem normal_exists : exists Phi phi, normal0 Phi phi.
Proof.
destruct (completeness (fun v => exists t, v = G t)) as [Z [UB LUB]].
{ exists PI. intros v [t ->]. apply G_bound. }
{ exists (G 0). exists 0; auto. }
assert (Zt : forall t, G t < Z).
{ intros t. apply Rlt_le_trans with (G (t + 1)); [apply G_incr; lra|apply UB; eexists; eauto]. }
assert (Z0 : 0 < Z) by (rewrite <- G0; apply Zt).
exists (fun t => 1 / 2 + / (2 * Z) * G t), (fun t => / (2 * Z) * gauss t).
assert (IZ : 0 < / (2 * Z)) by (apply Rinv_0_lt_compat; lra).
split.
- intros t. replace (/ (2 * Z) * gauss t) with (0 + / (2 * Z) * gauss t) by ring.
  apply (derivable_pt_lim_plus (fun _ => 1 / 2) (fun t => / (2 * Z) * G t)).
  + apply derivable_pt_lim_const.
  + apply (derivable_pt_lim_scal G), G_deriv.
- intros t. replace (- t * (/ (2 * Z) * gauss t)) with (/ (2 * Z) * (- t * gauss t)) by ring.
  apply (derivable_pt_lim_scal gauss), gauss_deriv.
- intros t. apply Rmult_lt_0_compat; [auto|apply gauss_pos].
- intros t. pose proof (Zt (- t)) as H. rewrite G_odd in H.
  assert (/ (2 * Z) * (2 * Z) = 1) by (field; lra). nra.
- intros t. rewrite G_odd. ring_simplify. lra.
- intros t. rewrite gauss_even. auto.
- intros e e0.
  assert (exists t0, Z - 2 * Z * e < G t0) as [t0 H0].
  { destruct (Classical_Pred_Type.not_all_not_ex _ (fun t0 => Z - 2 * Z * e < G t0)) as [t0 H]; [|exists t0; auto].
    intros A. assert (Z <= Z - 2 * Z * e); [|nra]. apply LUB. intros v [t ->]. apply Rnot_lt_le, A. }
  exists (- t0). intros t tt. assert (H : G t0 < G (- t)) by (apply G_incr; lra). rewrite G_odd in H.
  assert (/ (2 * Z) * (2 * Z) = 1) by (field; lra). nra.
Qed.
