(** C82: the reported likelihood and the iterations. *)
From Coq Require Import Reals Ring Field.
From mathcomp Require Import all_ssreflect all_algebra.
From mathcomp.fingroup Require Import perm.
From Verif Require Import Rinst Mring LinRegModel LinRegProofs LinRegProofs2 FilterModel MLModel MLSpec MLProofs MLTheorems Kron PanelModel PanelTheorems PanelTheorems2
  PfeModel PfeSpec PfeTheorems PfeTheorems2 PreModel PreSpec PreTheorems.
Set Implicit Arguments.
Unset Strict Implicit.
Unset Printing Implicit Defensive.
Import Order.TTheory GRing.Theory Num.Theory.
Local Open Scope ring_scope.

Section Like.
Variables (T n k : nat) (y : 'cV[R]_(T * n)) (x : 'M[R]_(T * n, k)) (W : 'M[R]_n).
Variables (minphi : (R -> option R) -> R) (minrho : (R -> option R) -> R * R) (lu : R -> 'M[R]_n).
Hypothesis T0 : (0 < T)%N.
Hypothesis n0 : (0 < n)%N.
Hypothesis Hlu : forall rho, is_lu (1%:M - rho *: W) (lu rho).
Variable P : R -> Prop.
Hypothesis PD : forall rho', P rho' -> \det (1%:M - rho' *: W) != 0.
Hypothesis Hne : forall b' rho', P rho' -> re_lag_resid y x W b' rho' != 0.
Let N0 : (0 < T * n)%N. Proof. by rewrite muln_gt0 T0 n0. Qed.

Theorem C82_loglik : forall eps mx r ax, base_re_lag true minphi minrho lu y x W eps mx = Some r -> 0 < rl_phi r ->
  lag_aux_of (demean_panel (rl_phi r) y) (demean_panel (rl_phi r) x) (w_nt T W) = Some ax ->
  minimises P (re_obj lu ax) (minrho (re_obj lu ax)) ->
  exists smu2, [/\ 0 < rl_sig2 r, rl_sig2 r / (rl_sig2 r + T%:R * smu2) = rl_phi r ^+ 2,
    rl_logll r = re_lag_loglik y x W (rl_b r) (rl_rho r) (rl_sig2 r) smu2 &
    forall b' rho' s2' smu2', P rho' -> 0 < s2' -> s2' / (s2' + T%:R * smu2') = rl_phi r ^+ 2 ->
      re_lag_loglik y x W b' rho' s2' smu2' <= rl_logll r].
Proof.
move=> eps mx r ax /base_final [s [Ok Em] Hf]; have [Eb Er Ep Eu [_ Es El]] := final_fields Hf; rewrite Ep => p0.
rewrite (proj1 Ok) => -[<-]; rewrite Em => Hm.
have [s0 LE Hmax] := state_max T0 n0 Hlu Ok p0 Hm PD Hne.
rewrite -[ssq _]/(utu_of _) -Eu -Es in s0 LE Hmax; exists (re_smu2 T (rl_sig2 r) (rs_phi s)); split=> //.
- exact: smu2_ratio.
- by rewrite El Eb Er LE.
- move=> b' rho' s2' smu2' Pr s0' H; rewrite (re_param T0 s0' p0 H) El -LE; exact: Hmax.
Qed.

(** the likelihood of the values of an iteration, with the variance that maximises it *)
Definition iter_s2 (phi rho : R) (b : 'cV[R]_k) : R :=
  let e := re_lag_resid y x W b rho in (e^T *m invmx (re_sigma T n 1 ((phi ^- 2 - 1) / T%:R)) *m e) 0 0 / (T * n)%:R.
Definition iter_loglik (phi rho : R) (b : 'cV[R]_k) : R :=
  re_lag_loglik y x W b rho (iter_s2 phi rho b) (re_smu2 T (iter_s2 phi rho b) phi).
Lemma iter_s2E phi rho b : 0 < phi -> iter_s2 phi rho b = ssq (demean_panel phi (re_lag_resid y x W b rho)) / (T * n)%:R.
Proof. by move=> p0; rewrite /iter_s2 gls_quad. Qed.
Lemma resid_pos phi rho b : 0 < phi -> P rho -> 0 < ssq (demean_panel phi (re_lag_resid y x W b rho)).
Proof.
move=> p0 Pr; rewrite lt_def utu_ge0 andbT; apply/negP; rewrite ssqE utu_eq0 => /eqP Z.
have := Hne b Pr; case/eqP.
have := congr1 (demean_panel phi^-1) Z; rewrite demean_comp // mulVf ?gt_eqF // C41_full_weight => ->.
by rewrite demeanE mulmx0 scaler0 subr0.
Qed.
Lemma phi_obj_value phi rho b : 0 < phi -> P rho -> exists2 f, re_phi_obj y x W rho b phi = Some f &
  iter_loglik phi rho b = - f + ((T * n)%:R / 2%:R * ln (T * n)%:R + ln (`|\det (1%:M - rho *: W)| ^+ T) - (T * n)%:R / 2%:R * ln (2%:R * PI) - (T * n)%:R / 2%:R).
Proof.
move=> p0 Pr; have S0 := resid_pos b p0 Pr; have D0 := PD Pr.
have t0 : 0 < (T * n)%:R :> R by rewrite ltr0n.
rewrite /re_phi_obj.
have -> : demean_panel phi y - rho *: (w_nt T W *m demean_panel phi y) - demean_panel phi x *m b = demean_panel phi (re_lag_resid y x W b rho).
  by rewrite demean_resid w_ntB mulmxBl mul1mx -scalemxAl.
rewrite -utuE -ssqE /np_log S0 exprn_gt0 //; eexists; first by [].
rewrite /iter_loglik /re_smu2 re_lagE ?iter_s2E // ?divr_gt0 // gl_eq //; last by rewrite mulr_gt0 ?exprn_gt0 ?normr_gt0.
rewrite ln_split // [ln (_ ^+ T * _)]lnM ?exprn_gt0 ?normr_gt0 // [ln (phi ^+ n)]ln_pow // [ln (phi ^+ 2)]ln_pow //.
have -> : n%:R * T%:R = (T * n)%:R :> R by rewrite natrM mulrC.
have t2 : 2%:R != 0 :> R by rewrite pnatr_eq0.
move: (ln (_ * PI)) (ln phi) (ln (ssq _)) (ln _%:R) (ln (_ ^+ T)) => a c d f g; mfield R_realFieldType; exact/eqP.
Qed.
(** Q: the values of phi searched *)
Variable Q : R -> Prop.
Hypothesis Q0 : forall p, Q p -> 0 < p.
Lemma state_loglik s : re_ok y x W s -> 0 < rs_phi s ->
  let s2 := ssq (la_e0 (rs_ax s) - rs_rho s *: la_e1 (rs_ax s)) / (T * n)%:R in
  re_lag_loglik y x W (rs_b s) (rs_rho s) s2 (re_smu2 T s2 (rs_phi s)) = iter_loglik (rs_phi s) (rs_rho s) (rs_b s).
Proof.
move=> Ok p0 s2; have [Hu _] := ok_fit (rs_rho s) Ok; rewrite -(proj2 Ok) in Hu.
by rewrite /iter_loglik iter_s2E // -Hu.
Qed.
(** one iteration, from any rho and b, does not lower the likelihood *)
Lemma step_le phi rho b s : re_lag_step minphi minrho lu y x W rho b = Some s -> Q phi -> P rho ->
  (exists v, minimises Q (re_phi_obj y x W rho b) (rs_phi s, v)) -> minimises P (re_obj lu (rs_ax s)) (rs_rho s, rs_fun s) ->
  iter_loglik phi rho b <= iter_loglik (rs_phi s) rho b <= iter_loglik (rs_phi s) (rs_rho s) (rs_b s).
Proof.
move=> Hs Qp Pr [v [Qs Ev Hv]] Hm; have Ok := step_ok Hs; have p0 := Q0 Qp; have p1 := Q0 Qs.
have [f1 E1 ->] := phi_obj_value b p0 Pr; have [f2 E2 H2] := phi_obj_value b p1 Pr; apply/andP; split.
  rewrite H2 ler_add2r ler_opp2; move: Ev; rewrite /= E2 => -[->]; exact: Hv E1.
have [_ _ Hmax] := state_max T0 n0 Hlu Ok p1 Hm PD Hne; rewrite -state_loglik //; apply: Hmax => //.
by rewrite iter_s2E // divr_gt0 ?ltr0n // resid_pos.
Qed.
Lemma loop_consec cr fuel cv phi rho b l : re_lag_loop minphi minrho lu y x W cr fuel cv phi rho b = Some l ->
  (forall s l', l = s :: l' -> re_lag_step minphi minrho lu y x W rho b = Some s) /\
  (forall l1 s s' l2, l = l1 ++ s :: s' :: l2 -> re_lag_step minphi minrho lu y x W (rs_rho s) (rs_b s) = Some s').
Proof.
elim: fuel cv phi rho b l => [|f IH] cv phi rho b l /=.
  by case: ifP => _ [<-]; split=> [//|[|? ?]].
case: ifP => _; last by case=> <-; split=> [//|[|? ?]].
case E: re_lag_step => [s|//]; case El: re_lag_loop => [l'|//] [<-]; have [H1 H2] := IH _ _ _ _ _ El; split.
  by move=> s1 l1 [<- _].
case=> [|s1 l1] s2 s3 l2 /= [] => [<- Hl|_ Hl]; [exact: H1 Hl|exact: H2 Hl].
Qed.
(** C82: no iteration lowers the likelihood, if the two minimisers found the minima of their objectives *)
Theorem C82_monotone : forall l l1 s s' l2, re_lag_iter minphi minrho lu y x W = Some l -> l = l1 ++ s :: s' :: l2 ->
  Q (rs_phi s) -> P (rs_rho s) ->
  (exists v, minimises Q (re_phi_obj y x W (rs_rho s) (rs_b s)) (minphi (re_phi_obj y x W (rs_rho s) (rs_b s)), v)) ->
  minimises P (re_obj lu (rs_ax s')) (minrho (re_obj lu (rs_ax s'))) ->
  iter_loglik (rs_phi s) (rs_rho s) (rs_b s) <= iter_loglik (rs_phi s') (rs_rho s') (rs_b s').
Proof.
move=> l l1 s s' l2; rewrite /re_lag_iter; case: la_inv => [xi|//] Hl El Qs Ps.
have [_ H] := loop_consec Hl; have Hs := H _ _ _ _ El; have [<- ->] := step_min Hs => Hv Hm.
by have /andP [A1 A2] := step_le Hs Qs Ps Hv Hm; exact: le_trans A1 A2.
Qed.
(** C82: when the last two values of phi are equal the estimates maximise the likelihood over (b, rho, s2) at that phi and over (s2, phi) at
    that b and rho. *)
Theorem C82_fixed_point : forall l s s', re_lag_iter minphi minrho lu y x W = Some (l ++ [:: s; s']) -> rs_phi s' = rs_phi s ->
  (exists v, minimises Q (re_phi_obj y x W (rs_rho s) (rs_b s)) (minphi (re_phi_obj y x W (rs_rho s) (rs_b s)), v)) ->
  minimises P (re_obj lu (rs_ax s')) (minrho (re_obj lu (rs_ax s'))) ->
  let L := iter_loglik (rs_phi s') (rs_rho s') (rs_b s') in
  (forall b' rho' (s2' smu2' : R), P rho' -> 0 < s2' -> s2' / (s2' + T%:R * smu2') = rs_phi s' ^+ 2 -> re_lag_loglik y x W b' rho' s2' smu2' <= L) /\
  (forall phi' (s2' smu2' : R), Q phi' -> 0 < s2' -> s2' / (s2' + T%:R * smu2') = phi' ^+ 2 -> re_lag_loglik y x W (rs_b s') (rs_rho s') s2' smu2' <= L).
Proof.
move=> l s s'; cbv zeta; rewrite /re_lag_iter; case Ex: la_inv => [xi|//] Hl Ep Hv Hm.
have [_ H] := loop_consec Hl; have Hs := H _ _ _ _ (erefl _).
have Ok' : re_ok y x W s' := step_ok Hs.
have Hin : List.In s (l ++ [:: s; s']) by elim: (l) => [|a l' IH] /=; [left|right].
have Ok : re_ok y x W s := loop_ok Hl Hin.
have M : minrho (re_obj lu (rs_ax s)) = (rs_rho s, rs_fun s) := loop_min Hl Hin.
have [Ephi M'] := step_min Hs; rewrite -Ephi in Hv; rewrite M' in Hm.
have Eax : rs_ax s' = rs_ax s by have := proj1 Ok'; rewrite Ep (proj1 Ok) => -[].
have [Er Ef] : rs_rho s' = rs_rho s /\ rs_fun s' = rs_fun s by move: M'; rewrite Eax M => -[-> ->].
have Eb : rs_b s' = rs_b s by rewrite (proj2 Ok') (proj2 Ok) Eax Er.
have [v [Qs Ev Hmin]] := Hv; have p1 := Q0 Qs; have Pr : P (rs_rho s') by case: Hm.
set L := iter_loglik _ _ _; split.
  move=> b' rho' s2' smu2' Pr' s0' Hr; rewrite (re_param T0 s0' p1 Hr) /L.
  have [_ _ Hmax] := state_max T0 n0 Hlu Ok' p1 Hm PD Hne; rewrite -state_loglik //; exact: Hmax.
move=> phi' s2' smu2' Qp s0' Hr; rewrite (re_param T0 s0' (Q0 Qp) Hr).
have D0 := PD Pr; have p0 := Q0 Qp; have S0 := resid_pos (rs_b s') p0 Pr.
apply: (@le_trans _ _ (iter_loglik phi' (rs_rho s') (rs_b s'))).
  rewrite /iter_loglik /re_smu2 iter_s2E // !re_lagE ?divr_gt0 ?ltr0n //; exact: gl_le.
have [f1 E1 ->] := phi_obj_value (rs_b s') p0 Pr; have [f2 E2 H2] := phi_obj_value (rs_b s') p1 Pr.
rewrite /L H2 ler_add2r ler_opp2; rewrite -Er -Eb in Ev Hmin; move: Ev; rewrite /= E2 => -[->]; exact: Hmin E1.
Qed.
End Like.

(** the sequence of the values of phi: the starting value 0.1, then one per iteration *)
Definition phis T n k (l : seq (re_state T n k)) (i : nat) : R := nth 0 (1 / 10%:R :: map (@rs_phi _ _ _) l) i.
(** C82: between one and 100 iterations; it goes on exactly while the last change of phi exceeded 1e-7 *)
Theorem C82_iterations : forall T n k (y : 'cV[R]_(T * n)) (x : 'M[R]_(T * n, k)) (W : 'M[R]_n) minphi minrho lu l,
  re_lag_iter minphi minrho lu y x W = Some l ->
  [/\ (0 < size l)%N, (size l <= 100)%N,
      forall i, (i.+1 < size l)%N -> 1 / 10%:R ^+ 7 < `|phis l i - phis l i.+1| &
      (size l < 100)%N -> `|phis l (size l).-1 - phis l (size l)| <= 1 / 10%:R ^+ 7].
Proof.
move=> T n k y x W minphi minrho lu l; rewrite /re_lag_iter; case: la_inv => [xi|//].
have C1 : (1 / 10%:R ^+ 7 < 1 :> R) by rewrite ltr_pdivr_mulr ?exprn_gt0 ?ltr0n // mul1r -natrX ltr1n.
have G fuel cv phi rho b l0 : re_lag_loop minphi minrho lu y x W (1 / 10%:R ^+ 7) fuel cv phi rho b = Some l0 ->
  let ph i := nth 0 (phi :: map (@rs_phi _ _ _) l0) i in
  [/\ (size l0 <= fuel)%N, (0 < fuel)%N -> (1 / 10%:R ^+ 7 < cv) = (0 < size l0)%N,
      forall i, (i.+1 < size l0)%N -> 1 / 10%:R ^+ 7 < `|ph i - ph i.+1| &
      (0 < size l0)%N -> (size l0 < fuel)%N -> `|ph (size l0).-1 - ph (size l0)| <= 1 / 10%:R ^+ 7].
  elim: fuel cv phi rho b l0 => [|f IH] cv phi rho b l0 /=.
    by case: ifP => _ [<-].
  case: ifP => Hc; last by case=> <-; split.
  case E: re_lag_step => [s|//]; case El: re_lag_loop => [l'|//] [<-] /=.
  have [H1 H2 H3 H4] := IH _ _ _ _ _ El; split=> //.
  - case=> [|i] /=; rewrite ltnS => Hi; last exact: H3.
    by rewrite H2 //; exact: leq_trans Hi H1.
  - move=> _; rewrite ltnS => Hf; case: l' El H1 H2 H3 H4 Hf => [|s' l'] El H1 H2 H3 H4 Hf /=.
      by rewrite leNgt H2.
    exact: H4.
move/G => -[H1 H2 H3 H4]; have P0 : (0 < size l)%N by rewrite -H2 // C1.
by split=> // ; exact: H4.
Qed.
(** the deprecated class leaves N/2 log phi^2 out of the log-likelihood: for phi < 1 the value reported is too large *)
Theorem C82_old_loglik_refuted : forall T n k (y : 'cV[R]_(T * n)) (x : 'M[R]_(T * n, k)) (W : 'M[R]_n) minphi minrho lu eps mx r,
  (0 < n)%N -> base_re_lag false minphi minrho lu y x W eps mx = Some r -> 0 < rl_phi r < 1 ->
  exists2 r', base_re_lag true minphi minrho lu y x W eps mx = Some r' &
   [/\ rl_b r' = rl_b r, rl_rho r' = rl_rho r, rl_phi r' = rl_phi r, rl_sig2 r' = rl_sig2 r & rl_logll r' < rl_logll r].
Proof.
move=> T n k y x W minphi minrho lu eps mx r n0; rewrite /base_re_lag; case: re_lag_iter => [[//|s l]|//]; move: (last s l) => {l}s.
rewrite /re_lag_final; case: power_expansion => [p|//]; case: la_inv => [ai|//]; case: la_inv => [v|//]; case: la_inv => [w|//] [<-] /= /andP [p0 p1].
eexists; first by []; split=> //=; rewrite !ltr_add2r ltr_add2l ln_pow // pmulr_rlt0 ?divr_gt0 ?ltr0n // pmulr_rlt0 ?ltr0n //.
by rewrite -ln1; apply: ln_lt_mono.
Qed.
