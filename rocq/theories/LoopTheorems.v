(** C28 and C47: iterative estimators. *)
From mathcomp Require Import all_ssreflect all_algebra.
From Coq Require Import String.
From Verif Require Import LinRegModel LinRegProofs LinRegProofs2 FilterModel LoopModel.
Set Implicit Arguments.
Unset Strict Implicit.
Unset Printing Implicit Defensive.
Import Order.TTheory GRing.Theory Num.Theory.
Local Open Scope ring_scope.

(** Specification: the sequence of lambdas obtained by applying the step again and again (None once it fails or is NaN). *)
Section Spec.
Variables (R : realFieldType) (B : Type) (step : R -> option (B * option R)).
Fixpoint lam_at (l0 : R) (i : nat) : option R :=
  if i is j.+1 then
    match lam_at l0 j with
    | Some l => match step l with Some (_, Some l') => Some l' | _ => None end
    | None => None
    end
  else Some l0.
(** pass i (from 0) moved lambda by more than epsilon *)
Definition moved (l0 epsilon : R) (i : nat) : Prop :=
  exists l l', [/\ lam_at l0 i = Some l, lam_at l0 i.+1 = Some l' & epsilon < `|l' - l|].

Lemma lam_at_S l0 l b j : step l0 = Some (b, Some l) -> lam_at l0 j.+1 = lam_at l j.
Proof. by move=> E; elim: j => [|j IH] /=; [rewrite E | rewrite -IH]. Qed.

Lemma moved_S l0 l b e j : step l0 = Some (b, Some l) -> moved l e j -> moved l0 e j.+1.
Proof. by move=> E [a [a' [H1 H2 H3]]]; exists a, a'; split=> //; rewrite (lam_at_S _ E). Qed.

Lemma gm_while_spec m e l0 s0 s : gm_while step m e l0 s0 = Some s ->
  ((m == 0)%N || ~~ above (g_eps s0) e) /\ s = s0 \/
  [/\ (0 < m)%N, above (g_eps s0) e &
    exists j l b l3, [/\ (j < m)%N, g_it s = (g_it s0 + j.+1)%N, lam_at l0 j = Some l,
      step l = Some (b, l3) & [/\ g_last s = Some (l, b, l3), (forall i, (i < j)%N -> moved l0 e i) &
      (j.+1 < m)%N -> if l3 is Some v then `|v - l| <= e else true]]].
Proof.
elim: m l0 s0 => [|m IH] l0 s0 /=; first by move=> [<-]; left.
case A: above => /=; last by move=> [<-]; left.
case E: (step l0) => [[b [l3|]]|] //.
- move=> /IH []; cbn [g_it g_eps g_last].
  + case=> C ->; right; split=> //; exists 0%N, l0, b, (Some l3); split=> //=; first by rewrite addn1.
    split=> //; rewrite ltnS => m0; move: C; rewrite -leqn0 leqNgt m0 /=; by rewrite -leNgt.
  + case=> m0 A' [j [l [b' [l3' [H1 H2 H3 H4 [H5 H6 H7]]]]]]; right; split=> //.
    exists j.+1, l, b', l3'; split=> //; [by rewrite H2 addSnnS|by rewrite (lam_at_S _ E)|split=> //].
    case=> [|i] ij; last exact: (moved_S E (H6 i ij)).
    by exists l0, l3; split=> //=; rewrite E.
- move=> [<-]; right; split=> //; exists 0%N, l0, b, None; split=> //=; by rewrite addn1.
Qed.
End Spec.

(** The loop runs between 1 and max_iter passes, reports that number, leaves behind the regression and the lambda of its last pass,
    goes on only while a pass moved lambda by more than epsilon, and stops before max_iter only if the last pass did not (or was NaN). *)
Theorem C47_gm_loop : forall (R : realFieldType) B (step : R -> option (B * option R)) max_iter epsilon l0 s,
  (0 < max_iter)%N -> epsilon < 1 -> gm_loop step max_iter epsilon l0 = Some s ->
  exists l b l3, [/\ (0 < g_it s <= max_iter)%N, lam_at step l0 (g_it s).-1 = Some l, step l = Some (b, l3), g_last s = Some (l, b, l3) &
    (forall i, (i.+1 < g_it s)%N -> moved step l0 epsilon i) /\
    ((g_it s < max_iter)%N -> if l3 is Some v then `|v - l| <= epsilon else true)].
Proof.
move=> R B step m e l0 s m0 e1 /gm_while_spec [] /=.
  by case; rewrite e1 /= orbF => /eqP E; rewrite E in m0.
case=> _ _ [j [l [b [l3 [H1 H2 H3 H4 [H5 H6 H7]]]]]]; exists l, b, l3; move: H2; rewrite add0n => E; rewrite E /=.
by split.
Qed.

(** conversely the first pass whose move is small enough is the last one *)
Theorem C47_gm_stops_at_first_small_move : forall (R : realFieldType) B (step : R -> option (B * option R)) max_iter epsilon l0 s i l l',
  (0 < max_iter)%N -> epsilon < 1 -> gm_loop step max_iter epsilon l0 = Some s ->
  lam_at step l0 i = Some l -> lam_at step l0 i.+1 = Some l' -> `|l' - l| <= epsilon -> (g_it s <= i.+1)%N.
Proof.
move=> R B step m e l0 s i l l' m0 e1 H Hi Hi' small.
have [a [b [l3 [_ _ _ _ [M _]]]]] := C47_gm_loop m0 e1 H.
rewrite leqNgt; apply/negP => /M [a1 [a2 [E1 E2]]].
by move: E1 E2; rewrite Hi Hi' => -[<-] [<-]; rewrite ltNge small.
Qed.

(** no pass at all: the attributes that the rest of the constructor reads do not exist *)
Theorem C47_gm_no_pass : forall (R : realFieldType) B (step : R -> option (B * option R)) max_iter epsilon l0,
  (max_iter == 0)%N || (1 <= epsilon) -> gm_loop step max_iter epsilon l0 = Some (GmState 0 (Some 1) None).
Proof.
move=> R B step [|m] e l0 //=; rewrite /gm_loop /= => e1; by rewrite ltNge e1.
Qed.

Local Open Scope string_scope.
(** the message *)
Theorem C47_message : forall (R : realFieldType) B (step : R -> option (B * option R)) max_iter epsilon l0 s,
  (0 < max_iter)%N -> epsilon < 1 -> gm_loop step max_iter epsilon l0 = Some s ->
  (iter_msg (g_it s) max_iter = "Maximum number of iterations reached." /\ g_it s = max_iter) \/
  (iter_msg (g_it s) max_iter = "Convergence threshold (epsilon) reached." /\ (g_it s < max_iter)%N /\
   exists l b l3, [/\ g_last s = Some (l, b, l3) & if l3 is Some v then `|v - l| <= epsilon else true]).
Proof.
move=> R B step m e l0 s m0 e1 H; have [l [b [l3 [/andP [_ le] _ _ L [_ C]]]]] := C47_gm_loop m0 e1 H.
rewrite /iter_msg; case: (g_it s =P m) => [E|/eqP N]; first by left.
have lt : (g_it s < m)%N by rewrite ltn_neqAle N le.
right; split=> //; split=> //; exists l, b, l3; split=> //; by case: (l3) (C lt).
Qed.

(** a NaN lambda is reported as convergence *)
Theorem C47_nan_converges_refuted : exists (step : rat -> option (unit * option rat)) s,
  gm_loop step 5 (1%:R / 10%:R) 0 = Some s /\ g_last s = Some (0, tt, None) /\
  iter_msg (g_it s) 5 = "Convergence threshold (epsilon) reached.".
Proof. by exists (fun _ => Some (tt, None)); eexists. Qed.
(** with max_iter = 1 (the default) the message is always the first one, converged or not *)
Theorem C47_default_always_maximum : forall (R : realFieldType) B (step : R -> option (B * option R)) epsilon l0 s,
  epsilon < 1 -> gm_loop step 1 epsilon l0 = Some s -> iter_msg (g_it s) 1 = "Maximum number of iterations reached.".
Proof.
move=> R B step e l0 s e1 H; case: (C47_message (isT : (0 < 1)%N) e1 H) => [[] //|[_ []]].
have [l [b [l3 [/andP [p _] _ _ _ _]]]] := C47_gm_loop (isT : (0 < 1)%N) e1 H.
by rewrite ltnS leqn0 => /eqP E; rewrite E in p.
Qed.
Local Close Scope string_scope.

(** Newton's method of BaseProbit *)
Section Newton.
Variables (R : realFieldType) (S : Type) (step : S -> S * option R).
Fixpoint newton_at (p : S) (i : nat) : S := if i is j.+1 then (step (newton_at p j)).1 else p.
Lemma newton_at_S p i : newton_at p i.+1 = newton_at (step p).1 i.
Proof. by elim: i => [|i IH] //; rewrite {2}/newton_at -/newton_at -IH. Qed.
Lemma newton_while_spec l thr it p m it' p' m' : newton_while step l thr it p m = (it', p', m') ->
  exists j, [/\ it' = (it + j)%N, (j <= l)%N, p' = newton_at p j, (0 < j)%N -> m' = (step (newton_at p j.-1)).2 &
     [/\ (j = 0)%N -> m' = m, (j < l)%N -> ~~ not_below m' thr, (0 < j)%N -> not_below m thr &
      forall i, (i.+1 < j)%N -> not_below (step (newton_at p i)).2 thr]].
Proof.
elim: l it p m => [|l IH] it p m /=; first by case=> <- <- <-; exists 0%N; rewrite addn0.
case A: not_below => /=; last by case=> <- <- <-; exists 0%N; rewrite addn0 A.
case E: (step p) => [q k] /IH [j [H1 H2 H3 H4 [H5 H6 H7 H8]]]; exists j.+1; split.
- by rewrite H1 addSnnS.
- by [].
- by rewrite newton_at_S E.
- by case: j H4 H5 {H1 H2 H3 H6 H7 H8} => [|j] H4 H5 _; [rewrite H5 //= E | rewrite H4 // [j.+2.-1]/= newton_at_S E].
- split=> //; case=> [|i] ij; first by rewrite /= E; apply: H7.
  by rewrite newton_at_S E; apply: H8.
Qed.
End Newton.

(** at most maxiter steps, parameters = that many steps from the start, no warning exactly when fewer than maxiter steps were made,
    and then the criterion g'Hg of the last step is below the threshold (or NaN) *)
Theorem C47_newton : forall (R : realFieldType) S (step : S -> S * option R) start maxiter thr it p m warn,
  thr <= 1 -> (0 < maxiter)%N -> newton step start maxiter thr = (it, p, m, warn) ->
  [/\ (0 < it <= maxiter)%N, p = newton_at step start it, m = (step (newton_at step start it.-1)).2, warn = (it == maxiter) &
    (~~ warn -> if m is Some v then v < thr else true) /\
    (forall i, (i.+1 < it)%N -> if (step (newton_at step start i)).2 is Some v then thr <= v else false)].
Proof.
move=> R S step st mx thr it p m w t1 m0; rewrite /newton; case E: newton_while => [[it1 p1] m1] [<- <- <- <-].
have [j [H1 H2 H3 H4 [H5 H6 H7 H8]]] := newton_while_spec E; move: H1; rewrite add0n => H1; subst it1.
have j0 : (0 < j)%N.
  rewrite lt0n; apply/negP => /eqP Z; subst j; have := H6 m0; rewrite H5 //= t1 //.
split=> //; [by rewrite j0 H2|exact: H4|split].
- move=> N; have lt : (j < mx)%N by rewrite ltn_neqAle N H2.
  by move: (H6 lt); rewrite /not_below; case: (m1) => // v; rewrite -ltNge.
- by move=> i /H8; rewrite /not_below; case: (_.2).
Qed.
(** "Maximum number of iterations reached" is also reported when the last permitted step converged *)
Theorem C47_newton_warn_refuted : exists (step : unit -> unit * option rat) it p v,
  newton step tt 1 (1%:R / 2%:R) = (it, p, Some v, true) /\ v < 1%:R / 2%:R.
Proof. by exists (fun _ => (tt, Some 0)), 1%N, tt, 0; vm_compute. Qed.

(** iterated SUR *)
Section Sur.
Variables (R : realFieldType) (S : Type) (step : S -> S * R).
Fixpoint sur_at (s : S) (i : nat) : S := if i is j.+1 then (step (sur_at s j)).1 else s.
(** det after i steps; [d1] is the value before the first *)
Definition det_at (s : S) (d1 : R) (i : nat) : R := if i is j.+1 then (step (sur_at s j)).2 else d1.
Lemma sur_at_S s i : sur_at s i.+1 = sur_at (step s).1 i.
Proof. by elim: i => [|i IH] //; rewrite {2}/sur_at -/sur_at -IH. Qed.
Lemma sur_while_spec l mx e d0 d1 s it it' s' a b : sur_while step l mx e d0 d1 s it = (it', s', a, b) ->
  (it <= mx.+1)%N -> (mx.+1 < it + l)%N ->
  exists j, [/\ it' = (it + j)%N, (it' <= mx.+1)%N, s' = sur_at s j, b = det_at s d1 j &
    [/\ a = (if j is i.+1 then det_at s d1 i else d0), (it' <= mx)%N -> `|b - a| <= e,
     (0 < j)%N -> e < `|d1 - d0| & forall i, (i.+1 < j)%N -> e < `|det_at s d1 i.+1 - det_at s d1 i|]].
Proof.
elim: l d0 d1 s it => [|l IH] d0 d1 s it /=; first by rewrite addn0 => _ H; rewrite ltnNge H.
case A: ((e < `|d1 - d0|) && (it <= mx)%N).
- case/andP: A => A1 A2; case E: (step s) => [s1 d] /IH H _ B.
  have [|j [H1 H2 H3 H4 [H5 H6 H7 H8]]] := H A2; first by rewrite addSnnS.
  have Q k : det_at s1 d k = det_at s d1 k.+1.
    case: k => [|k]; first by rewrite /= E.
    by rewrite [LHS]/= [RHS]/= -/(sur_at s k.+1) sur_at_S E.
  exists j.+1; split=> //; [by rewrite H1 addSnnS|by rewrite sur_at_S E|by rewrite H4 Q|].
  split=> //; first by rewrite H5; case: (j) => [|i] //; rewrite Q.
  case=> [|i] ij; first by rewrite /= E; apply: H7.
  by have := H8 i ij; rewrite !Q.
- case=> <- <- <- <- le _; exists 0%N; rewrite addn0; split=> //; split=> // le2; move: A; rewrite le2 andbT => /negbT; by rewrite -leNgt.
Qed.
End Sur.

(** number of passes at most maxiter + 1, estimates = that many steps, stopping before only on the criterion *)
(* partial; missing: the limit maxiter itself is exceeded by one pass (C47_sur_limit_refuted) *)
Theorem C47_sur_partial : forall (R : realFieldType) S (step : S -> S * R) s d0 d1 maxiter epsilon it s' a b,
  sur_iter step s d0 d1 maxiter epsilon = (it, s', a, b) ->
  [/\ (it <= maxiter.+1)%N, s' = sur_at step s it, b = det_at step s d1 it, (it <= maxiter)%N -> `|b - a| <= epsilon &
   (forall i, (i.+1 < it)%N -> epsilon < `|det_at step s d1 i.+1 - det_at step s d1 i|) /\ a = (if it is i.+1 then det_at step s d1 i else d0)].
Proof.
move=> R S step s d0 d1 mx e it s' a b H.
have [||j] := sur_while_spec H; [by []|by rewrite add0n|].
case=> [H1 H2 H3 H4 [H5 H6 H7 H8]]; move: H1; rewrite add0n => H1; subst it; by split.
Qed.
(** and maxiter + 1 passes are really made: one more than asked for *)
Theorem C47_sur_limit_refuted : forall maxiter, exists (step : rat -> rat * rat) s',
  sur_iter step 0 0 1 maxiter (1%:R / 2%:R) = (maxiter.+1, s', maxiter.+1%:R, maxiter.+2%:R).
Proof.
move=> mx; exists (fun x => (x + 1, x + 1 + 1)), (mx.+1)%:R; set st := fun _ => _.
case E: sur_iter => [[[it s'] a] b]; have [H1 H2 H3 H4 [_ H6]] := C47_sur_partial E.
have A i : sur_at st 0 i = i%:R :> rat by elim: i => //= i ->; rewrite -addn1 natrD.
have D i : det_at st 0 1 i = i.+1%:R :> rat by case: i => [|i] //=; rewrite A -[in RHS]addn1 -[in RHS]addn1 !natrD.
have P : b - a = 1 by rewrite H3 H6 D; case: (it) => [|i]; rewrite ?subr0 // D -[in X in X - _]addn1 natrD addrC addKr.
have it1 : it = mx.+1.
  apply/eqP; rewrite eqn_leq H1 ltnNge; apply/negP => /H4; by rewrite P normr1.
by subst it; rewrite H2 H3 H6 !D A.
Qed.

(** random effects: i passes at most itermax, fewer only if phi moved by at most the criterion *)
Section Re.
Variables (R : realFieldType) (S : Type) (step : S -> R -> S * R).
Fixpoint re_at (s : S) (phi : R) (i : nat) : S * R := if i is j.+1 then step (re_at s phi j).1 (re_at s phi j).2 else (s, phi).
Lemma re_at_S s phi i : re_at s phi i.+1 = re_at (step s phi).1 (step s phi).2 i.
Proof. by elim: i => [|i IH]; [rewrite /=; case: step | rewrite {2}/re_at -/re_at -IH]. Qed.
Lemma re_while_spec l cr cv s phi i i' s' phi' cv' : re_while step l cr cv s phi i = (i', s', phi', cv') ->
  exists j, [/\ i' = (i + j)%N, (j <= l)%N, (s', phi') = re_at s phi j,
     cv' = (if j is k.+1 then `|(re_at s phi k).2 - phi'| else cv) &
     [/\ (j < l)%N -> cv' <= cr, (0 < j)%N -> cr < cv & forall k, (k.+1 < j)%N -> cr < `|(re_at s phi k).2 - (re_at s phi k.+1).2|]].
Proof.
elim: l cv s phi i => [|l IH] cv s phi i /=; first by case=> <- <- <- <-; exists 0%N; rewrite addn0.
case: ltP => C; last by case=> <- <- <- <-; exists 0%N; rewrite addn0.
case E: (step s phi) => [s1 p1] /IH [j [H1 H2 H3 H4 [H5 H6 H7]]]; exists j.+1; split=> //.
- by rewrite H1 addSnnS.
- by rewrite re_at_S E.
- rewrite H4; case: j H3 {H1 H2 H4 H5 H6 H7} => [|j] H3; first by case: H3 => _ ->.
  by rewrite re_at_S E.
- split=> //; case=> [|k] kj; first by rewrite [(re_at s phi 0).2]/= E; apply: H6.
  have Q m : re_at s1 p1 m = re_at s phi m.+1 by rewrite re_at_S E.
  by have := H7 k kj; rewrite !Q.
Qed.
End Re.
Theorem C47_random_effects : forall (R : realFieldType) S (step : S -> R -> S * R) s phi0 criteria itermax i s' phi cv,
  criteria < 1 -> (0 < itermax)%N -> re_iter step s phi0 criteria itermax = (i, s', phi, cv) ->
  [/\ (0 < i <= itermax)%N, (s', phi) = re_at step s phi0 i, cv = `|(re_at step s phi0 i.-1).2 - phi|,
     (i < itermax)%N -> cv <= criteria &
     forall k, (k.+1 < i)%N -> criteria < `|(re_at step s phi0 k).2 - (re_at step s phi0 k.+1).2|].
Proof.
move=> R S step s phi0 cr mx i s' phi cv c1 m0 H; have [j [H1 H2 H3 H4 [H5 H6 H7]]] := re_while_spec H.
move: H1; rewrite add0n => H1; subst i.
have j0 : (0 < j)%N.
  rewrite lt0n; apply/negP => /eqP Z; subst j; move: (H5 m0); rewrite H4; by rewrite leNgt c1.
by split=> //; [rewrite j0 H2|rewrite H4; case: (j) j0].
Qed.

(** C28.  Reported coefficients. *)
Section Het.
Variables (R : realFieldType) (n : nat) (W : 'M[R]_n).

Lemma loop_last B (step : R -> option (B * option R)) m e l0 s : gm_loop step m e l0 = Some s ->
  g_last s = None \/ exists l b l3, step l = Some (b, l3) /\ g_last s = Some (l, b, l3).
Proof.
move=> /gm_while_spec [] /=; first by case=> _ ->; left.
by case=> _ _ [j [l [b [l3 [_ _ _ H4 [H5 _ _]]]]]]; right; exists l, b, l3.
Qed.
Lemma loop_bound B (step : R -> option (B * option R)) m e l0 s : gm_loop step m e l0 = Some s -> (g_it s <= m)%N.
Proof.
move=> /gm_while_spec [] /=; first by case=> _ ->.
by case=> _ _ [j [l [b [l3 [H1 H2 _ _ _]]]]]; rewrite H2.
Qed.

(** The vector minimising the sum of squares of the filtered residuals *)
Definition ls_minimiser k (y : 'cV[R]_n) (x : 'M[R]_(n, k)) (b : 'cV[R]_k) : Prop :=
  forall b', utu_of (y - x *m b) <= utu_of (y - x *m b').
(** The vector making the residuals orthogonal to the projection of z on the instruments *)
Definition iv_solution p h (y : 'cV[R]_n) (z : 'M[R]_(n, p)) (hm : 'M[R]_(n, h)) (b : 'cV[R]_p) : Prop :=
  (hm *m invmx (hm^T *m hm) *m hm^T *m z)^T *m (y - z *m b) = 0.

(** GM_Error_Het: the coefficients are the least squares coefficients of the data filtered with the lambda of the previous pass,
    residuals and predictions are those of the unfiltered model and add up to y, and with hard_bound an estimate outside
    (-0.99, 0.99) is never returned. *)
Theorem C28_error_het : forall k first gmm (y : 'cV[R]_n) (x : 'M[R]_(n, k)) max_iter epsilon hard_bound f,
  base_gm_error_het W first gmm y x max_iter epsilon hard_bound = Good f ->
  let: l := hf_used f in
  [/\ ls_minimiser (y - l *: (W *m y)) (x - l *: (W *m x)) (hf_betas f),
     hf_u f + hf_predy f = y, hf_predy f = x *m hf_betas f, (hf_iter f <= max_iter)%N &
     hf_lambda f = gmm (hf_u f) l /\
     (if hf_lambda f is Some v then (hard_bound -> `|v| < b99 R) /\ hf_warn_error f = (b99 R <= `|v|) else True)].
Proof.
move=> k first gmm y x mx e hb f; rewrite /base_gm_error_het; case: base_ols => // o.
case E: gm_loop => [s|] //; have LB := loop_bound E; have := loop_last E; case: (g_last s) => [[[l b] l3]|] //.
case=> // -[l' [b' [l3' [St [? ? ?]]]]]; subst l' b' l3'; move: St; rewrite /het_error_step.
case O: base_ols => [os|] // [<- <-]; set l3v := gmm _ _.
case: ifP => // HB [<-] /=; split=> //.
- by move=> b1; rewrite (ols_min b1 O); have [_ _ P U _] := ols_fields O; rewrite -P -U ler_addl; apply: utu_ge0.
- by rewrite subrK.
- split=> //; move: HB; rewrite /out99; case: l3v => // v; case: hb => //= /negbT; rewrite -ltNge => ->; split=> //.
Qed.

Lemma b90_lt : b90 R < b99 R.
Proof. by rewrite /b90 /b99 ltr_pdivr_mulr ?ltr0n // mulrAC ltr_pdivl_mulr ?ltr0n // -!natrM ltr_nat. Qed.
Lemma b90_gt0 : 0 < b90 R.
Proof. by rewrite /b90 divr_gt0 ?ltr0n. Qed.

Lemma clamp_le p (b : 'cV[R]_p.+1) : `|clamp b ord_max 0| <= b90 R.
Proof.
rewrite /clamp; case: ifP => // _; rewrite mxE eqxx; case: ifP => _; by rewrite ?normrN gtr0_norm // b90_gt0.
Qed.

(** GM_Endog_Error_Het: when the last 2SLS coefficient is within [-0.9, 0.9] the reported coefficients are the 2SLS coefficients *)
(* partial; missing: the last coefficient is overwritten outside [-0.9, 0.9] (C28_clamp_refuted); vm is not modelled *)
Theorem C28_endog_het_partial : forall p h first gmm (y : 'cV[R]_n) (z : 'M[R]_(n, p.+1)) (hm : 'M[R]_(n, h)) max_iter epsilon hard_bound f,
  base_gm_endog_error_het W first gmm y z hm max_iter epsilon hard_bound = Good f ->
  let: l := hf_used f in
  exists b2, [/\ iv_solution (y - l *: (W *m y)) (z - l *: (W *m z)) hm b2,
     (forall i, i != ord_max -> hf_betas f i 0 = b2 i 0),
     `|b2 ord_max 0| <= 9%:R / 10%:R -> hf_betas f = b2,
     9%:R / 10%:R < b2 ord_max 0 -> hf_betas f ord_max 0 = 9%:R / 10%:R &
     [/\ b2 ord_max 0 < - (9%:R / 10%:R) -> hf_betas f ord_max 0 = - (9%:R / 10%:R),
      hf_u f + hf_predy f = y, hf_predy f = z *m hf_betas f, (hf_iter f <= max_iter)%N & hf_lambda f = gmm (hf_u f) l]].
Proof.
move=> p h first gmm y z hm mx e hb f; rewrite /base_gm_endog_error_het; case: base_tsls => // t.
case E: gm_loop => [s|] //; have LB := loop_bound E; have := loop_last E; case: (g_last s) => [[[l b] l3]|] //.
case=> // -[l' [b' [l3' [St [? ? ?]]]]]; subst l' b' l3'; move: St; rewrite /endog_het_step.
case T: base_tsls => [ts|] // [<- <-]; set l3v := gmm _ _.
case: ifP => // _; case: ifP => // _ [<-] /=.
exists (t_betas ts); have := tsls_moment T; have [_ _ _ _ [Ep Eu]] := tsls_fields T; rewrite Eu Ep => M.
have N9 : forall a : R, b90 R < a -> (a < - b90 R) = false.
  by move=> a A; apply/negbTE; rewrite -leNgt; apply: (le_trans _ (ltW A)); rewrite -subr_ge0 opprK addr_ge0 // ltW // b90_gt0.
split=> //.
- by move=> i ni; rewrite /clamp; case: ifP => // _; rewrite mxE (negbTE ni).
- by rewrite /clamp -/(b90 R) => ->.
- rewrite /clamp -/(b90 R) => lt; case: ifP => [le|_]; last by rewrite mxE eqxx N9.
  by move: (le_lt_trans (le_trans (ler_norm _) le) lt); rewrite ltxx.
- split=> //; last by rewrite subrK.
  rewrite -/(b90 R) => lt; rewrite /clamp; case: ifP => [le|_]; last by rewrite mxE eqxx lt.
  move: le; rewrite ler_norml => /andP [le _]; by move: (lt_le_trans lt le); rewrite ltxx.
Qed.

(** its "Spatial lag parameter was outside the bounds" exception and warning can never be issued, whatever 2SLS estimates *)
Theorem C28_endog_het_lag_bound_unreachable : forall p h first gmm (y : 'cV[R]_n) (z : 'M[R]_(n, p.+1)) (hm : 'M[R]_(n, h)) max_iter epsilon hard_bound,
  base_gm_endog_error_het W first gmm y z hm max_iter epsilon hard_bound <> Bad ELagBound /\
  (forall f, base_gm_endog_error_het W first gmm y z hm max_iter epsilon hard_bound = Good f -> hf_warn_lag f = false).
Proof.
move=> p h first gmm y z hm mx e hb; rewrite /base_gm_endog_error_het; case: base_tsls => // t.
case E: gm_loop => [s|] //; have := loop_last E; case: (g_last s) => [[[l b] l3]|] //.
case=> // -[l' [b' [l3' [St [? ? ?]]]]]; subst l' b' l3'; move: St; rewrite /endog_het_step.
case T: base_tsls => [ts|] // [<- <-]; set l3v := gmm _ _.
have -> : (b99 R <= `|clamp (t_betas ts) ord_max 0|) = false.
  by apply/negbTE; rewrite -ltNge; apply: (le_lt_trans (clamp_le _)); apply: b90_lt.
by rewrite andbF; case: ifP => _; split=> // f [<-].
Qed.
(** the error bound is detected in the endogenous case too *)
Theorem C28_endog_het_error_bound : forall p h first gmm (y : 'cV[R]_n) (z : 'M[R]_(n, p.+1)) (hm : 'M[R]_(n, h)) max_iter epsilon hard_bound f v,
  base_gm_endog_error_het W first gmm y z hm max_iter epsilon hard_bound = Good f -> hf_lambda f = Some v ->
  (hard_bound -> `|v| < 99%:R / 100%:R) /\ hf_warn_error f = (99%:R / 100%:R <= `|v|).
Proof.
move=> p h first gmm y z hm mx e hb f v; rewrite /base_gm_endog_error_het; case: base_tsls => // t.
case E: gm_loop => [s|] //; case: (g_last s) => [[[l b] l3]|] //.
case: ifP => // HB; case: ifP => // _ [<-] /= Ev; move: HB; rewrite Ev /= => HB; split=> // hb'; move: HB; rewrite hb' /= => /negbT.
by rewrite -ltNge.
Qed.

(** GM_Endog_Error_Hom: always the 2SLS coefficients of the filtered model *)
Theorem C28_endog_hom : forall p h first gmm (y : 'cV[R]_n) (z : 'M[R]_(n, p.+1)) (hm : 'M[R]_(n, h)) max_iter epsilon f,
  base_gm_endog_error_hom W first gmm y z hm max_iter epsilon = Good f ->
  let: l := hf_used f in
  [/\ iv_solution (y - l *: (W *m y)) (z - l *: (W *m z)) hm (hf_betas f), hf_u f + hf_predy f = y,
      hf_predy f = z *m hf_betas f, (hf_iter f <= max_iter)%N & gmm (hf_u f) l = Some (hf_lambda f)].
Proof.
move=> p h first gmm y z hm mx e f; rewrite /base_gm_endog_error_hom; case: base_tsls => // t; case: first => // l0.
case E: gm_loop => [s|] //; have LB := loop_bound E; have := loop_last E; case: (g_last s) => [[[l b] l3]|] //.
case=> // -[l' [b' [l3' [St [? ? ?]]]]]; subst l' b' l3'; move: St; rewrite /endog_hom_step.
case T: base_tsls => [ts|] //; case G: gmm => [l3v|] // [<- <-] [<-] /=.
have := tsls_moment T; have [_ _ _ _ [Ep Eu]] := tsls_fields T; rewrite Eu Ep => M.
by split=> //; rewrite subrK.
Qed.

(** max_iter = 0, or a threshold of one or more: the constructors crash on an unbound name *)
Theorem C28_no_pass_crashes : forall p h first gmm (y : 'cV[R]_n) (z : 'M[R]_(n, p.+1)) (hm : 'M[R]_(n, h)) max_iter epsilon hard_bound t,
  base_tsls y z hm RobNone None true = Some t -> (max_iter == 0)%N || (1 <= epsilon) ->
  base_gm_endog_error_het W first gmm y z hm max_iter epsilon hard_bound = Bad EUnbound.
Proof.
by move=> p h first gmm y z hm mx e hb t T Z; rewrite /base_gm_endog_error_het T C47_gm_no_pass.
Qed.
End Het.

(** Refuted: the clamp applies to whatever variable comes last, not to a spatial lag: one ordinary endogenous variable with
    2SLS coefficient 2 and no spatial correlation at all is reported with coefficient 0.9 and residual 1.1. *)
Theorem C28_clamp_refuted : forall R : realFieldType, exists (y z hm : 'M[R]_1) f t,
  [/\ base_tsls y z hm RobNone None true = Some t, t_betas t 0 0 = 2%:R,
      base_gm_endog_error_het 0 (fun _ => 0) (fun _ _ => Some 0) y z hm 1 (1%:R / 100%:R) true = Good f,
      hf_betas f 0 0 = 9%:R / 10%:R & hf_u f 0 0 = 11%:R / 10%:R].
Proof.
move=> R.
have I1 : la_inv (1%:M : 'M[R]_1) = Some 1%:M by rewrite la_inv_unit ?unitmx1 // invmx1.
have T (y : 'M[R]_1) : exists2 t, base_tsls y 1%:M (1%:M : 'M[R]_1) RobNone None true = Some t & t_betas t = y.
  by rewrite /base_tsls !trmx1 !mul1mx I1 !mul1mx trmx1 I1; eexists; first by []; rewrite /= !mul1mx.
have F (m : 'M[R]_1) : sp_filter (0 : 'M[R]_1) 0 m = m by rewrite /sp_filter scale0r subr0.
exists (2%:R)%:M, 1%:M, 1%:M; have [t Ht Eb] := T (2%:R)%:M.
have O : ord_max = 0 :> 'I_1 by apply/val_inj.
have L2 : b90 R < 2%:R by rewrite /b90 ltr_pdivr_mulr ?ltr0n // -natrM ltr_nat.
have p2 : (0 : R) <= 2%:R by rewrite ler0n.
have C : clamp (2%:R%:M : 'M[R]_1) = (9%:R / 10%:R)%:M.
  rewrite /clamp O mxE eqxx mulr1n ger0_norm // leNgt L2 /=.
  rewrite [2%:R < _]ltNge (le_trans _ (ler0n _ _)) ?oppr_le0 ?(ltW (b90_gt0 R)) //=.
  by apply/matrixP => i j; rewrite !ord1 !mxE !eqxx.
eexists; exists t; rewrite /base_gm_endog_error_het Ht /gm_loop /= ltr_pdivr_mulr ?ltr0n // mul1r ltr1n /=.
rewrite /endog_het_step !F Ht Eb C /= normr0.
have -> : (b99 R <= 0) = false by apply/negbTE; rewrite -ltNge /b99 divr_gt0 ?ltr0n.
have -> : (b99 R <= `|((9%:R / 10%:R)%:M : 'M[R]_1) ord_max 0|) = false.
  apply/negbTE; rewrite -ltNge O mxE eqxx mulr1n gtr0_norm; last exact: (b90_gt0 R).
  exact: (b90_lt R).
split=> //=.
- by rewrite mxE eqxx.
- by rewrite mxE eqxx.
- rewrite mul1mx !mxE eqxx !mulr1n; have U : (10%:R : R) != 0 by rewrite pnatr_eq0.
  by apply: (mulIf U); rewrite mulrBl !divfK // -natrM -natrB.
Qed.
