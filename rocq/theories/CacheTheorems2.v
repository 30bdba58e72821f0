(** C32: LMtests; concrete case for C51. *)
From mathcomp Require Import all_ssreflect all_algebra.
From Coq Require Import String.
From Verif Require Import LinRegModel LinRegProofs LMModel CacheModel CacheTheorems.
Set Implicit Arguments.
Unset Strict Implicit.
Unset Printing Implicit Defensive.
Import Order.TTheory GRing.Theory Num.Theory.
Local Open Scope ring_scope.

Section LM.
Variables (R : rcfType) (n k : nat) (o : ols R n k) (W : 'M[R]_n).
Local Notation robj := (robj R n k).
Local Notation st := (st R n k).

(** the regression object holds the fit o and a cache that is not stale (for instance a new one: C51_reads) *)
Definition holds (r : robj) : Prop :=
  [/\ r_x r = o_x o, r_y r = o_y o, r_xtxi r = o_xtxi o & [/\ r_betas r = o_betas o, r_predy r = o_predy o, r_u r = o_u o & r_sig2 r = o_sig2 o]].
Definition okv T (c : option T) (v : T) : Prop := c = None \/ c = Some v.
Definition inv (s : st) : Prop :=
  [/\ fresh s.1, holds s.1, [/\ okv (k_j s.2) (d_j o W), okv (k_wu s.2) (d_wu o W), okv (k_utwuDs s.2) (d_utwuDs o W) & okv (k_utwyDs s.2) (d_utwyDs o W)]
  & [/\ okv (k_t s.2) (d_t W), okv (k_trA s.2) (d_trA o W) & okv (k_AB s.2) (d_AB o W)]].
Lemma holds_same r r' : holds r -> same_fields r r' -> holds r'.
Proof. by case=> a b c [d e f g] [a' b' c' [d' e' f' g']]; split; [| | |split]; congruence. Qed.
Ltac fin := split; rewrite /= //; split; rewrite /= //; (try assumption); by right.
Lemma g_t_ok s : inv s -> exists s', g_t W s = (d_t W, s') /\ inv s'.
Proof.
case: s => r d [/= F H [Hj Hw Ha Hb] [Ht HA HB]]; rewrite /g_t; case: Ht => /= E; rewrite E.
- eexists; split; first by []; fin.
- eexists; split; first by []; fin.
Qed.
Lemma g_wu_ok s : inv s -> exists s', g_wu W s = (d_wu o W, s') /\ inv s'.
Proof.
case: s => r d [F H [Hj Hw Ha Hb] [Ht HA HB]]; have [ex ey ei [eb ep eu es]] := H; rewrite /g_wu; case: Hw => /= E; rewrite E.
- rewrite eu; eexists; split; first by []; fin.
- eexists; split; first by []; fin.
Qed.
Lemma g_sig2n_ok s : inv s -> exists s', g_sig2n s = (sig2n o, s') /\ inv s' /\ s'.2 = s.2.
Proof.
case: s => r d [F H [Hj Hw Ha Hb] [Ht HA HB]]; have [ex ey ei [eb ep eu es]] := H; rewrite /g_sig2n.
have [r' [-> F' S']] := get_s_ok KSig2n F; exists (r', d); split; last by split => //; split => //; exact: holds_same H S'.
by rewrite /= eu.
Qed.
Lemma g_utwuDs_ok s : inv s -> exists s', g_utwuDs W s = (d_utwuDs o W, s') /\ inv s'.
Proof.
move=> I; rewrite /g_utwuDs; have [_ H [_ _ Ha _] _] := I; case: Ha => E; rewrite E; last by exists s.
have [s1 [-> I1]] := g_wu_ok I; have [s2 [-> [I2 _]]] := g_sig2n_ok I1; have [_ _ _ [_ _ eu _]] := H; rewrite eu.
eexists; split; first by []; case: I2 => F2 H2 [Hj Hw Ha Hb] Hr; fin.
Qed.
Lemma g_utwyDs_ok s : inv s -> exists s', g_utwyDs W s = (d_utwyDs o W, s') /\ inv s'.
Proof.
move=> I; rewrite /g_utwyDs; have [_ H [_ _ _ Hb] _] := I; case: Hb => E; rewrite E; last by exists s.
have [s2 [-> [I2 _]]] := g_sig2n_ok I; have [_ ey _ [_ _ eu _]] := H; rewrite eu ey.
eexists; split; first by []; case: I2 => F2 H2 [Hj Hw Ha Hb] Hr; fin.
Qed.
Lemma g_j_ok s : inv s -> exists s', g_j W s = (d_j o W, s') /\ inv s'.
Proof.
move=> I; rewrite /g_j; have [_ H [Hj _ _ _] _] := I; case: Hj => E; rewrite E; last by exists s.
have [s1 [-> I1]] := g_t_ok I; have [s2 [-> [I2 _]]] := g_sig2n_ok I1; have [s3 [-> [I3 _]]] := g_sig2n_ok I2.
have [ex ey ei [_ ep eu _]] := H; rewrite ep ex ei.
eexists; split; first by []; case: I3 => F2 H2 [Hj Hw Ha Hb] Hr; fin.
Qed.
Lemma g_trA_ok s : inv s -> exists s', g_trA W s = (d_trA o W, s') /\ inv s'.
Proof.
move=> I; rewrite /g_trA; have [F H Hq [Ht HA HB]] := I; case: HA => E; rewrite E; last by exists s.
have [ex ey ei [_ ep eu _]] := H; rewrite ex ei.
eexists; split; first by []; fin.
Qed.
Lemma g_AB_ok s : inv s -> exists s', g_AB W s = (d_AB o W, s') /\ inv s'.
Proof.
move=> I; rewrite /g_AB; have [F H Hq [Ht HA HB]] := I; case: HB => E; rewrite E; last by exists s.
have [ex ey ei [_ ep eu _]] := H; rewrite ex ei.
eexists; split; first by []; fin.
Qed.

(** C32: any sequence of accesses to the shared pieces gives their defining expressions. *)
Inductive piece := PJ | PWu | PUtwu | PUtwy | PT | PTrA | PAB.
Inductive pval := PvS (v : R) | PvV (v : 'cV[R]_n) | PvM (v : 'M[R]_k * 'M[R]_k).
Definition read (s : st) (p : piece) : pval * st :=
  match p with
  | PJ => let '(v, s') := g_j W s in (PvS v, s') | PWu => let '(v, s') := g_wu W s in (PvV v, s')
  | PUtwu => let '(v, s') := g_utwuDs W s in (PvS v, s') | PUtwy => let '(v, s') := g_utwyDs W s in (PvS v, s')
  | PT => let '(v, s') := g_t W s in (PvS v, s') | PTrA => let '(v, s') := g_trA W s in (PvS v, s')
  | PAB => let '(v, s') := g_AB W s in (PvM v, s')
  end.
Fixpoint reads (s : st) (ps : list piece) : list pval :=
  match ps with nil => nil | p :: ps' => let '(v, s') := read s p in v :: reads s' ps' end.
Definition piece_value (p : piece) : pval :=
  let s2 := utu_of (o_u o) / n%:R in
  let T := \tr ((W^T + W) *m W) in
  let f := W *m o_predy o in let U := 2%:R^-1 *: (W + W^T) in
  match p with
  | PJ => PvS (((f^T *m f) 0 0 - (((o_x o)^T *m f)^T *m (o_xtxi o *m ((o_x o)^T *m f))) 0 0 + T * s2) / (n%:R * s2))
  | PWu => PvV (W *m o_u o) | PUtwu => PvS (((o_u o)^T *m (W *m o_u o)) 0 0 / s2)
  | PUtwy => PvS (((o_u o)^T *m (W *m o_y o)) 0 0 / s2) | PT => PvS T
  | PTrA => PvS (\tr (o_xtxi o *m ((o_x o)^T *m (W *m o_x o))))
  | PAB => PvM (o_xtxi o *m ((o_x o)^T *m (U *m o_x o)), o_xtxi o *m ((U *m o_x o)^T *m (U *m o_x o)))
  end.
Lemma inv0 r : fresh r -> holds r -> inv (r, spd0 R n k).
Proof.
by move=> C H; split => //=; split; by left.
Qed.
Theorem C32_pieces : forall r ps, fresh r -> holds r ->
  reads (r, spd0 R n k) ps = [seq piece_value p | p <- ps].
Proof.
move=> r ps C H; elim: ps (r, spd0 R n k) (inv0 C H) => [//|p ps IH] s I /=.
have [s' [-> I']] : exists s', read s p = (piece_value p, s') /\ inv s'.
  case: p => /=.
  - by have [s' [-> I']] := g_j_ok I; exists s'.
  - by have [s' [-> I']] := g_wu_ok I; exists s'.
  - by have [s' [-> I']] := g_utwuDs_ok I; exists s'.
  - by have [s' [-> I']] := g_utwyDs_ok I; exists s'.
  - by have [s' [-> I']] := g_t_ok I; exists s'.
  - by have [s' [-> I']] := g_trA_ok I; exists s'.
  - by have [s' [-> I']] := g_AB_ok I; exists s'.
by rewrite IH.
Qed.

Lemma t_lme_ok s : inv s -> exists s', t_lme W s = (lmErr o W, s') /\ inv s'.
Proof. by move=> I; rewrite /t_lme; have [s1 [-> I1]] := g_utwuDs_ok I; have [s2 [-> I2]] := g_t_ok I1; exists s2. Qed.
Lemma t_lml_ok s : inv s -> exists s', t_lml W s = (lmLag o W, s') /\ inv s'.
Proof. by move=> I; rewrite /t_lml; have [s1 [-> I1]] := g_utwyDs_ok I; have [s2 [-> I2]] := g_j_ok I1; exists s2. Qed.
Lemma t_rlme_ok s : inv s -> exists s', t_rlme W s = (rlmErr o W, s') /\ inv s'.
Proof.
move=> I; rewrite /t_rlme; have [s1 [-> I1]] := g_j_ok I; have [s2 [-> I2]] := g_utwuDs_ok I1; have [s3 [-> I3]] := g_t_ok I2.
have [s4 [-> I4]] := g_utwyDs_ok I3; have [s5 [-> I5]] := g_t_ok I4; have [s6 [-> I6]] := g_t_ok I5; by exists s6.
Qed.
Lemma t_rlml_ok s : inv s -> exists s', t_rlml W s = (rlmLag o W, s') /\ inv s'.
Proof.
move=> I; rewrite /t_rlml; have [s1 [-> I1]] := g_utwyDs_ok I; have [s2 [-> I2]] := g_utwuDs_ok I1; have [s3 [-> I3]] := g_j_ok I2.
have [s4 [-> I4]] := g_t_ok I3; by exists s4.
Qed.
Lemma t_sarma_ok s : inv s -> exists s', t_sarma W s = (lmSarma o W, s') /\ inv s'.
Proof.
move=> I; rewrite /t_sarma; have [s1 [-> I1]] := g_utwyDs_ok I; have [s2 [-> I2]] := g_utwuDs_ok I1; have [s3 [-> I3]] := g_j_ok I2.
have [s4 [-> I4]] := g_t_ok I3; have [s5 [-> I5]] := g_utwuDs_ok I4; have [s6 [-> I6]] := g_t_ok I5; by exists s6.
Qed.

Local Open Scope string_scope.
(** Specification: the results whose values enter the formula of a test, and the value of each test for the fit o. *)
Definition uses (t : string) : list string :=
  if t =? "lmslxerr" then [:: "lme"; "lmwx"] else if t =? "rlmwx" then [:: "lmspdurbin"; "lml"]
  else if t =? "rlmdurlag" then [:: "lmspdurbin"; "lmwx"] else [::].
Definition wanted (ts : list string) (nm : string) : bool := List.existsb (fun t => (t =? nm) || List.existsb (String.eqb nm) (uses t)) ts.
Definition test_value (wx sdm : R * nat) (nm : string) : option (R * nat) :=
  if nm =? "lme" then Some (lmErr o W) else if nm =? "lml" then Some (lmLag o W) else if nm =? "rlme" then Some (rlmErr o W)
  else if nm =? "rlml" then Some (rlmLag o W) else if nm =? "sarma" then Some (lmSarma o W)
  else if nm =? "lmwx" then Some wx else if nm =? "lmspdurbin" then Some sdm
  else if nm =? "rlmwx" then Some (sdm.1 - (lmLag o W).1, (k - 1)%N)
  else if nm =? "rlmdurlag" then Some (sdm.1 - wx.1, 1%N)
  else if nm =? "lmslxerr" then Some ((lmErr o W).1 + wx.1, k) else None.

Definition opt (b : bool) (nm : string) (v : R * nat) : attrs R := if b then [:: (nm, v)] else [::].
Lemma getattr_opt b m v a nm : getattr (opt b m v ++ a)%SEQ nm = if b && (m =? nm) then Some v else getattr a nm.
Proof. by case: b => //=; case: eqb. Qed.
Lemma step_ok (b : bool) nm (f : attrs R -> st -> option ((R * nat) * st)) a s v : inv s -> (b -> exists s', f a s = Some (v, s') /\ inv s') ->
  exists s', step b nm f (Some (a, s)) = Some ((opt b nm v ++ a)%SEQ, s') /\ inv s'.
Proof.
case: b => I H; last by exists s.
by have [//|s' [E I']] := H; exists s'; rewrite /step E.
Qed.
Lemma mem_any names ts : any_in names ts = List.existsb (fun t => List.existsb (String.eqb t) names) ts.
Proof. by []. Qed.
Lemma existsb_ext (f g : string -> bool) ts : (forall t, f t = g t) -> List.existsb f ts = List.existsb g ts.
Proof. by move=> H; elim: ts => //= t ts ->; rewrite H. Qed.
Lemma eqb_case (t c : string) : t =? c -> t = c. Proof. exact: (iffLR (String.eqb_eq t c)). Qed.
Lemma want_dep nm names ts : (forall t, ((t =? nm) || List.existsb (String.eqb nm) (uses t)) = List.existsb (String.eqb t) names) ->
  wanted ts nm = any_in names ts.
Proof. by move=> H; apply: existsb_ext. Qed.
Lemma mem_any1 nm ts : mem_s nm ts = any_in [:: nm] ts.
Proof. by rewrite /mem_s mem_any; apply: existsb_ext => t /=; rewrite orbF String.eqb_sym. Qed.
Lemma w_lme ts : wanted ts "lme" = any_in [:: "lme"; "lmslxerr"] ts.
Proof. by apply: want_dep => t; (rewrite /uses; case E1: (t =? "lmslxerr"); [rewrite ?(eqb_case E1)|case E2: (t =? "rlmwx"); [rewrite ?(eqb_case E2)|case E3: (t =? "rlmdurlag"); [rewrite ?(eqb_case E3)|]]]); rewrite //= ?E1 ?E2 ?E3 ?orbF //. Qed.
Lemma w_lml ts : wanted ts "lml" = any_in [:: "lml"; "rlmwx"] ts.
Proof. by apply: want_dep => t; (rewrite /uses; case E1: (t =? "lmslxerr"); [rewrite ?(eqb_case E1)|case E2: (t =? "rlmwx"); [rewrite ?(eqb_case E2)|case E3: (t =? "rlmdurlag"); [rewrite ?(eqb_case E3)|]]]); rewrite //= ?E1 ?E2 ?E3 ?orbF //. Qed.
Lemma w_lmwx ts : wanted ts "lmwx" = any_in [:: "lmwx"; "rlmdurlag"; "lmslxerr"] ts.
Proof. by apply: want_dep => t; (rewrite /uses; case E1: (t =? "lmslxerr"); [rewrite ?(eqb_case E1)|case E2: (t =? "rlmwx"); [rewrite ?(eqb_case E2)|case E3: (t =? "rlmdurlag"); [rewrite ?(eqb_case E3)|]]]); rewrite //= ?E1 ?E2 ?E3 ?orbF //. Qed.
Lemma w_sdm ts : wanted ts "lmspdurbin" = any_in [:: "lmspdurbin"; "rlmdurlag"; "rlmwx"] ts.
Proof. by apply: want_dep => t; (rewrite /uses; case E1: (t =? "lmslxerr"); [rewrite ?(eqb_case E1)|case E2: (t =? "rlmwx"); [rewrite ?(eqb_case E2)|case E3: (t =? "rlmdurlag"); [rewrite ?(eqb_case E3)|]]]); rewrite //= ?E1 ?E2 ?E3 ?orbF //. Qed.
Lemma w_one nm ts : List.In nm [:: "rlme"; "rlml"; "sarma"; "rlmwx"; "rlmdurlag"; "lmslxerr"] -> wanted ts nm = mem_s nm ts.
Proof.
rewrite mem_any1 => H; apply: want_dep => t.
by move: H => /= [<-|[<-|[<-|[<-|[<-|[<-|//]]]]]]; (rewrite /uses; case E1: (t =? "lmslxerr"); [rewrite ?(eqb_case E1)|case E2: (t =? "rlmwx"); [rewrite ?(eqb_case E2)|case E3: (t =? "rlmdurlag"); [rewrite ?(eqb_case E3)|]]]); rewrite //= ?E1 ?E2 ?E3 ?orbF //.
Qed.
Lemma mem_le nm names ts : List.In nm names -> mem_s nm ts -> any_in names ts.
Proof.
move=> Hn; rewrite mem_any1 !mem_any; elim: ts => //= t ts IH /orP [|/IH ->]; last by rewrite orbT.
rewrite orbF => /eqb_case ->; apply/orP; left; apply/List.existsb_exists; exists nm; split => //; exact: String.eqb_refl.
Qed.

(** C32: LMtests returns, and then has exactly the requested tests and those they are computed from, each with its value; it fails only if a
    wanted WX or spatial Durbin statistic is not computable.  ["all"] stands for the ten tests. *)
Theorem C32_tests : forall r l (xx : 'M[R]_(n, l)) (tests ts : list string),
  fresh r -> holds r ->
  (tests = [:: "all"] /\ ts = [:: "lme"; "lml"; "rlme"; "rlml"; "sarma"; "lmwx"; "lmspdurbin"; "rlmwx"; "rlmdurlag"; "lmslxerr"]) \/
  (tests <> [:: "all"] /\ ts = tests) ->
  let wx := lm_wx o W xx in let sdm := lm_spdurbin o W xx in
  (lm_tests W wx sdm r tests = None <-> (wanted ts "lmwx" /\ wx = None) \/ (wanted ts "lmspdurbin" /\ sdm = None)) /\
  (forall a s, lm_tests W wx sdm r tests = Some (a, s) ->
   forall nm, getattr a nm = if wanted ts nm then test_value (odflt (0, 0%N) wx) (odflt (0, 0%N) sdm) nm else None).
Proof.
move=> r l xx tests ts C H Hts wx sdm.
have Ets : expand tests = ts.
  case: Hts => [[-> ->] //|[N ->]]; rewrite /expand; case: tests N => [|t [|t' tl]] // N.
  by case E: (t =? "all") => //; case: N; rewrite (eqb_case E).
have := inv0 C H; rewrite /lm_tests Ets; set s0 := (r, _) => I0.
have [s1 [-> I1]] := @step_ok (any_in [:: "lme"; "lmslxerr"] ts) "lme" (lift_t (t_lme W)) [::] s0 (lmErr o W) I0
  (fun _ => let: ex_intro s' (conj e i) := t_lme_ok I0 in ex_intro _ s' (conj (congr1 Some e) i)).
set a1 := (_ ++ _)%SEQ.
have [s2 [-> I2]] := @step_ok (any_in [:: "lml"; "rlmwx"] ts) "lml" (lift_t (t_lml W)) a1 s1 (lmLag o W) I1
  (fun _ => let: ex_intro s' (conj e i) := t_lml_ok I1 in ex_intro _ s' (conj (congr1 Some e) i)).
set a2 := (_ ++ a1)%SEQ.
have [s3 [-> I3]] := @step_ok (mem_s "rlme" ts) "rlme" (lift_t (t_rlme W)) a2 s2 (rlmErr o W) I2
  (fun _ => let: ex_intro s' (conj e i) := t_rlme_ok I2 in ex_intro _ s' (conj (congr1 Some e) i)).
set a3 := (_ ++ a2)%SEQ.
have [s4 [-> I4]] := @step_ok (mem_s "rlml" ts) "rlml" (lift_t (t_rlml W)) a3 s3 (rlmLag o W) I3
  (fun _ => let: ex_intro s' (conj e i) := t_rlml_ok I3 in ex_intro _ s' (conj (congr1 Some e) i)).
set a4 := (_ ++ a3)%SEQ.
have [s5 [-> I5]] := @step_ok (mem_s "sarma" ts) "sarma" (lift_t (t_sarma W)) a4 s4 (lmSarma o W) I4
  (fun _ => let: ex_intro s' (conj e i) := t_sarma_ok I4 in ex_intro _ s' (conj (congr1 Some e) i)).
set a5 := (_ ++ a4)%SEQ.
rewrite w_lmwx w_sdm.
have NN c nm f : step (R := R) (n := n) (k := k) c nm f None = None by rewrite /step; case: c.
case Ewx: (any_in [:: "lmwx"; "rlmdurlag"; "lmslxerr"] ts && ~~ isSome wx).
  move/andP: Ewx => [B Wn]; have Wn' : wx = None by case: wx Wn.
  have -> : step (any_in [:: "lmwx"; "rlmdurlag"; "lmslxerr"] ts) "lmwx" (const_t wx) (Some (a5, s5)) = None by rewrite /step B Wn'.
  by rewrite !NN; split => //; split => // _; left.
have K6 : any_in [:: "lmwx"; "rlmdurlag"; "lmslxerr"] ts -> const_t wx a5 s5 = Some (odflt (0, 0%N) wx, s5).
  by move=> b; move: Ewx; rewrite b /const_t; case: wx.
have [s6 [-> I6]] := @step_ok (any_in [:: "lmwx"; "rlmdurlag"; "lmslxerr"] ts) "lmwx" (const_t wx) a5 s5 (odflt (0, 0%N) wx) I5 (fun b => ex_intro _ s5 (conj (K6 b) I5)).
set a6 := (_ ++ a5)%SEQ.
case Esd: (any_in [:: "lmspdurbin"; "rlmdurlag"; "rlmwx"] ts && ~~ isSome sdm).
  move/andP: Esd => [B Wn]; have Wn' : sdm = None by case: sdm Wn.
  have -> : step (any_in [:: "lmspdurbin"; "rlmdurlag"; "rlmwx"] ts) "lmspdurbin" (const_t sdm) (Some (a6, s6)) = None by rewrite /step B Wn'.
  by rewrite !NN; split => //; split => // _; right.
have K7 : any_in [:: "lmspdurbin"; "rlmdurlag"; "rlmwx"] ts -> const_t sdm a6 s6 = Some (odflt (0, 0%N) sdm, s6).
  by move=> b; move: Esd; rewrite b /const_t; case: sdm.
have [s7 [-> I7]] := @step_ok (any_in [:: "lmspdurbin"; "rlmdurlag"; "rlmwx"] ts) "lmspdurbin" (const_t sdm) a6 s6 (odflt (0, 0%N) sdm) I6 (fun b => ex_intro _ s6 (conj (K7 b) I6)).
set a7 := (_ ++ a6)%SEQ.
have Gsd : any_in [:: "lmspdurbin"; "rlmdurlag"; "rlmwx"] ts -> getattr a7 "lmspdurbin" = Some (odflt (0, 0%N) sdm).
  by move=> B; rewrite /a7 getattr_opt B.
have Gwx : any_in [:: "lmwx"; "rlmdurlag"; "lmslxerr"] ts -> getattr a7 "lmwx" = Some (odflt (0, 0%N) wx).
  by move=> B; rewrite /a7 /a6 !getattr_opt B !andbF.
have Gll : any_in [:: "lml"; "rlmwx"] ts -> getattr a7 "lml" = Some (lmLag o W).
  by move=> B; rewrite /a7 /a6 /a5 /a4 /a3 /a2 !getattr_opt B !andbF.
have Gle : any_in [:: "lme"; "lmslxerr"] ts -> getattr a7 "lme" = Some (lmErr o W).
  by move=> B; rewrite /a7 /a6 /a5 /a4 /a3 /a2 /a1 !getattr_opt B !andbF.
have K8 : mem_s "rlmwx" ts -> from2 "lmspdurbin" "lml" (@rlm_wx R k) a7 s7 = Some ((rlm_wx k (odflt (0, 0%N) sdm) (lmLag o W)), s7).
  by move=> b; rewrite /from2 Gsd ?Gll //; apply: mem_le b; rewrite /=; tauto.
have [s8 [-> I8]] := @step_ok (mem_s "rlmwx" ts) "rlmwx" (from2 "lmspdurbin" "lml" (@rlm_wx R k)) a7 s7
    (rlm_wx k (odflt (0, 0%N) sdm) (lmLag o W)) I7
  (fun b => ex_intro _ s7 (conj (K8 b) I7)).
set a8 := (_ ++ a7)%SEQ.
have Gsd8 : getattr a8 "lmspdurbin" = getattr a7 "lmspdurbin" by rewrite /a8 getattr_opt andbF.
have Gwx8 : getattr a8 "lmwx" = getattr a7 "lmwx" by rewrite /a8 getattr_opt andbF.
have K9 : mem_s "rlmdurlag" ts -> from2 "lmspdurbin" "lmwx" (@rlm_durlag R) a8 s8 = Some ((rlm_durlag (odflt (0, 0%N) sdm) (odflt (0, 0%N) wx)), s8).
  by move=> b; rewrite /from2 Gsd8 Gwx8 Gsd ?Gwx //; apply: mem_le b; rewrite /=; tauto.
have [s9 [-> I9]] := @step_ok (mem_s "rlmdurlag" ts) "rlmdurlag" (from2 "lmspdurbin" "lmwx" (@rlm_durlag R)) a8 s8
    (rlm_durlag (odflt (0, 0%N) sdm) (odflt (0, 0%N) wx)) I8
  (fun b => ex_intro _ s8 (conj (K9 b) I8)).
set a9 := (_ ++ a8)%SEQ.
have Gle9 : getattr a9 "lme" = getattr a7 "lme" by rewrite /a9 /a8 !getattr_opt !andbF.
have Gwx9 : getattr a9 "lmwx" = getattr a7 "lmwx" by rewrite /a9 /a8 !getattr_opt !andbF.
have K10 : mem_s "lmslxerr" ts -> from2 "lme" "lmwx" (@lm_slxerr R k) a9 s9 = Some ((lm_slxerr k (lmErr o W) (odflt (0, 0%N) wx)), s9).
  by move=> b; rewrite /from2 Gle9 Gwx9 Gle ?Gwx //; apply: mem_le b; rewrite /=; tauto.
have [s10 [-> I10]] := @step_ok (mem_s "lmslxerr" ts) "lmslxerr" (from2 "lme" "lmwx" (@lm_slxerr R k)) a9 s9
    (lm_slxerr k (lmErr o W) (odflt (0, 0%N) wx)) I9
  (fun b => ex_intro _ s9 (conj (K10 b) I9)).
split.
  split => // -[[B Wn]|[B Wn]].
  - by move: Ewx; rewrite B Wn.
  - by move: Esd; rewrite B Wn.
move=> a s [<- _] nm.
rewrite getattr_opt /a9 getattr_opt /a8 getattr_opt /a7 getattr_opt /a6 getattr_opt /a5 getattr_opt /a4 getattr_opt /a3 getattr_opt /a2 getattr_opt /a1 getattr_opt.
rewrite /test_value.
case E: (nm =? "lme"); first by rewrite (eqb_case E) w_lme !andbF andbT.
case E1: (nm =? "lml"); first by rewrite (eqb_case E1) w_lml !andbF andbT.
case E2: (nm =? "rlme"); first by rewrite (eqb_case E2) w_one /= ?andbF ?andbT //; tauto.
case E3: (nm =? "rlml"); first by rewrite (eqb_case E3) w_one /= ?andbF ?andbT //; tauto.
case E4: (nm =? "sarma"); first by rewrite (eqb_case E4) w_one /= ?andbF ?andbT //; tauto.
case E5: (nm =? "lmwx"); first by rewrite (eqb_case E5) w_lmwx !andbF andbT.
case E6: (nm =? "lmspdurbin"); first by rewrite (eqb_case E6) w_sdm !andbF andbT.
case E7: (nm =? "rlmwx"); first by rewrite (eqb_case E7) w_one /= ?andbF ?andbT //; tauto.
case E8: (nm =? "rlmdurlag"); first by rewrite (eqb_case E8) w_one /= ?andbF ?andbT //; tauto.
case E9: (nm =? "lmslxerr"); first by rewrite (eqb_case E9) w_one /= ?andbF ?andbT //; tauto.
rewrite ![_ =? nm]String.eqb_sym E E1 E2 E3 E4 E5 E6 E7 E8 E9 !andbF.
by case: wanted.
Qed.
End LM.

(** an OLS object meets the hypotheses of C32_pieces and C32_tests *)
Lemma C32_ols (R : rcfType) n k (y : 'cV[R]_n) (x : 'M[R]_(n, k)) fl r : init_ols y x fl = Some r ->
  exists2 o, base_ols y x RobNone None fl = Some o & fresh r /\ holds o r.
Proof.
move=> E; have [o [Ho [ex ey eu eb] es ei [F _ _]]] := init_olsE E; exists o => //; split => //.
have [Ex Ey Ep Eu Ei] := ols_fields Ho; split; rewrite ?Ex ?Ey //; split; rewrite // Ep.
by move: E; rewrite /init_ols -eb; case: la_inv => [xi|//]; case: fl {F Ho es} => /= -[<-].
Qed.
Local Open Scope string_scope.
(** "all" only stands for everything when it is the only entry *)
Example C32_all_only_alone (R : rcfType) n k (W : 'M[R]_n) wx sdm (r : robj R n k) :
  lm_tests W wx sdm r [:: "all"; "rlml"] = lm_tests W wx sdm r [:: "rlml"].
Proof. by []. Qed.

(** C51: one regime with one observation, one with two, a common constant. *)
Section Stale.
Variable R : rcfType.
Let x : 'M[R]_(3, 1) := const_mx 1.
Let y : 'cV[R]_3 := \col_i (if i == 0 then 2%:R else -1).
Let g (i : 'I_3) : 'I_2 := if i == 0 then 0 else 1.
Example C51_stale_witness : exists r o, [/\ ols_regimes_weighted g y x false = Some r, base_ols y x RobNone None false = Some o
  & (get_s r KUtu).1 < defining r KUtu].
Proof.
have G : x^T *m x = 3%:R%:M.
  by apply/matrixP => i j; rewrite !ord1 !mxE !big_ord_recl big_ord0 !mxE !mulr1 !addr0.
have T0 : 3%:R != 0 :> R by rewrite pnatr_eq0.
have U : x^T *m x \in unitmx by rewrite G unitmxE det_scalar expr1 unitfE.
have XY : x^T *m y = 0.
  apply/matrixP => i j; rewrite !ord1 !mxE !big_ord_recl big_ord0 !mxE /= !mul1r !addr0.
  by rewrite -opprD subrr.
set r1 : robj R 3 1 := let '(s, r1) := get_s (Robj x y (invmx (x^T *m x)) (invmx (x^T *m x) *m (x^T *m y))
  (x *m (invmx (x^T *m x) *m (x^T *m y))) (y - x *m (invmx (x^T *m x) *m (x^T *m y))) 0 None) KSig2n in with_sig2 r1 s.
have E1 : init_ols y x false = Some r1 by rewrite /init_ols (la_inv_unit U).
have Eu : r_u r1 = y by rewrite /r1 /= XY !mulmx0 subr0.
case EW: (get_weighted_var g false y y x) => [y2 x2].
have S0 : Num.sqrt (4%:R : R) = 2%:R by rewrite -[4%:R]/((2 * 2)%N%:R : R) natrM -expr2 sqrtr_sqr ger0_norm ?ler0n.
have R0 : regi_sig 1 g false y 0 = 4%:R.
  rewrite /regi_sig.
  have -> : #|[pred i | g i == 0]| = 1%N by rewrite -sum1_card big_mkcond !big_ord_recl big_ord0 /=.
  by rewrite divr1 big_mkcond !big_ord_recl big_ord0 /= !mxE /= !addr0 -natrX.
have R1 : regi_sig 1 g false y 1 = 1.
  rewrite /regi_sig.
  have -> : #|[pred i | g i == 1]| = 2%N by rewrite -sum1_card big_mkcond !big_ord_recl big_ord0 /=.
  by rewrite big_mkcond !big_ord_recl big_ord0 /= !mxE /= !addr0 !add0r sqrrN expr1n -[1 + 1]/(2%:R) divff ?pnatr_eq0 //.
have gE i : g i = if i == 0 then 0 else 1 by [].
have Ex2 : x2 = \matrix_(i, j) (if i == 0 then 2%:R^-1 else 1).
  have -> : x2 = (get_weighted_var g false y y x).2 by rewrite EW.
  rewrite /get_weighted_var; set sg := regi_sig _ _ _ _; apply/matrixP => i j; rewrite !mxE gE; case: ifP => _.
    by rewrite /sg R0 S0 div1r mul1r.
  by rewrite /sg R1 sqrtr1 divr1 mulr1.
have Ey2 : y2 = \col_i (if i == 0 then 1 else -1).
  have -> : y2 = (get_weighted_var g false y y x).1 by rewrite EW.
  rewrite /get_weighted_var; set sg := regi_sig _ _ _ _; apply/matrixP => i j; rewrite !mxE gE; case: ifP => _.
    by rewrite /sg R0 S0 divff // pnatr_eq0.
  by rewrite /sg R1 sqrtr1 divr1.
have G2 : x2^T *m x2 = (2%:R^-1 * 2%:R^-1 + 2%:R)%:M.
  by rewrite Ex2; apply/matrixP => i j; rewrite !ord1 !mxE !big_ord_recl big_ord0 !mxE /= !mulr1 !addr0.
have P2 : 0 < 2%:R^-1 * 2%:R^-1 + 2%:R :> R.
  by apply: addr_gt0; rewrite ?ltr0n // mulr_gt0 ?invr_gt0 ?ltr0n.
have U2 : x2^T *m x2 \in unitmx by rewrite G2 unitmxE det_scalar expr1 unitfE gt_eqF.
case E2: (init_ols y2 x2 false) => [r2|]; last by move: E2; rewrite /init_ols (la_inv_unit U2).
case EV: (get_vm r2) => [vm2 r3].
have Hr : ols_regimes_weighted g y x false = Some (props_basic r1 (r_betas r2) None false vm2).
  by rewrite /ols_regimes_weighted E1 Eu EW E2 EV.
have [o [Ho _ _ _ Hlt]] := C51_stale_refuted Hr.
exists (props_basic r1 (r_betas r2) None false vm2), o; split => //; apply: Hlt.
have B1 : o_betas o = 0.
  by have := ols_normal Ho; rewrite XY => H; apply: (can_inj (mulKmx U)); rewrite H mulmx0.
have [o2 [Ho2 [_ _ _ eb2] _ _ _]] := init_olsE E2.
rewrite /= B1 eb2; apply/eqP => Z; have := ols_normal Ho2; rewrite Z mulmx0 => /matrixP /(_ 0 0).
rewrite Ex2 Ey2 !mxE !big_ord_recl big_ord0 !mxE /= !addr0 !mulrN1 !mulr1 -opprD => /eqP.
rewrite eq_sym subr_eq0 => /eqP H.
have : 2%:R^-1 < 1 + 1 :> R.
  by apply: (@lt_trans _ _ 1); rewrite ?invf_lt1 ?ltr0n ?ltr1n // ltr_addl ltr01.
by rewrite H ltxx.
Qed.
End Stale.
Print Assumptions C51_reads.
Print Assumptions C51_stable.
Print Assumptions C51_override.
Print Assumptions C51_vm.
Print Assumptions C51_clear.
Print Assumptions C51_ols_partial.
Print Assumptions C51_stale_refuted.
Print Assumptions C51_stale_witness.
Print Assumptions C32_pieces.
Print Assumptions C32_tests.
