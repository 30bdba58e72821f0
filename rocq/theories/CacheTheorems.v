(** C51 (cached regression attributes) and C32 (LMtests). *)
From mathcomp Require Import all_ssreflect all_algebra.
From Coq Require Import String.
From Verif Require Import LinRegModel LinRegProofs LMModel CacheModel.
Set Implicit Arguments.
Unset Strict Implicit.
Unset Printing Implicit Defensive.
Import Order.TTheory GRing.Theory Num.Theory.
Local Open Scope ring_scope.

Section Reg.
Variables (R : rcfType) (n k : nat).
Local Notation robj := (robj R n k).
Local Notation op := (op R n k).
Local Notation val := (val R k).

(** Specification: what each attribute is documented to be, from the fields of the object. *)
Definition defining (r : robj) (key : skey) : R :=
  let ssr := \sum_i r_u r i 0 ^+ 2 in
  let ybar := (\sum_i r_y r i 0) / n%:R in
  match key with
  | KUtu => ssr | KSig2n => ssr / n%:R | KSig2nk => ssr / (n%:R - k%:R) | KMeanY => ybar
  | KStdY => Num.sqrt ((\sum_i (r_y r i 0 - ybar) ^+ 2) / (n%:R - 1))
  end.
Definition defining_vm (r : robj) : 'M[R]_k := \matrix_(i, j) (r_sig2 r * r_xtxi r i j).
Definition expected (r : robj) (p : op) : val :=
  match p with OGet key => VS k (defining r key) | OGetVm => VM (defining_vm r) | _ => VNone R k end.
Definition is_get (p : op) : bool := match p with OGet _ | OGetVm => true | _ => false end.
Definition same_fields (r r' : robj) : Prop :=
  [/\ r_x r' = r_x r, r_y r' = r_y r, r_xtxi r' = r_xtxi r & [/\ r_betas r' = r_betas r, r_predy r' = r_predy r, r_u r' = r_u r & r_sig2 r' = r_sig2 r]].

Lemma utu_sum (u : 'cV[R]_n) : utu_of u = \sum_i u i 0 ^+ 2.
Proof. by []. Qed.
Lemma skeyP a b : reflect (a = b) (skey_eqb a b). Proof. by case: a b => [] []; constructor. Qed.
Lemma skey_refl a : skey_eqb a a. Proof. by case: a. Qed.

Definition fresh (r : robj) : Prop :=
  (forall key v, c_s (the_cache r) key = Some v -> v = defining r key) /\ (forall v, c_vm (the_cache r) = Some v -> v = defining_vm r).
Lemma store_fresh r key : fresh r -> fresh (store r key (defining r key)).
Proof.
move=> [H1 H2]; split; last exact: H2.
move=> q v /=; case: skeyP => [-> [<-] //|_]; exact: H1.
Qed.
Lemma store_same r key v : same_fields r (store r key v). Proof. by []. Qed.
Lemma get_utu_ok r : fresh r -> exists r', [/\ get_utu r = (defining r KUtu, r'), fresh r' & same_fields r r'].
Proof.
move=> F; rewrite /get_utu; case E: (c_s _ _) => [v|].
  by exists r; split => //; rewrite (proj1 F _ _ E).
exists (store r KUtu (defining r KUtu)); split => //; exact: store_fresh.
Qed.
Lemma get_s_ok r key : fresh r -> exists r', [/\ get_s r key = (defining r key, r'), fresh r' & same_fields r r'].
Proof.
move=> F; rewrite /get_s; case E: (c_s _ _) => [v|].
  by exists r; split => //; rewrite (proj1 F _ _ E).
case: key E => E.
- exact: get_utu_ok.
- have [r1 [-> F1 [ex ey ei [eb ep eu es]]]] := get_utu_ok F.
  have -> : defining r KUtu / n%:R = defining r1 KSig2n by rewrite /= eu.
  exists (store r1 KSig2n (defining r1 KSig2n)); split; [by rewrite /= eu|exact: store_fresh|by []].
- have [r1 [-> F1 [ex ey ei [eb ep eu es]]]] := get_utu_ok F.
  have -> : defining r KUtu / (n%:R - k%:R) = defining r1 KSig2nk by rewrite /= eu.
  exists (store r1 KSig2nk (defining r1 KSig2nk)); split; [by rewrite /= eu|exact: store_fresh|by []].
- exists (store r KMeanY (defining r KMeanY)); split => //; exact: store_fresh.
- exists (store r KStdY (defining r KStdY)); split => //; exact: store_fresh.
Qed.
Lemma get_vm_ok r : fresh r -> exists r', [/\ get_vm r = (defining_vm r, r'), fresh r' & same_fields r r'].
Proof.
move=> F; rewrite /get_vm; case E: (c_vm _) => [v|].
  by exists r; split => //; rewrite (proj2 F _ E).
have -> : r_sig2 r *: r_xtxi r = defining_vm r by apply/matrixP => i j; rewrite !mxE.
eexists; split; first by []; last by [].
by case: F => H1 H2; split => //= v [<-].
Qed.
Lemma exec_get_ok r p : is_get p -> fresh r -> exists r', [/\ exec r p = (expected r p, r'), fresh r' & same_fields r r'].
Proof.
case: p => //= [key|] _ F.
- by have [r' [-> F' S']] := get_s_ok key F; exists r'.
- by have [r' [-> F' S']] := get_vm_ok F; exists r'.
Qed.
Lemma same_expected r r' p : same_fields r r' -> expected r' p = expected r p.
Proof.
case=> ex ey ei [eb ep eu es]; case: p => //= [key|].
- by case: key; rewrite /defining ?eu ?ey.
- by rewrite /defining_vm es ei.
Qed.
Lemma same_trans r1 r2 r3 : same_fields r1 r2 -> same_fields r2 r3 -> same_fields r1 r3.
Proof. by case=> a b c [d e f g] [a' b' c' [d' e' f' g']]; split; [| | |split]; congruence. Qed.

(** C51: whatever attributes are read, in whatever order and however often, every read gives the documented value. *)
Lemma new_fresh (r : robj) : (r_cache r = None \/ r_cache r = Some (empty_cache R k)) -> fresh r.
Proof. by rewrite /fresh /the_cache => -[] ->. Qed.
Theorem C51_reads : forall (r : robj) (ps : list op), fresh r -> all is_get ps ->
  (run r ps).1 = [seq expected r p | p <- ps] /\ fresh (run r ps).2 /\ same_fields r (run r ps).2.
Proof.
move=> r ps F; elim: ps r F => [//|p ps IH] r F /= /andP [Hp Hps].
have [r' [-> F' S']] := exec_get_ok Hp F; have := IH r' F' Hps; case: (run r' ps) => vs r2 /= [-> [F2 S2]].
split; last by split => //; exact: same_trans S' S2.
by congr cons; apply: eq_map => q; exact: same_expected.
Qed.

(** C51: once read or assigned, a value is stable: nothing but an assignment to that attribute or emptying the cache changes it. *)
Definition keeps (key : skey) (p : op) : bool := match p with OPut q _ => ~~ skey_eqb q key | OClear => false | _ => true end.
Definition keeps_vm (p : op) : bool := match p with OPutVm _ | OClear => false | _ => true end.
Lemma get_s_hit (r : robj) key v : c_s (the_cache r) key = Some v -> get_s r key = (v, r).
Proof. by rewrite /get_s => ->. Qed.
Lemma get_utu_keeps (r : robj) key v : c_s (the_cache r) key = Some v -> c_s (the_cache (get_utu r).2) key = Some v.
Proof. by rewrite /get_utu; case E: (c_s _ KUtu) => [w|] //= H; case: skeyP => // K; rewrite -K H in E. Qed.
Lemma get_s_keeps (r : robj) q key v : c_s (the_cache r) key = Some v -> c_s (the_cache (get_s r q).2) key = Some v.
Proof.
rewrite /get_s; case E: (c_s _ q) => [w|] //= H.
have N : key <> q by move=> K; rewrite -K H in E.
have U := get_utu_keeps H; case: q E N => E N; move: U; case: (get_utu r) => u r1 /= U //=; by case: skeyP.
Qed.
Lemma get_vm_keeps (r : robj) key v : c_s (the_cache r) key = Some v -> c_s (the_cache (get_vm r).2) key = Some v.
Proof. by rewrite /get_vm; case E: (c_vm _). Qed.
Lemma exec_keeps (r : robj) p key v : keeps key p -> c_s (the_cache r) key = Some v -> c_s (the_cache (exec r p).2) key = Some v.
Proof.
case: p => [q||q w|w|u|y|s0|] //=.
- by move=> _ H; have := get_s_keeps q H; case: (get_s r q).
- by move=> _ H; have := get_vm_keeps H; case: (get_vm r).
- by move=> /negbTE N H; case: skeyP => // E; rewrite E skey_refl in N.
Qed.
Lemma run_keeps (r : robj) ps key v : all (keeps key) ps -> c_s (the_cache r) key = Some v -> c_s (the_cache (run r ps).2) key = Some v.
Proof.
elim: ps r => [//|p ps IH] r /= /andP [K Ks] H; have := exec_keeps K H; case: (exec r p) => w r1 /= H1.
by have := IH r1 Ks H1; case: (run r1 ps).
Qed.
Lemma get_s_caches (r : robj) key : c_s (the_cache (get_s r key).2) key = Some (get_s r key).1.
Proof.
rewrite /get_s; case E: (c_s (the_cache r) key) => [v|] //; case: key E => E; rewrite /get_utu ?E //=; by case: (c_s (the_cache r) KUtu).
Qed.
Theorem C51_stable : forall (r : robj) key (ps : list op), all (keeps key) ps ->
  let '(v, r1) := get_s r key in (get_s (run r1 ps).2 key).1 = v.
Proof.
move=> r key ps K; have := get_s_caches r key; case: (get_s r key) => v r1 /= H.
by rewrite (get_s_hit (run_keeps K H)).
Qed.
Theorem C51_override : forall (r : robj) key v (ps : list op), all (keeps key) ps -> (get_s (run (put_s r key v) ps).2 key).1 = v.
Proof.
move=> r key v ps K; have H : c_s (the_cache (put_s r key v)) key = Some v by rewrite /= skey_refl.
by rewrite (get_s_hit (run_keeps K H)).
Qed.

Lemma get_utu_vm (r : robj) : c_vm (the_cache (get_utu r).2) = c_vm (the_cache r).
Proof. by rewrite /get_utu; case: (c_s _ _). Qed.
Lemma get_s_vm (r : robj) q : c_vm (the_cache (get_s r q).2) = c_vm (the_cache r).
Proof.
rewrite /get_s; case E: (c_s _ q) => [w|] //; have := get_utu_vm r; case: q E => E //; by case: (get_utu r).
Qed.
Lemma run_vm (r : robj) ps v : all keeps_vm ps -> c_vm (the_cache r) = Some v -> c_vm (the_cache (run r ps).2) = Some v.
Proof.
elim: ps r => [//|p ps IH] r /= /andP [K Ks] H.
have : c_vm (the_cache (exec r p).2) = Some v.
  case: p K => [q||q w|w|u|y|s0|] //= _.
  - by have := get_s_vm r q; case: (get_s r q) => w r' /= ->.
  - by rewrite /get_vm H.
case: (exec r p) => w r1 /= H1; by have := IH r1 Ks H1; case: (run r1 ps).
Qed.
Theorem C51_vm : forall (r : robj) v (ps : list op), all keeps_vm ps ->
  (get_vm (run (put_vm r v) ps).2).1 = v /\ (get_vm (run (get_vm r).2 ps).2).1 = (get_vm r).1.
Proof.
move=> r v ps K; split.
- by have := @run_vm (put_vm r v) ps v K erefl => H; rewrite /get_vm H.
- have H : c_vm (the_cache (get_vm r).2) = Some (get_vm r).1 by rewrite /get_vm; case E: (c_vm (the_cache r)) => [w|].
  by have := run_vm K H => H1; rewrite {1}/get_vm H1.
Qed.
(** C51: emptying the cache after changing fields (as the ML estimators do) gives values of the new fields. *)
Theorem C51_clear : forall (r : robj) ps, all is_get ps -> (run (clear_cache r) ps).1 = [seq expected r p | p <- ps].
Proof. by move=> r ps G; rewrite (proj1 (C51_reads (@new_fresh (clear_cache r) (or_intror erefl)) G)). Qed.

(** ... but not otherwise: group-wise heteroskedastic OLS_Regimes replaces the residuals without emptying the cache, so utu and sig2n are
    those of the unweighted first step; they are smaller than those of the reported residuals whenever the coefficients change. *)
Lemma init_olsE (y : 'cV[R]_n) (x : 'M[R]_(n, k)) fl r : init_ols y x fl = Some r ->
  exists o, [/\ base_ols y x RobNone None fl = Some o,
    [/\ r_x r = x, r_y r = y, r_u r = o_u o & r_betas r = o_betas o], r_sig2 r = o_sig2 o, r_xtxi r = o_xtxi o
    & [/\ fresh r, c_s (the_cache r) KUtu = Some (utu_of (o_u o)) & c_vm (the_cache r) = None]].
Proof.
rewrite /init_ols /base_ols; case: la_inv => [xi|//] H; eexists; split; first by [].
all: move: H; case: fl => /= -[<-] //=.
- split => //; split=> [[]//= v [<-]|//]; by rewrite ?utu_sum.
- split => //; split=> [[]//= v [<-]|//]; by rewrite ?utu_sum.
Qed.
(** C51 for OLS: after construction, every read of every attribute gives the documented value of the least squares fit. *)
(* partial; missing: OLS_Regimes with regime_err_sep, whose cache goes stale (C51_stale_refuted) *)
Theorem C51_ols_partial : forall (y : 'cV[R]_n) (x : 'M[R]_(n, k)) fl r ps, init_ols y x fl = Some r -> all is_get ps ->
  exists o, [/\ base_ols y x RobNone None fl = Some o, r_u r = o_u o, r_y r = y, r_sig2 r = o_sig2 o
    & (run r ps).1 = [seq expected r p | p <- ps]].
Proof.
move=> y x fl r ps E G; have [o [Ho [ex ey eu eb] es ei [F _ _]]] := init_olsE E; exists o; split => //; exact: (proj1 (C51_reads F G)).
Qed.
Theorem C51_stale_refuted : forall m (g : 'I_n -> 'I_m) (y : 'cV[R]_n) (x : 'M[R]_(n, k)) fl r,
  ols_regimes_weighted g y x fl = Some r -> exists o, [/\ base_ols y x RobNone None fl = Some o,
    r_u r = y - x *m r_betas r, (get_s r KUtu).1 = utu_of (o_u o),
    (get_s r KUtu).1 <= defining r KUtu & (r_betas r != o_betas o -> (get_s r KUtu).1 < defining r KUtu)].
Proof.
move=> m g y x fl r; rewrite /ols_regimes_weighted.
case E1: init_ols => [r1|//]; case EW: get_weighted_var => [y2 x2]; case E2: init_ols => [r2|//].
case EV: (get_vm r2) => [vm2 r3] [<-].
have [o [Ho [ex ey eu eb] es ei [F C V]]] := init_olsE E1; exists o.
have G : (get_s (props_basic r1 (r_betas r2) None false vm2) KUtu).1 = utu_of (o_u o).
  by rewrite /get_s /= /the_cache /=; move: C; rewrite /the_cache; case: (r_cache r1) => [c|] //= ->.
have D : defining (props_basic r1 (r_betas r2) None false vm2) KUtu = utu_of (o_u o) + utu_of (x *m (r_betas r2 - o_betas o)).
  by rewrite -(ols_min _ Ho) utu_sum /= ex ey.
split => //; first by rewrite /= ex ey.
- by rewrite G D ler_addl utu_ge0.
- move=> N; rewrite G D ltr_addl lt_def utu_ge0 andbT utu_eq0; apply/eqP => Z.
  case/eqP: N; apply/eqP; rewrite -subr_eq0; apply/eqP; apply: (can_inj (mulKmx (ols_gram Ho))).
  by rewrite -mulmxA Z !mulmx0.
Qed.
End Reg.
