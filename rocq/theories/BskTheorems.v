(** C44, C70: Baltagi-Song-Koh tests. *)
From Coq Require Import Strings.String Ring Field.
From mathcomp Require Import all_ssreflect all_algebra.
From Verif Require Import Mring LinRegModel LinRegProofs LinRegProofs2 Kron BskModel.
Set Implicit Arguments.
Unset Strict Implicit.
Unset Printing Implicit Defensive.
Import Order.TTheory GRing.Theory Num.Theory.
Local Open Scope ring_scope.

(** * C44: rows of the table *)
Definition requested (s : string) (which : seq string) : Prop := List.In s which.
(** the table in the order in which it is printed *)
Definition test_labels : seq (string * string) :=
  [:: ("LM1", "LM Marginal RE (LM1)"); ("LM2", "LM Marginal Spatial (LM2)"); ("LMJ", "LM Joint (LMJ)");
      ("LMC_spatial", "LM Conditional Spatial"); ("LMC_RE", "LM Conditional RE")]%string.
Section C44.
Variables (R : rcfType) (T n : nat) (W : 'M[R]_n) (ncdf : R -> R) (c2cdf : nat -> R -> R).
Notation bsk_tests := (@bsk_tests R T n W ncdf c2cdf).
Lemma existsbP s l : reflect (List.In s l) (asked l s).
Proof.
apply: (iffP idP) => [/List.existsb_exists [x [H /String.eqb_eq ->]] //|H].
by apply/List.existsb_exists; exists s; rewrite String.eqb_refl.
Qed.
(** whenever a table is returned, it has exactly one row for each test that was requested, in a fixed order *)
Theorem C44_rows : forall (reg : breg R T n) fit_re fit_sem w rows, bsk_tests reg fit_re fit_sem w = BOk rows ->
  [seq b_name r | r <- rows] = [seq p.2 | p <- test_labels & asked (bsk_which w) p.1].
Proof.
move=> reg fre fsem w rows; rewrite /bsk_tests /test_labels; move: (asked (bsk_which w)) => has /=.
move: (has "LMJ"%string) (has "LM1"%string) (has "LM2"%string) (has "LMC_spatial"%string) (has "LMC_RE"%string) => a b c d e.
case: reg => cls u lam /=.
case: cls => /=; case: a; case: b; case: c; case: d; case: e => //=; case: fre => [ur|] //=; case: fsem => [[l us]|] //=;
  try (case: (lmc_re W l us) => [s2|] //=); try (case: (lmc_re W lam u) => [s1|] //=); by case=> <-.
Qed.
(** for a PooledOLS regression the five tests are returned, provided the two models estimated inside succeed *)
(* partial; missing: other classes and the marginal spatial test alone (C44_other_class_refuted, C44_spatial_alone_refuted) *)
Theorem C44_complete_partial : forall (reg : breg R T n) fit_re fit_sem w,
  r_cls reg = CPooled -> fit_re <> None -> (forall l u, fit_sem = Some (l, u) -> lmc_re W l u <> None) -> fit_sem <> None ->
  (requested "LM2" (bsk_which w) -> requested "LM1" (bsk_which w) \/ requested "LMJ" (bsk_which w)) ->
  exists rows, bsk_tests reg fit_re fit_sem w = BOk rows.
Proof.
move=> [cls u lam] fre fsem w /= -> ; case: fre => // ur _; case: fsem => // [[l us]] /(_ _ _ erefl); case E: lmc_re => // [s] _ _.
move=> H; have {}H : asked (bsk_which w) "LM2" -> asked (bsk_which w) "LM1" || asked (bsk_which w) "LMJ".
  by move=> /existsbP /H [] /existsbP ->; rewrite ?orbT.
rewrite /bsk_tests; move: (asked (bsk_which w)) H => has; rewrite /= E.
case: (has "LM2"%string); case: (has "LM1"%string); case: (has "LMJ"%string) => //= H; try (by have := H isT);
  case: (has "LMC_spatial"%string); case: (has "LMC_RE"%string); eexists; reflexivity.
Qed.
(** the marginal spatial test on its own is never returned: its computation uses variables of the other marginal test *)
Theorem C44_spatial_alone_refuted : forall (reg : breg R T n) fit_re fit_sem, r_cls reg = CPooled ->
  bsk_tests reg fit_re fit_sem (WStr "LM2") = BErr BUnbound /\ bsk_tests reg fit_re fit_sem (WList [:: "LM2"; "LMC_spatial"]%string) = BErr BUnbound.
Proof. by move=> [cls u lam] fre fsem /= ->. Qed.
(** for any other class of regression the marginal and joint tests raise, also with the default which="all" *)
Theorem C44_other_class_refuted : forall (reg : breg R T n) fit_re fit_sem, r_cls reg <> CPooled ->
  bsk_tests reg fit_re fit_sem (WStr "all") = BErr BMissingW /\ bsk_tests reg fit_re fit_sem (WStr "LM1") = BErr BMissingW.
Proof. by move=> [[] u lam] fre fsem //= /eqP. Qed.
(** the joint statistic is the sum of the squares of the positive marginal statistics *)
Theorem C44_joint : forall (reg : breg R T n) fit_re fit_sem w rows r, bsk_tests reg fit_re fit_sem w = BOk rows -> List.In r rows -> b_name r = "LM Joint (LMJ)"%string ->
  let u := r_u reg in b_stat r = (if 0 < lm1 u then lm1 u ^+ 2 else 0) + (if 0 < lm2 W u then lm2 W u ^+ 2 else 0).
Proof.
have J a b : (lm_joint c2cdf a b).1 = (if 0 < a then a ^+ 2 else 0) + (if 0 < b then b ^+ 2 else 0).
  by rewrite /lm_joint; case: (ltP 0 a) => A; case: (ltP 0 b) => B /=; rewrite ?addr0 ?add0r.
move=> [cls u lam] fre fsem w rows r; rewrite /bsk_tests; move: (asked (bsk_which w)) => has /= E I N; rewrite -J; move: E I N.
have L (x : brow R) l : List.In r (x :: l) -> (r = x -> b_name r = "LM Joint (LMJ)"%string -> b_stat r = (lm_joint c2cdf (lm1 u) (lm2 W u)).1) ->
  (List.In r l -> b_name r = "LM Joint (LMJ)"%string -> b_stat r = (lm_joint c2cdf (lm1 u) (lm2 W u)).1) -> b_name r = "LM Joint (LMJ)"%string -> b_stat r = (lm_joint c2cdf (lm1 u) (lm2 W u)).1.
  by move=> [->|I] H1 H2 N; [apply: H1|apply: H2].
case: cls; case: (has "LMJ"%string); case: (has "LM1"%string); case: (has "LM2"%string) => //=;
  case: (has "LMC_spatial"%string); case: (has "LMC_RE"%string) => //=;
  case: fre => [ur|] //=; case: fsem => [[l us]|] //=; try (case: (lmc_re W l us) => [s2|] //=); try (case: (lmc_re W lam u) => [s3|] //=); move=> [<-] I;
  repeat (move: I => /L; apply=> [->|I] //=); by [].
Qed.
End C44.
