(** The real numbers of the Coq standard library as a MathComp real closed field, so that models that use logarithms can be stated
    over matrices with entries in R.  Uses the standard library's classical axioms (ClassicalEpsilon for the choice structure). *)
From Coq Require Import Reals Lra Epsilon ClassicalEpsilon FunctionalExtensionality.
From mathcomp Require Import all_ssreflect all_algebra.
Set Implicit Arguments.
Unset Strict Implicit.
Unset Printing Implicit Defensive.
Import GRing.Theory.
Delimit Scope R_scope with coqR.
Delimit Scope ring_scope with R.
(** formulas about reals are read in MathComp's ring scope from here on *)
Bind Scope ring_scope with R.
Arguments ln x%R.
Arguments exp x%R.

Definition eqR (x y : R) : bool := if Req_EM_T x y then true else false.
Lemma eqRP : Equality.axiom eqR.
Proof. by move=> x y; rewrite /eqR; case: Req_EM_T => H; constructor. Qed.
Canonical R_eqMixin := EqMixin eqRP.
Canonical R_eqType := Eval hnf in EqType R R_eqMixin.

Fact inhR : inhabited R. Proof. exact: (inhabits R0). Qed.
Definition pickR (P : pred R) (n : nat) := let x := epsilon inhR P in if P x then Some x else None.
Fact pickR_some P n x : pickR P n = Some x -> P x.
Proof. by rewrite /pickR; case: (boolP (P _)) => // Px [<-]. Qed.
Fact pickR_ex (P : pred R) : (exists x : R, P x) -> exists n, pickR P n.
Proof. by rewrite /pickR; move=> /(epsilon_spec inhR)->; exists 0%N. Qed.
Fact pickR_ext (P Q : pred R) : P =1 Q -> pickR P =1 pickR Q.
Proof.
move=> PEQ n; rewrite /pickR; set u := epsilon _ _; set v := epsilon _ _.
suff -> : u = v by rewrite PEQ.
rewrite /u /v; congr epsilon; by apply: functional_extensionality_dep => y; rewrite PEQ.
Qed.
Definition R_choiceMixin : choiceMixin R := Choice.Mixin pickR_some pickR_ex pickR_ext.
Canonical R_choiceType := Eval hnf in ChoiceType R R_choiceMixin.

Fact RplusA : associative Rplus. Proof. by move=> *; rewrite Rplus_assoc. Qed.
Definition R_zmodMixin := ZmodMixin RplusA Rplus_comm Rplus_0_l Rplus_opp_l.
Canonical R_zmodType := Eval hnf in ZmodType R R_zmodMixin.

Fact RmultA : associative Rmult. Proof. by move=> *; rewrite Rmult_assoc. Qed.
Fact R1_neq_0 : R1 != R0. Proof. by apply/eqP/R1_neq_R0. Qed.
Definition R_ringMixin := RingMixin RmultA Rmult_1_l Rmult_1_r Rmult_plus_distr_r Rmult_plus_distr_l R1_neq_0.
Canonical R_ringType := Eval hnf in RingType R R_ringMixin.
Canonical R_comRingType := Eval hnf in ComRingType R Rmult_comm.

Definition Rinvx (r : R) := if r != R0 then Rinv r else r.
Definition unit_R (r : R) := r != R0.
Lemma RmultRinvx : {in unit_R, left_inverse R1 Rinvx Rmult}.
Proof. by move=> r rNZ; rewrite /Rinvx ifT // Rinv_l //; apply/eqP. Qed.
Lemma RinvxRmult : {in unit_R, right_inverse R1 Rinvx Rmult}.
Proof. by move=> r rNZ; rewrite /Rinvx ifT // Rinv_r //; apply/eqP. Qed.
Lemma intro_unit_R x y : Rmult y x = R1 /\ Rmult x y = R1 -> unit_R x.
Proof. by move=> [yx1 _]; apply/eqP => x0; move: yx1; rewrite x0 Rmult_0_r => /esym; exact: R1_neq_R0. Qed.
Lemma Rinvx_out : {in predC unit_R, Rinvx =1 id}.
Proof. by move=> x; rewrite inE /= /Rinvx -if_neg => ->. Qed.
Definition R_unitRingMixin := UnitRingMixin RmultRinvx RinvxRmult intro_unit_R Rinvx_out.
Canonical R_unitRing := Eval hnf in UnitRingType R R_unitRingMixin.
Canonical R_comUnitRingType := Eval hnf in [comUnitRingType of R].
Lemma R_idomainMixin x y : Rmult x y = R0 -> (x == R0) || (y == R0).
Proof. by case/Rmult_integral => ->; rewrite eqxx ?orbT. Qed.
Canonical R_idomainType := Eval hnf in IdomainType R R_idomainMixin.
Lemma R_field_mixin : GRing.Field.mixin_of [unitRingType of R]. Proof. by []. Qed.
Definition R_fieldIdomainMixin := FieldIdomainMixin R_field_mixin.
Canonical R_fieldType := FieldType R R_field_mixin.

Definition Rleb r1 r2 : bool := if Rle_dec r1 r2 is left _ then true else false.
Definition Rltb r1 r2 : bool := (r2 != r1) && Rleb r1 r2.
Lemma RlebP r1 r2 : reflect (r1 <= r2)%coqR (Rleb r1 r2).
Proof. by rewrite /Rleb; apply: (iffP idP); case: Rle_dec. Qed.

Section RealNum.
Lemma Rleb0D x y : Rleb R0 x -> Rleb R0 y -> Rleb R0 (Rplus x y).
Proof. by move=> /RlebP Hx /RlebP Hy; apply/RlebP; lra. Qed.
Lemma Rleb0M x y : Rleb R0 x -> Rleb R0 y -> Rleb R0 (Rmult x y).
Proof. by move=> /RlebP Hx /RlebP Hy; apply/RlebP; apply: Rmult_le_pos. Qed.
Lemma Rleb0_anti x : Rleb R0 x -> Rleb x R0 -> x = R0.
Proof. by move=> /RlebP Hx /RlebP Hy; apply: Rle_antisym. Qed.
Lemma Rleb_sub x y : Rleb R0 (y - x)%coqR = Rleb x y.
Proof. by apply/RlebP/RlebP => H; lra. Qed.
Lemma Rleb0_total x : Rleb R0 x || Rleb x R0.
Proof. by apply/orP; case: (Rle_or_lt R0 x) => H; [left|right]; apply/RlebP; lra. Qed.
Lemma Rleb_norm x : Rleb R0 x -> Rabs x = x.
Proof. by move=> /RlebP H; apply: Rabs_pos_eq. Qed.
End RealNum.
Definition R_numMixin := RealLeMixin Rleb0D Rleb0M Rleb0_anti Rleb_sub Rleb0_total Rabs_Ropp Rleb_norm (fun _ _ => erefl).
Canonical R_porderType := POrderType ring_display R R_numMixin.
Canonical R_latticeType := LatticeType R R_numMixin.
Canonical R_distrLatticeType := DistrLatticeType R R_numMixin.
Canonical R_orderType := OrderType R R_numMixin.
Canonical R_numDomainType := NumDomainType R R_numMixin.
Canonical R_normedZmodType := NormedZmodType R R R_numMixin.
Canonical R_numFieldType := [numFieldType of R].
Canonical R_realDomainType := [realDomainType of R].
Canonical R_realFieldType := [realFieldType of R].

Import Num.Theory Order.TTheory.
Lemma leRP (x y : R) : reflect (x <= y)%coqR (x <= y)%O. Proof. exact: RlebP. Qed.
Lemma ltRP (x y : R) : reflect (x < y)%coqR (x < y)%O.
Proof.
rewrite lt_neqAle; apply: (iffP andP).
- by case=> /eqP N /leRP [|].
- by move=> H; split; [apply/eqP => E; lra|apply/leRP; lra].
Qed.

(** polynomials are continuous, hence R is real closed *)
Lemma continuity_poly (p : {poly R}) : continuity (fun x => p.[x])%R.
Proof.
elim/poly_ind: p => [|p c IH].
  have -> : (fun x => (0 : {poly R}).[x])%R = (fun _ => 0%R) by apply: functional_extensionality_dep => x; rewrite horner0.
  by apply: continuity_const.
have -> : (fun x => (p * 'X + c%:P).[x])%R = (fun x => ((fun x => p.[x]) x * id x) + (fun _ => c) x)%R.
  by apply: functional_extensionality_dep => x; rewrite hornerD hornerMX hornerC.
apply: continuity_plus; last exact: continuity_const.
apply: continuity_mult => //; exact: derivable_continuous derivable_id.
Qed.
Lemma R_real_closed : Num.real_closed_axiom [numDomainType of R].
Proof.
move=> p a b ab /andP [pa pb].
have [Ea|Na] := eqVneq (p.[a])%R 0%R; first by exists a; [rewrite lexx|apply/eqP].
have [Eb|Nb] := eqVneq (p.[b])%R 0%R; first by exists b; [rewrite ab lexx|apply/eqP].
have La : (Rlt (p.[a])%R R0) by apply/ltRP; rewrite lt_neqAle Na.
have Lb : (Rlt R0 (p.[b])%R) by apply/ltRP; rewrite lt_neqAle eq_sym Nb.
have Lab : (a < b)%coqR.
  apply/ltRP; rewrite lt_neqAle ab andbT; apply/eqP => E; move: La Lb; rewrite E; lra.
have [z [[az zb] pz]] := IVT (fun x => p.[x])%R a b (continuity_poly p) Lab La Lb.
by exists z; [apply/andP; split; apply/leRP|apply/eqP].
Qed.
Canonical R_rcfType := RcfType R R_real_closed.

(** logarithm and exponential in MathComp's notation *)
Lemma RaddE (x y : R) : Rplus x y = (x + y)%R. Proof. by []. Qed.
Lemma RmulE (x y : R) : Rmult x y = (x * y)%R. Proof. by []. Qed.
Lemma RoppE (x : R) : Ropp x = (- x)%R. Proof. by []. Qed.
Lemma RsubE (x y : R) : Rminus x y = (x - y)%R. Proof. by []. Qed.
Lemma RinvE (x : R) : x != 0%R -> Rinv x = (x^-1)%R. Proof. by rewrite /GRing.inv /= /Rinvx => ->. Qed.
Lemma RdivE (x y : R) : y != 0%R -> Rdiv x y = (x / y)%R. Proof. by move=> H; rewrite /Rdiv RinvE. Qed.
Lemma INRE n : INR n = (n%:R)%R.
Proof. by elim: n => // n IH; rewrite S_INR IH RaddE -addn1 natrD. Qed.
Lemma lnM (x y : R) : (0 < x)%R -> (0 < y)%R -> ln (x * y)%R = (ln x + ln y)%R.
Proof. by move=> /ltRP Hx /ltRP Hy; rewrite ln_mult. Qed.
Lemma lnV (x : R) : (0 < x)%R -> ln (x^-1)%R = (- ln x)%R.
Proof. by move=> Hx; rewrite -RinvE ?gt_eqF // ln_Rinv //; apply/ltRP. Qed.
Lemma ln_le_sub1 (x : R) : (0 < x)%R -> (ln x <= x - 1)%R.
Proof.
move=> /ltRP Hx; apply/leRP; have := exp_ineq1_le (ln x); rewrite exp_ln // => H.
rewrite -RsubE; change (1%R) with R1; lra.
Qed.
Lemma ln1 : ln (1 : R)%R = 0%R. Proof. exact: ln_1. Qed.
Lemma ln_le_mono (x y : R) : (0 < x)%R -> (x <= y)%R -> (ln x <= ln y)%R.
Proof.
move=> /ltRP Hx /leRP [H|->]; apply/leRP; [left; exact: ln_increasing|right; reflexivity].
Qed.
Lemma ln_lt_mono (x y : R) : (0 < x)%R -> (x < y)%R -> (ln x < ln y)%R.
Proof. by move=> /ltRP Hx /ltRP H; apply/ltRP; exact: ln_increasing. Qed.
Lemma ln_prod (I : Type) (s : seq I) (F : I -> R) : (forall i, 0 < F i)%R -> ln (\prod_(i <- s) F i)%R = (\sum_(i <- s) ln (F i))%R.
Proof.
move=> H; elim: s => [|a s IH]; first by rewrite !big_nil ln1.
by rewrite !big_cons lnM // ?IH // prodr_gt0.
Qed.
