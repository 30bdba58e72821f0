(** [ring] and [field] for MathComp fields: the goal is changed to one stated with the operations below, for which the standard
    library's tactics have been told the ring and field laws (a structure has to be declared in each section). *)
From mathcomp Require Import all_ssreflect all_algebra.
From Coq Require Import Ring Field.
Set Implicit Arguments.
Unset Strict Implicit.
Unset Printing Implicit Defensive.
Import Order.TTheory GRing.Theory Num.Theory.
Local Open Scope ring_scope.

Section Ops.
Variable R : realFieldType.
Definition p0 : R := 0.
Definition p1 : R := 1.
Definition padd (a b : R) : R := a + b.
Definition pmul (a b : R) : R := a * b.
Definition popp (a : R) : R := - a.
Definition psub (a b : R) : R := a - b.
Definition pinv (a : R) : R := a^-1.
Definition pdiv (a b : R) : R := a / b.
Definition pnat (k : nat) : R := k%:R.
Lemma p_rt : ring_theory p0 p1 padd pmul psub popp (@eq (Num.RealField.sort R)).
Proof. split; [exact: add0r|exact: addrC|exact: addrA|exact: mul1r|exact: mulrC|exact: mulrA|exact: mulrDl|by []|exact: subrr]. Qed.
Lemma p_ft : field_theory p0 p1 padd pmul psub popp pdiv pinv (@eq (Num.RealField.sort R)).
Proof. split; [exact: p_rt|exact/eqP/oner_neq0|by []|move=> p /eqP H; exact: mulVf]. Qed.
End Ops.

Ltac mprep R :=
  rewrite ?mulr2n ?mulr1n ?mulr0n;
  repeat match goal with
  | |- context [@GRing.natmul ?V ?x 2] => change (@GRing.natmul V x 2) with (@padd R x x)
  | |- context [@GRing.natmul ?V ?x 3] => change (@GRing.natmul V x 3) with (@padd R x (@padd R x x))
  | |- context [@GRing.natmul ?V ?x 4] => change (@GRing.natmul V x 4) with (@padd R x (@padd R x (@padd R x x)))
  | |- context [@GRing.natmul ?V (GRing.one _) ?k] => change (@GRing.natmul V (GRing.one _) k) with (@pnat R k)
  | |- context [@GRing.exp ?V ?x 2] => change (@GRing.exp V x 2) with (@pmul R x x)
  | |- context [@GRing.exp ?V ?x 3] => change (@GRing.exp V x 3) with (@pmul R x (@pmul R x x))
  | |- context [@GRing.exp ?V ?x 4] => change (@GRing.exp V x 4) with (@pmul R x (@pmul R x (@pmul R x x)))
  | |- context [@GRing.add ?V ?a ?b] => change (@GRing.add V a b) with (@padd R a b)
  | |- context [@GRing.mul ?V ?a ?b] => change (@GRing.mul V a b) with (@pmul R a b)
  | |- context [@GRing.opp ?V ?a] => change (@GRing.opp V a) with (@popp R a)
  | |- context [@GRing.inv ?V ?a] => change (@GRing.inv V a) with (@pinv R a)
  | |- context [@GRing.zero ?V] => change (@GRing.zero V) with (@p0 R)
  | |- context [@GRing.one ?V] => change (@GRing.one V) with (@p1 R)
  end;
  match goal with |- @eq _ ?a ?b => change (@eq (Num.RealField.sort R) a b) end.
Ltac mring R := mprep R; ring.
Ltac mfield R := mprep R; field.
