(** Specification for optim_k: mean, standard deviation and least squares line of the window of w values before position j. *)
From mathcomp Require Import all_ssreflect all_algebra.
Set Implicit Arguments.
Unset Strict Implicit.
Unset Printing Implicit Defensive.
Local Open Scope ring_scope.
Section Spec.
Variable R : rcfType.
Implicit Types (z : nat -> R) (w j : nat).
(** the window before j: z (j - w), ..., z (j - 1) *)
Definition win z w j (t : nat) : R := z (j - w + t)%N.
Definition mean w (v : nat -> R) : R := (\sum_(t < w) v t) / w%:R.
Definition sd w (v : nat -> R) : R := Num.sqrt ((\sum_(t < w) (v t - mean w v) ^+ 2) / w%:R).
(** a + b t is the least squares line through (1, v 0), ..., (w, v (w - 1)) *)
Definition ls_line w (v : nat -> R) (a b : R) : Prop :=
  forall a' b', \sum_(t < w) (v t - (a + b * t.+1%:R)) ^+ 2 <= \sum_(t < w) (v t - (a' + b' * t.+1%:R)) ^+ 2.
(** Mojena's second rule for decreasing values: z j is a significant drop when it is more than 2.75 standard deviations of the window below the
    value the line through the window predicts for j, i.e. at t = w + 1 *)
Definition mojena z w j (drop : bool) : Prop :=
  forall a b, ls_line w (win z w j) a b -> drop = (z j < a + b * w.+1%:R - (11%:R / 4%:R) * sd w (win z w j)).
End Spec.
