(** Specification: the derivative of a matrix that depends on a real number, entry by entry. *)
From Coq Require Import Reals.
From mathcomp Require Import all_ssreflect all_algebra.
From Verif Require Import Rinst.
Set Implicit Arguments.
Unset Strict Implicit.
Unset Printing Implicit Defensive.
Local Open Scope ring_scope.

Definition mx_deriv m n (f : R -> 'M[R]_(m, n)) (a : R) (M : 'M[R]_(m, n)) : Prop := forall i j, derivable_pt_lim (fun t => f t i j) a (M i j).
