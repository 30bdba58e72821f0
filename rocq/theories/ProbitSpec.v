(** What the theorems on probit assume of the distribution function Phi and the density phi (NormalDist.v shows that they exist). *)
From Coq Require Import Reals.
From mathcomp Require Import all_ssreflect all_algebra.
From Verif Require Import Rinst.
Set Implicit Arguments.
Unset Strict Implicit.
Unset Printing Implicit Defensive.
Import Order.TTheory GRing.Theory Num.Theory.
Local Open Scope ring_scope.

(** phi is the derivative of Phi, phi' (t) = - t phi t, phi > 0, Phi increases from 0 and is symmetric about 1/2 *)
Record std_normal (Phi phi : R -> R) : Prop := StdNormal {
  sn_cdf : forall t, derivable_pt_lim Phi t (phi t);
  sn_pdf : forall t, derivable_pt_lim phi t (- t * phi t);
  sn_pos : forall t, 0 < phi t;
  sn_cdf_pos : forall t, 0 < Phi t;
  sn_sym : forall t, Phi (- t) = 1 - Phi t;
  sn_even : forall t, phi (- t) = phi t;
  sn_tail : forall e, 0 < e -> exists s, forall t, t < s -> Phi t < e }.

(** g is the gradient of f at b: the derivative along every direction d is g . d *)
Definition is_gradient k (f : 'cV[R]_k -> R) (b : 'cV[R]_k) (g : 'rV[R]_k) : Prop :=
  forall d : 'cV[R]_k, derivable_pt_lim (fun t => f (b + t *: d)) 0 ((g *m d) 0 0).
(** H is the Jacobian of the vector function g at b *)
Definition is_jacobian k m (g : 'cV[R]_k -> 'cV[R]_m) (b : 'cV[R]_k) (H : 'M[R]_(m, k)) : Prop :=
  forall (d : 'cV[R]_k) j, derivable_pt_lim (fun t => g (b + t *: d) j 0) 0 ((H *m d) j 0).
