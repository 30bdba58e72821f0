(** Specification of "the lags of x" and of "a label that tells the truth". Independent of the model's loops. *)
From Verif Require Import PyBase.
Open Scope string_scope.
Open Scope nat_scope.

(** The text spreg documents for the m-th order spatial lag of variable v: v, W_v, W2_v, W3_v, ... *)
Definition lag_label (m : nat) (v : string) : string :=
  match m with
  | 0 => v
  | 1 => "W_" ++ v
  | _ => "W" ++ py_str m ++ "_" ++ v
  end.

Section Spec.
Context {C : Type} (lag : C -> C).

(** W^m c *)
Definition lagm (m : nat) (c : C) : C := Nat.iter m lag c.

(** the blocks W^from x, W^(from+1) x, ..., p of them, in this order *)
Definition lag_blocks (from p : nat) (x : list C) : list C :=
  flat_map (fun m => map (lagm m) x) (seq from p).

Definition label_blocks (from p : nat) (names : list string) : list string :=
  flat_map (fun m => map (lag_label m) names) (seq from p).

(** [cols] and [names] have the same length and every name tells the truth about the column in its position,
    relative to the original variables [vars] (pairs name, column). *)
Definition truthful (vars : list (string * C)) (cols : list C) (names : list string) : Prop :=
  Forall2 (fun c s => exists m v c0, In (v, c0) vars /\ s = lag_label m v /\ c = lagm m c0) cols names.
End Spec.
