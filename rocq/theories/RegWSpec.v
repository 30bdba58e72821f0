(** Specification vocabulary for regime weights, by position of the observations. *)
From Verif Require Import PyBase RegWModel.
From Coq Require Import QArith Qcanon.
Open Scope list_scope.
Open Scope nat_scope.

Section S.
Context {ID R : Type} (ideq : forall a b : ID, {a = b} + {a <> b}) (req : forall a b : R, {a = b} + {a <> b}).

(** observation a has observation b as a neighbour *)
Definition linkb (w : W ID) (a b : nat) : bool :=
  match nth_error (w_ids w) a, nth_error (w_ids w) b with
  | Some i, Some j => if in_dec ideq j (map fst (nbrs ideq w i)) then true else false
  | _, _ => false
  end.

(** the observations of regime r, increasing *)
Definition obs_of (regimes : list R) (r : R) : list nat :=
  filter (fun i => match nth_error regimes i with Some s => if req s r then true else false | None => false end)
         (seq 0 (List.length regimes)).

(** a libpysal weights object: one neighbour list per id, no repeated neighbour, neighbours are ids *)
Definition valid_W (w : W ID) : Prop :=
  NoDup (w_ids w) /\ NoDup (map fst (w_nb w)) /\ (forall i, In i (map fst (w_nb w)) <-> In i (w_ids w)) /\
  (forall i, NoDup (map fst (nbrs ideq w i))) /\ (forall i, incl (map fst (nbrs ideq w i)) (w_ids w)).

(** the weight of a link in a row with deg equal links, under transform t *)
Definition link_weight (t : transf) (deg : nat) : Qc :=
  match t with TR => Qcdiv 1 (Q2Qc (inject_Z (Z.of_nat deg))) | _ => 1%Qc end.
Definition same_regime (regimes : list R) (a b : nat) : bool :=
  match nth_error regimes a, nth_error regimes b with Some r, Some s => if req r s then true else false | _, _ => false end.
End S.
