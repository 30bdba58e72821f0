(** Specification vocabulary for regimes: which variable of which regime each column of the design is about.
    Independent of the model. *)
From Coq Require Import String List Arith.
Import ListNotations.
Open Scope list_scope.

(** positions of the columns whose mask entry is b, increasing *)
Definition positions (b : bool) (mask : list bool) : list nat :=
  filter (fun j => Bool.eqb b (nth j mask (negb b))) (seq 0 (List.length mask)).

(** the columns of a regimes design, left to right: for each regime in order all varying variables, then the global ones *)
Definition layout {ID} (regimes_set : list ID) (mask : list bool) : list (option ID * nat) :=
  flat_map (fun r => map (fun j => (Some r, j)) (positions true mask)) regimes_set
  ++ map (fun j => (None, j)) (positions false mask).

(** value of a column for an observation of regime r with variables row *)
Definition cell {F ID} (f0 : F) (ideq : forall a b : ID, {a = b} + {a <> b}) (row : list F) (r : ID) (d : option ID * nat) : F :=
  match fst d with
  | Some s => if ideq r s then nth (snd d) row f0 else f0
  | None => nth (snd d) row f0
  end.

Definition regime_label (names : list string) (d : option string * nat) : string :=
  match fst d with
  | Some r => (r ++ "_" ++ nth (snd d) names "")%string
  | None => ("_Global_" ++ nth (snd d) names "")%string
  end.
Definition regime_tag (d : option string * nat) : string :=
  match fst d with Some r => r | None => "_Global"%string end.

(** finite sum and scalar product *)
Definition vsum {F} (f0 : F) (fadd : F -> F -> F) (l : list F) : F := fold_right fadd f0 l.
Definition vdot {F} (f0 : F) (fadd fmul : F -> F -> F) (a b : list F) : F :=
  vsum f0 fadd (map (fun p => fmul (fst p) (snd p)) (combine a b)).
