(** Shared vocabulary of the list-style models.

    Python exceptions are values: a function that can raise returns [res A].
    [Err] carries a tag naming the exception, so that "raises" is observable. *)
From Coq Require Export List Arith ZArith Lia Bool String Ascii.
From Coq Require Import DecimalString DecimalNat.
Export ListNotations.

Inductive res (A : Type) : Type :=
| Ok (a : A)
| Err (exc : string).
Arguments Ok {A} a.
Arguments Err {A} exc.

Definition bind {A B} (r : res A) (f : A -> res B) : res B :=
  match r with Ok a => f a | Err e => Err e end.

Definition is_ok {A} (r : res A) : bool := match r with Ok _ => true | Err _ => false end.

(** Python's [str(i)] for a non-negative int: decimal digits. *)
Definition py_str (n : nat) : string := NilEmpty.string_of_uint (Nat.to_uint n).
Arguments py_str : simpl never.

(** itertools.compress(data, selectors): keeps data[i] when selectors[i]; stops at the shorter. *)
Fixpoint compress {A} (data : list A) (sel : list bool) : list A :=
  match data, sel with
  | d :: ds, s :: ss => if s then d :: compress ds ss else compress ds ss
  | _, _ => []
  end.

(** numpy boolean column indexing x[:, mask]: IndexError unless the mask has one entry per column. *)
Definition np_mask {A} (cols : list A) (mask : list bool) : res (list A) :=
  if Nat.eqb (List.length mask) (List.length cols) then Ok (compress cols mask) else Err "IndexError".

(** s.startswith(p) *)
Definition startswith (p s : string) : bool := String.prefix p s.

(** s[2:] *)
Definition drop2 (s : string) : string := substring 2 (String.length s - 2) s.
