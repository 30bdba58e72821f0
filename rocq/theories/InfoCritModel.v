(** Information criteria and likelihood ratio.  spreg/diagnostics.py, with the real logarithm of the standard library. *)
From Coq Require Import Reals Lra ZArith Lia.
Open Scope R_scope.

(** spreg/diagnostics.py:371-426 log_likelihood *)
Definition log_likelihood (n : nat) (utu : R) : R :=
  - (1 / 2) * (INR n * ln (2 * PI) + INR n * ln (utu / INR n) + utu / (utu / INR n)).

(** spreg/diagnostics.py:429-490 akaike; logll = Some l when the object has the attribute (ML models) *)
Definition akaike (n k : nat) (utu : R) (logll : option R) : R :=
  match logll with
  | Some l => 2 * INR k - 2 * l
  | None => 2 * INR k + INR n * (ln ((2 * PI * utu) / INR n) + 1)
  end.

(** spreg/diagnostics.py:493-554 schwarz *)
Definition schwarz (n k : nat) (utu : R) (logll : option R) : R :=
  match logll with
  | Some l => INR k * ln (INR n) - 2 * l
  | None => INR k * ln (INR n) + INR n * (ln ((2 * PI * utu) / INR n) + 1)
  end.

(** spreg/diagnostics.py:1318-1398 likratiotest: statistic and degrees of freedom; None = the exception for a missing logll *)
Definition likratiotest (l0 l1 : option R) (k0 k1 : Z) : option (R * Z) :=
  match l0, l1 with
  | Some a, Some b =>
      let likr := 2 * (b - a) in
      let likr := if Rlt_dec likr 0 then - likr else likr in
      let df := (k1 - k0)%Z in
      let df := if (0 <? df)%Z then df else 1%Z in
      Some (likr, df)
  | _, _ => None
  end.
