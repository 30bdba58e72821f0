(** Number of regimes from the trace of SSR: spreg/utils.py:817-870 optim_k.  Exact arithmetic over a real closed field (numpy std uses sqrt). *)
From mathcomp Require Import all_ssreflect all_algebra.
Set Implicit Arguments.
Unset Strict Implicit.
Unset Printing Implicit Defensive.
Import Order.TTheory GRing.Theory Num.Theory.
Local Open Scope ring_scope.

Section Optk.
Variable R : rcfType.
Implicit Types (trace l : seq R) (w i : nat).
(** Python l[a:b] for 0 <= a *)
Definition slice (a b : nat) l : seq R := take (b - a) (drop a l).
Definition np_sum l : R := \sum_(x <- l) x.
Definition np_mean l : R := np_sum l / (size l)%:R.
(** np.std *)
Definition np_std l : R := Num.sqrt ((\sum_(x <- l) (x - np_mean l) ^+ 2) / (size l)%:R).
(** np.arange(1, m + 1) * l for a list l of length m *)
Definition arange_mul l : seq R := [seq p.1%:R * p.2 | p <- zip (iota 1 (size l)) l].
(** spreg/utils.py:852-855; None and 0 are both false in Python *)
Definition optk_window (window : option nat) (N : nat) : nat :=
  match window with
  | Some (w.+1) => w.+1
  | _ => let w := (N %/ 4)%N in if (w < 2)%N then N else w
  end.
(** spreg/utils.py:861-863 *)
Definition optk_b trace w i : R :=
  let part := slice w.-1 (i + w) trace in
  (6%:R / (w%:R * (w%:R * w%:R - 1))) * (2%:R * np_sum (arange_mul part) - (w%:R + 1) * np_sum part).
(** spreg/utils.py:857 np.convolve(trace, ones(w) / w, mode='valid')[i] for w <= N: the mean of trace[i:i+w] *)
Definition optk_ma trace w i : R := np_sum [seq x * (1 / w%:R) | x <- slice i (i + w) trace].
(** spreg/utils.py:864-865: the value appended to the list of comparisons *)
Definition optk_test trace w i : bool :=
  let b := optk_b trace w i in
  let l := (w%:R - 1) * b / 2%:R in
  nth 0 trace (i + w) < optk_ma trace w i - b - l - (11%:R / 4%:R) * np_std (slice i (i + w) trace).
(** spreg/utils.py:858-867: while threshold[-1] and i < N - window_size; [last] is threshold[-1]; fuel: at most N - w passes *)
Fixpoint optk_loop trace w (fuel i : nat) (last : bool) : nat :=
  if fuel is f.+1 then
    if last && (i < size trace - w)%N then optk_loop trace w f i.+1 (optk_test trace w i) else i
  else i.
(** spreg/utils.py:851-868.  None: an exception (np.convolve of an empty list; division by w (w w - 1) = 0 in the first pass). *)
Definition optim_k trace (window : option nat) : option nat :=
  let N := size trace in
  let w := optk_window window N in
  if N == 0%N then None
  else if (w == 1%N) && (w < N)%N then None
  else Some (optk_loop trace w (N - w).+1 0 true + w)%N.
End Optk.
