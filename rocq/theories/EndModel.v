(** Endogenous regimes: OLS_Endog_Regimes, TSLS_Endog_Regimes and GM_Lag_Endog_Regimes.
    The spanning forest of the standardised x is the argument [E]; [ssr] is the regression oracle of SkaterModel.  Scores are exact numbers; np.inf and nan are None.
    The regression on the chosen regimes is not modelled here (LinReg*, RegMulti*, GlrModel): the result is its list of regimes and its switches.
    n * 0.70 // quorum is computed exactly.  Which exception is raised, not its text. *)
From mathcomp Require Import all_ssreflect all_algebra.
From Verif Require Import SkaterModel OptkModel.
Set Implicit Arguments.
Unset Strict Implicit.
Unset Printing Implicit Defensive.
Import Order.TTheory GRing.Theory Num.Theory.
Local Open Scope ring_scope.

(** the three classes; spreg/ols_regimes.py:1044-1086, spreg/twosls_regimes.py:1062-1104, spreg/twosls_sp_regimes.py:1315-1357 *)
Inductive kind := EOLS | ETSLS | EGMLag.
(** exceptions: ValueError before the search, ZeroDivisionError, an exception of the search, UnboundLocalError or AttributeError after the search,
    IndexError of _trace, an exception of optim_k, and the checks of the regimes class *)
Inductive exn := NotCompatible | DivZero | Search | NoResult | NoTrace | BadIndex | BadChoice | NotAList | BadLength | FewRegimes | FewObs.
(** the call of the regimes class, and the attributes *)
Record call_ (R : Type) := Call { c_regimes : seq nat; c_const_many : bool; c_cols_all : bool; c_err_sep : bool;
  a_score : option R; a_SSR : seq (option R); a_warn : bool }.
Inductive out (R : Type) := Exn (e : exn) | Run (c : call_ R).
Arguments Exn {R}.

Section Endog.
Variables (R : rcfType) (n : nat) (ssr : seq nat -> option R).

(** spreg/skater_reg.py:277-279 and 328-329: the list _trace.  The first entry is ([], deletion(nan, nan, inf)); a failed search for a cut appends (None, deletion(None, None, inf)) *)
Definition entry := (option (seq nat) * option R)%type.
Definition py_trace (tr : seq (seq nat * edge * R)) (warned : bool) : seq entry :=
  (Some [::], None) :: [seq (Some p.1.1, Some p.2) | p <- tr] ++ (if warned then [:: (None, None)] else [::]).
(** _trace[i][1][2] for i in range(1, len(_trace)) *)
Definition scores (t : seq entry) : seq (option R) := [seq p.2 | p <- behead t].

(** spreg/utils.py:851-868 optim_k (OptkModel) on a list whose last entry may be np.inf: inf is compared only as trace[i+window_size], and inf < x is False *)
Fixpoint pass (l : seq (option R)) : seq R := match l with Some x :: l' => x :: pass l' | _ => [::] end.
Fixpoint optk_loop_inf (l : seq (option R)) w (fuel i : nat) (last : bool) : nat :=
  if fuel is f.+1 then
    if last && (i < size l - w)%N then optk_loop_inf l w f i.+1 ((i + w < size (pass l))%N && optk_test (pass l) w i) else i
  else i.
Definition optim_k_inf (l : seq (option R)) : option nat :=
  let N := size l in
  let w := optk_window None N in
  if N == 0%N then None else Some (optk_loop_inf l w (N - w).+1 0 true + w)%N.

(** quorum = np.max([(x_constant.shape[1]+1)*10, 30]) when negative (None here); spreg/ols_regimes.py:1059-1060, spreg/twosls_regimes.py:1079-1080;
    spreg/twosls_sp_regimes.py:1330-1331 counts the columns of x, constants included.  [cols]: columns of x, [consts]: how many of them are constant *)
Definition quorum_of (k : kind) (cols consts : nat) (quorum : option nat) : nat :=
  if quorum is Some q then q else maxn (((if k is EGMLag then cols else cols - consts) + 1) * 10) 30.

(** spreg/user_output.py:841-865 check_regi_args; err_flag is False for GM_Lag *)
Definition err_flag (k : kind) : bool := if k is EGMLag then false else true.
Definition regi_warn (k : kind) (const_many cols_all err_sep : bool) : bool := ~~ const_many || ~~ cols_all || (err_sep != err_flag k).

(** the start of OLS_Regimes / TSLS_Regimes / GM_Lag_Regimes: check_reg_list and check_regimes (spreg/user_output.py:801-838); [K] = x_constant.shape[1] *)
Definition start (k : kind) (K : nat) (labels : option (seq nat)) (score : option R) (SSR : seq (option R)) (warn : bool) : out R :=
  match labels with
  | None => Exn NotAList
  | Some l =>
    if size l != n then Exn BadLength
    else if (size (undup l) < 2)%N then Exn FewRegimes
    else if (n < (K + 1) * size (undup l))%N then Exn FewObs
    else Run (Call l true true (err_flag k) score SSR warn)
  end.

(** spreg/ols_regimes.py:1044-1086 (likewise spreg/twosls_regimes.py:1062-1104, spreg/twosls_sp_regimes.py:1315-1357).
    n_clusters None or 0: automatic.  E: the minimum spanning forest; islands='increase' is fit's default *)
Definition endog (k : kind) (cols consts : nat) (n_clusters quorum : option nat) (trace const_many cols_all err_sep : bool) (E : forest_t) : out R :=
  let warn := regi_warn k const_many cols_all err_sep in
  let q := quorum_of k cols consts quorum in
  let K := (cols - consts)%N in
  let auto :=
    if q == 0%N then Exn DivZero else
    let m := ((7 * n) %/ (10 * q))%N in
    if (m < 2)%N then Exn NotCompatible else
    match fit n ssr m q false E with
    | Raise => Exn Search
    | Fitted _ _ tr warned =>
      let t := py_trace tr warned in
      match optim_k_inf (scores t) with
      | None => Exn BadChoice
      | Some r => if (r.-1 < size t)%N then let e := nth (None, None) t r.-1 in start k K e.1 e.2 (scores t) warn else Exn BadIndex
      end
    end in
  match n_clusters with
  | Some c =>
    if c == 0%N then auto else
    match fit n ssr c q false E with
    | Raise => Exn NoResult                 (* printed, then sk_reg_results is unbound *)
    | Fitted labels _ tr warned =>
      if trace then let t := py_trace tr warned in start k K labels (last (None, None) t).2 (scores t) warn
      else Exn NoTrace                      (* the attribute _trace does not exist *)
    end
  | None => auto
  end.
End Endog.
