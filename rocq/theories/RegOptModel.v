(** The options of the regimes classes: which of OLS_Regimes, TSLS_Regimes, GM_Lag_Regimes runs one regression per regime, and which covariance
    matrix is reported. *)
From Coq Require Import String Bool List.
From Verif Require Import PyBase ChecksModel.
Import ListNotations.
Open Scope string_scope.
Open Scope bool_scope.

(** gwk: None, a libpysal Kernel object, or another weights object (truthy) *)
Inductive gwk_arg := GNone | GKernel (k : kern) | GOther.
Definition truthy_gwk (g : gwk_arg) : bool := match g with GNone => false | _ => true end.
Definition as_kernel (g : gwk_arg) : option kern := match g with GKernel k => Some k | _ => None end.

(** the options which matter here; o_vary: every column of x (and yend) varies by regime, set(cols2regi) == set([True]) before the lag's
    entry is appended; o_many: constant_regi == "many" *)
Record ropts := ROpts { o_err_sep : bool; o_lag_sep : bool; o_robust : option string; o_gwk : gwk_arg; o_vary : bool; o_many : bool }.
(** covariance matrix reported: sig2 times the inverse, White's, the kernel's, the optimal GMM one *)
Inductive cov := CClassic | CWhite | CHac | COgmm.
(** What the constructor has done.  r_weighted: the second, weighted OLS; r_warn: "The error by regimes has been disabled"; r_warn2: "error and lag by
    regimes have been disabled"; r_hac_multi: robust.hac_multi was called; r_label: robust as stored *)
Record outcome := Outcome { r_multi : bool; r_cov : cov; r_weighted : bool; r_err_sep : bool; r_lag_sep : bool; r_warn : bool; r_warn2 : bool;
  r_hac_multi : bool }.

(** robust == s in Python *)
Definition is (robust : option string) (s : string) : bool := match robust with Some r => String.eqb r s | None => false end.
(** truth of robust *)
Definition truthy (robust : option string) : bool := match robust with Some r => negb (String.eqb r "") | None => false end.
(** spreg/robust.py:103-112 robust_vm: the kernel if gwk is given, White's otherwise *)
Definition robust_vm_cov (gwk : bool) : cov := if gwk then CHac else CWhite.
(** spreg/ols.py:124-125 (if robust is not None) *)
Definition base_ols_cov (robust : option string) (gwk : bool) : cov :=
  match robust with Some _ => robust_vm_cov gwk | None => CClassic end.
(** spreg/twosls.py:193-194 (if robust) *)
Definition base_tsls_cov (robust : option string) (gwk : bool) : cov := if truthy robust then robust_vm_cov gwk else CClassic.

(** spreg/ols_regimes.py:420-516 with 560-675 (_ols_regimes_multi) and 693-704 (_work); after check_robust *)
Definition ols_regimes (o : ropts) : outcome :=
  let hac := is (o_robust o) "hac" in
  let warn := hac && o_err_sep o in
  let err_sep := if hac then (if o_err_sep o then false else o_err_sep o) else o_err_sep o in
  if err_sep && o_vary o && o_many o then
    let robust := if hac then None else o_robust o in
    Outcome true (base_ols_cov robust false) false err_sep false warn false hac
  else
    let weighted := err_sep && match o_robust o with None => true | Some _ => false end in
    Outcome false (if weighted then CClassic else base_ols_cov (o_robust o) (truthy_gwk (o_gwk o))) weighted err_sep false warn false false.

(** spreg/twosls_regimes.py:345-456 with 613-620 and 650-680 (_work); after check_robust *)
Definition tsls_regimes (o : ropts) : outcome :=
  let hac := is (o_robust o) "hac" in
  let warn := hac && o_err_sep o in
  let err_sep := if hac then (if o_err_sep o then false else o_err_sep o) else o_err_sep o in
  if err_sep && o_vary o && o_many o then
    let robust2 := if hac || is (o_robust o) "ogmm" then None else o_robust o in
    let c := if is (o_robust o) "ogmm" then COgmm else base_tsls_cov robust2 false in
    Outcome true c false err_sep false warn false hac
  else
    let c := if is (o_robust o) "ogmm" then COgmm else base_tsls_cov (o_robust o) (truthy_gwk (o_gwk o)) in
    Outcome false c false err_sep false warn false false.

(** spreg/twosls_sp_regimes.py:485-640 with 871-872 and 928-989 (_work); after check_robust.  Simplified: the warnings of the first two rules are left out. *)
Definition gm_lag_regimes (o : ropts) : outcome :=
  let hac := is (o_robust o) "hac" in
  let err := if o_lag_sep o && negb (o_err_sep o) then true else o_err_sep o in
  let err := if err && negb (o_lag_sep o) then false else err in
  let warn := hac && err in
  let err := if hac then (if err then false else err) else err in
  let warn2 := err && hac in
  let err' := if warn2 then false else err in
  let lag := if warn2 then false else o_lag_sep o in
  let vary := o_vary o && lag in
  if err' && vary && o_many o then
    let robust2 := if hac || is (o_robust o) "ogmm" then None else o_robust o in
    let c := if is (o_robust o) "ogmm" then COgmm else base_tsls_cov robust2 false in
    Outcome true c false err' lag warn warn2 hac
  else
    let t := tsls_regimes (ROpts err' lag (o_robust o) (o_gwk o) vary (o_many o)) in
    Outcome (r_multi t) (r_cov t) (r_weighted t) err' lag (warn || r_warn t) warn2 (r_hac_multi t).

Inductive cls := OLS_Regimes | TSLS_Regimes | GM_Lag_Regimes.
(** the constructor: check_robust (spreg/ols_regimes.py:422, spreg/twosls_regimes.py:347, spreg/twosls_sp_regimes.py:489), then the rules above *)
Definition construct (c : cls) (o : ropts) : res outcome :=
  match check_robust (o_robust o) (as_kernel (o_gwk o)) with
  | Err e => Err e
  | Ok _ => Ok (match c with OLS_Regimes => ols_regimes o | TSLS_Regimes => tsls_regimes o | GM_Lag_Regimes => gm_lag_regimes o end)
  end.
