(** Lazily cached attributes: spreg/utils.py:23-186 (RegressionPropsY, RegressionPropsVM), spreg/utils.py:791-815 (RegressionProps_basic),
    spreg/ols.py:102-127 and spreg/ols_regimes.py:500-512, spreg/diagnostics_sp.py:162-188 (LMtests) and 443-544 (spDcache).
    A Python object is a record of fields and a dictionary [_cache]; methods are functions from a state to a result and a new state. *)
From mathcomp Require Import all_ssreflect all_algebra.
From Coq Require Import String.
From Verif Require Import LinRegModel LMModel.
Set Implicit Arguments.
Unset Strict Implicit.
Unset Printing Implicit Defensive.
Import Order.TTheory GRing.Theory Num.Theory.
Local Open Scope ring_scope.

Section Reg.
Variables (R : rcfType) (n k : nat).

Inductive skey := KUtu | KSig2n | KSig2nk | KMeanY | KStdY.
Definition skey_eqb (a b : skey) : bool :=
  match a, b with
  | KUtu, KUtu | KSig2n, KSig2n | KSig2nk, KSig2nk | KMeanY, KMeanY | KStdY, KStdY => true
  | _, _ => false
  end.
(** the dictionary: scalar entries and the entry "vm" *)
Record rcache := RCache { c_s : skey -> option R; c_vm : option 'M[R]_k }.
Definition empty_cache : rcache := RCache (fun _ => None) None.
Definition set_s (c : rcache) key v : rcache := RCache (fun q => if skey_eqb q key then Some v else c_s c q) (c_vm c).
Definition set_vm (c : rcache) v : rcache := RCache (c_s c) (Some v).

(** the object; r_cache = None: the attribute _cache does not exist yet *)
Record robj := Robj { r_x : 'M[R]_(n, k); r_y : 'cV[R]_n; r_xtxi : 'M[R]_k; r_betas : 'cV[R]_k; r_predy : 'cV[R]_n; r_u : 'cV[R]_n;
  r_sig2 : R; r_cache : option rcache }.
Definition with_cache (r : robj) c : robj := Robj (r_x r) (r_y r) (r_xtxi r) (r_betas r) (r_predy r) (r_u r) (r_sig2 r) c.
Definition with_u (r : robj) u : robj := Robj (r_x r) (r_y r) (r_xtxi r) (r_betas r) (r_predy r) u (r_sig2 r) (r_cache r).
Definition with_y (r : robj) y : robj := Robj (r_x r) y (r_xtxi r) (r_betas r) (r_predy r) (r_u r) (r_sig2 r) (r_cache r).
Definition with_sig2 (r : robj) s : robj := Robj (r_x r) (r_y r) (r_xtxi r) (r_betas r) (r_predy r) (r_u r) s (r_cache r).

(** the dictionary of the object, created on an AttributeError *)
Definition the_cache (r : robj) : rcache := if r_cache r is Some c then c else empty_cache.
Definition store (r : robj) key v : robj := with_cache r (Some (set_s (the_cache r) key v)).

(** np.mean, np.std(ddof=1) *)
Definition np_mean (y : 'cV[R]_n) : R := (\sum_i y i 0) / n%:R.
Definition np_std1 (y : 'cV[R]_n) : R := Num.sqrt ((\sum_i (y i 0 - np_mean y) ^+ 2) / (n%:R - 1)).

(** getters: lines 40-48 (mean_y), 59-67 (std_y), 99-107 (utu), 117-126 (sig2n), 137-146 (sig2n_k); the right-hand side is evaluated
    before the dictionary entry is written *)
Definition get_utu (r : robj) : R * robj :=
  if c_s (the_cache r) KUtu is Some v then (v, r) else let v := utu_of (r_u r) in (v, store r KUtu v).
Definition get_s (r : robj) (key : skey) : R * robj :=
  if c_s (the_cache r) key is Some v then (v, r) else
  match key with
  | KUtu => get_utu r
  | KSig2n => let '(utu, r1) := get_utu r in let v := utu / n%:R in (v, store r1 KSig2n v)
  | KSig2nk => let '(utu, r1) := get_utu r in let v := utu / (n%:R - k%:R) in (v, store r1 KSig2nk v)
  | KMeanY => let v := np_mean (r_y r) in (v, store r KMeanY v)
  | KStdY => let v := np_std1 (r_y r) in (v, store r KStdY v)
  end.
(** setters: lines 50-58, 69-77, 109-116, 128-136, 148-156 *)
Definition put_s (r : robj) key v : robj := store r key v.
(** lines 157-174 vm *)
Definition get_vm (r : robj) : 'M[R]_k * robj :=
  if c_vm (the_cache r) is Some v then (v, r) else
  let v := r_sig2 r *: r_xtxi r in (v, with_cache r (Some (set_vm (the_cache r) v))).
Definition put_vm (r : robj) v : robj := with_cache r (Some (set_vm (the_cache r) v)).
Definition clear_cache (r : robj) : robj := with_cache r (Some empty_cache).

(** what a program can do with the object *)
Inductive op := OGet (key : skey) | OGetVm | OPut (key : skey) (v : R) | OPutVm (v : 'M[R]_k)
  | OSetU (u : 'cV[R]_n) | OSetY (y : 'cV[R]_n) | OSetSig2 (s : R) | OClear.
Inductive val := VS (v : R) | VM (v : 'M[R]_k) | VNone.
Definition exec (r : robj) (p : op) : val * robj :=
  match p with
  | OGet key => let '(v, r') := get_s r key in (VS v, r')
  | OGetVm => let '(v, r') := get_vm r in (VM v, r')
  | OPut key v => (VNone, put_s r key v)
  | OPutVm v => (VNone, put_vm r v)
  | OSetU u => (VNone, with_u r u)
  | OSetY y => (VNone, with_y r y)
  | OSetSig2 s => (VNone, with_sig2 r s)
  | OClear => (VNone, clear_cache r)
  end.
Fixpoint run (r : robj) (ps : list op) : list val * robj :=
  match ps with
  | nil => (nil, r)
  | p :: ps' => let '(v, r1) := exec r p in let '(vs, r2) := run r1 ps' in (v :: vs, r2)
  end.

(** spreg/ols.py:102-127 BaseOLS.__init__ on a new object, with the cache as it is left behind; robust=None *)
Definition init_ols (y : 'cV[R]_n) (x : 'M[R]_(n, k)) (sig2n_k : bool) : option robj :=
  if la_inv (x^T *m x) is Some xtxi then
    let betas := xtxi *m (x^T *m y) in
    let predy := x *m betas in
    let u := y - predy in
    let r := Robj x y xtxi betas predy u 0 None in
    let '(s, r1) := get_s r (if sig2n_k then KSig2nk else KSig2n) in
    Some (with_sig2 r1 s)
  else None.
(** spreg/utils.py:791-815 RegressionProps_basic with betas and vm given; [sig2] = None when not passed (False is the number 0) *)
Definition props_basic (r : robj) (betas : 'cV[R]_k) (sig2 : option R) (sig2n_k : bool) (vm : 'M[R]_k) : robj :=
  let predy := r_x r *m betas in
  let u := r_y r - predy in
  let r1 := Robj (r_x r) (r_y r) (r_xtxi r) betas predy u (r_sig2 r) (r_cache r) in
  let r2 := with_sig2 r1 (match sig2 with
    | Some s => s
    | None => if sig2n_k then utu_of u / (n%:R - k%:R) else utu_of u / n%:R end) in
  put_vm r2 vm.
(** spreg/ols_regimes.py:506-512: regime_err_sep with robust=None.  g = regime of each observation; RegressionProps_basic is called
    without sig2 and sig2n_k *)
Definition ols_regimes_weighted m (g : 'I_n -> 'I_m) (y : 'cV[R]_n) (x : 'M[R]_(n, k)) (sig2n_k : bool) : option robj :=
  if init_ols y x sig2n_k is Some r then
    let '(y2, x2) := get_weighted_var g sig2n_k (r_u r) y x in
    if init_ols y2 x2 sig2n_k is Some r2 then
      let '(vm2, _) := get_vm r2 in
      Some (props_basic r (r_betas r2) None false vm2)
    else None
  else None.

(** spreg/diagnostics_sp.py:443-544 spDcache, typed entries of _cache *)
Variable W : 'M[R]_n.
Record spd := Spd { k_j : option R; k_wu : option 'cV[R]_n; k_utwuDs : option R; k_utwyDs : option R; k_t : option R;
  k_trA : option R; k_AB : option ('M[R]_k * 'M[R]_k) }.
Definition spd0 : spd := Spd None None None None None None None.
Definition st := (robj * spd)%type.
Definition g_t (s : st) : R * st :=
  let '(r, d) := s in
  if k_t d is Some v then (v, s) else
  let prod := (W^T + W) *m W in let v := \sum_i prod i i in
  (v, (r, Spd (k_j d) (k_wu d) (k_utwuDs d) (k_utwyDs d) (Some v) (k_trA d) (k_AB d))).
Definition g_wu (s : st) : 'cV[R]_n * st :=
  let '(r, d) := s in
  if k_wu d is Some v then (v, s) else
  let v := W *m r_u r in (v, (r, Spd (k_j d) (Some v) (k_utwuDs d) (k_utwyDs d) (k_t d) (k_trA d) (k_AB d))).
Definition g_sig2n (s : st) : R * st := let '(v, r') := get_s s.1 KSig2n in (v, (r', s.2)).
Definition g_utwuDs (s : st) : R * st :=
  if k_utwuDs s.2 is Some v then (v, s) else
  let '(wu, s1) := g_wu s in let '(s2n, s2) := g_sig2n s1 in
  let v := ((r_u s.1)^T *m wu) 0 0 / s2n in let d := s2.2 in
  (v, (s2.1, Spd (k_j d) (k_wu d) (Some v) (k_utwyDs d) (k_t d) (k_trA d) (k_AB d))).
Definition g_utwyDs (s : st) : R * st :=
  if k_utwyDs s.2 is Some v then (v, s) else
  let res := ((r_u s.1)^T *m (W *m r_y s.1)) 0 0 in let '(s2n, s2) := g_sig2n s in
  let v := res / s2n in let d := s2.2 in
  (v, (s2.1, Spd (k_j d) (k_wu d) (k_utwuDs d) (Some v) (k_t d) (k_trA d) (k_AB d))).
Definition g_j (s : st) : R * st :=
  if k_j s.2 is Some v then (v, s) else
  let r := s.1 in
  let wxb := W *m r_predy r in
  let wxb2 := (wxb^T *m wxb) 0 0 in
  let xwxb := (r_x r)^T *m wxb in
  let num1 := wxb2 - (xwxb^T *m (r_xtxi r *m xwxb)) 0 0 in
  let '(t, s1) := g_t s in let '(s2n, s2) := g_sig2n s1 in
  let num := num1 + t * s2n in
  let '(s2n', s3) := g_sig2n s2 in
  let den := n%:R * s2n' in
  let v := num / den in let d := s3.2 in
  (v, (s3.1, Spd (Some v) (k_wu d) (k_utwuDs d) (k_utwyDs d) (k_t d) (k_trA d) (k_AB d))).
Definition g_trA (s : st) : R * st :=
  if k_trA s.2 is Some v then (v, s) else
  let r := s.1 in let mw := r_xtxi r *m ((r_x r)^T *m (W *m r_x r)) in let v := \sum_i mw i i in let d := s.2 in
  (v, (r, Spd (k_j d) (k_wu d) (k_utwuDs d) (k_utwyDs d) (k_t d) (Some v) (k_AB d))).
Definition g_AB (s : st) : ('M[R]_k * 'M[R]_k) * st :=
  if k_AB s.2 is Some v then (v, s) else
  let r := s.1 in
  let U := 2%:R^-1 *: (W + W^T) in let z := U *m r_x r in let c1 := (r_x r)^T *m z in let c2 := z^T *m z in let G := r_xtxi r in
  let v := (G *m c1, G *m c2) in let d := s.2 in
  (v, (r, Spd (k_j d) (k_wu d) (k_utwuDs d) (k_utwyDs d) (k_t d) (k_trA d) (Some v))).

(** lines 547-678: the five tests on the shared cache, in the order of evaluation *)
Definition t_lme (s : st) : (R * nat) * st :=
  let '(a, s1) := g_utwuDs s in let '(t, s2) := g_t s1 in ((a ^+ 2 / t, 1%N), s2).
Definition t_lml (s : st) : (R * nat) * st :=
  let '(a, s1) := g_utwyDs s in let '(j, s2) := g_j s1 in ((a ^+ 2 / (n%:R * j), 1%N), s2).
Definition t_rlme (s : st) : (R * nat) * st :=
  let '(j, s1) := g_j s in let nj := n%:R * j in
  let '(a, s2) := g_utwuDs s1 in let '(t, s3) := g_t s2 in let '(b, s4) := g_utwyDs s3 in
  let num := (a - (t * b) / nj) ^+ 2 in
  let '(t1, s5) := g_t s4 in let '(t2, s6) := g_t s5 in
  let den := t1 * (1 - t2 / nj) in ((num / den, 1%N), s6).
Definition t_rlml (s : st) : (R * nat) * st :=
  let '(b, s1) := g_utwyDs s in let '(a, s2) := g_utwuDs s1 in let '(j, s3) := g_j s2 in let '(t, s4) := g_t s3 in
  (((b - a) ^+ 2 / (n%:R * j - t), 1%N), s4).
Definition t_sarma (s : st) : (R * nat) * st :=
  let '(b, s1) := g_utwyDs s in let '(a, s2) := g_utwuDs s1 in let '(j, s3) := g_j s2 in let '(t, s4) := g_t s3 in
  let first := (b - a) ^+ 2 / (n%:R * j - t) in
  let '(a', s5) := g_utwuDs s4 in let '(t', s6) := g_t s5 in
  let secnd := a' ^+ 2 / t' in ((first + secnd, 2%N), s6).

(** lines 162-188 LMtests.__init__.  [wx], [sdm]: lm_wx and lm_spdurbin of the regression (None: singular); attributes in the order set *)
Definition mem_s (t : string) (ts : list string) : bool := List.existsb (String.eqb t) ts.
Definition any_in (names ts : list string) : bool := List.existsb (fun t => mem_s t names) ts.
Definition attrs := list (string * (R * nat)).
Fixpoint getattr (a : attrs) (nm : string) : option (R * nat) :=
  match a with nil => None | (m, v) :: a' => if String.eqb m nm then Some v else getattr a' nm end.
Definition step (b : bool) (nm : string) (f : attrs -> st -> option ((R * nat) * st)) (s : option (attrs * st)) : option (attrs * st) :=
  if b then
    if s is Some (a, s1) then if f a s1 is Some (v, s2) then Some ((nm, v) :: a, s2) else None else None
  else s.
Definition lift_t (f : st -> (R * nat) * st) : attrs -> st -> option ((R * nat) * st) := fun _ s => Some (f s).
Definition const_t (v : option (R * nat)) : attrs -> st -> option ((R * nat) * st) := fun _ s => if v is Some w then Some (w, s) else None.
Definition from2 (a b : string) (g : R * nat -> R * nat -> R * nat) : attrs -> st -> option ((R * nat) * st) := fun at_ s =>
  match getattr at_ a, getattr at_ b with Some v, Some w => Some (g v w, s) | _, _ => None end.
Local Open Scope string_scope.
Definition all_tests : list string :=
  [:: "lme"; "lml"; "rlme"; "rlml"; "sarma"; "lmwx"; "lmspdurbin"; "rlmwx"; "rlmdurlag"; "lmslxerr"].
Definition expand (tests : list string) : list string :=
  match tests with [:: t] => if String.eqb t "all" then all_tests else tests | _ => tests end.
Definition lm_tests (wx sdm : option (R * nat)) (r : robj) (tests : list string) : option (attrs * st) :=
  let ts := expand tests in
  let s0 : option (attrs * st) := Some (nil, (r, spd0)) in
  let s1 := step (any_in [:: "lme"; "lmslxerr"] ts) "lme" (lift_t t_lme) s0 in
  let s2 := step (any_in [:: "lml"; "rlmwx"] ts) "lml" (lift_t t_lml) s1 in
  let s3 := step (mem_s "rlme" ts) "rlme" (lift_t t_rlme) s2 in
  let s4 := step (mem_s "rlml" ts) "rlml" (lift_t t_rlml) s3 in
  let s5 := step (mem_s "sarma" ts) "sarma" (lift_t t_sarma) s4 in
  let s6 := step (any_in [:: "lmwx"; "rlmdurlag"; "lmslxerr"] ts) "lmwx" (const_t wx) s5 in
  let s7 := step (any_in [:: "lmspdurbin"; "rlmdurlag"; "rlmwx"] ts) "lmspdurbin" (const_t sdm) s6 in
  let s8 := step (mem_s "rlmwx" ts) "rlmwx" (from2 "lmspdurbin" "lml" (@rlm_wx R k)) s7 in
  let s9 := step (mem_s "rlmdurlag" ts) "rlmdurlag" (from2 "lmspdurbin" "lmwx" (@rlm_durlag R)) s8 in
  step (mem_s "lmslxerr" ts) "lmslxerr" (from2 "lme" "lmwx" (@lm_slxerr R k)) s9.
End Reg.
