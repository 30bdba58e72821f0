(** Spatial filter, power expansion, reduced-form prediction, GM moment equations, GM_Error.
    spreg/utils.py, spreg/error_sp.py, spreg/error_sp_regimes.py.  Exact arithmetic; w.sparse and a sparse matrix are the same matrix. *)
From mathcomp Require Import all_ssreflect all_algebra.
From Verif Require Import LinRegModel.
Set Implicit Arguments.
Unset Strict Implicit.
Unset Printing Implicit Defensive.
Import Order.TTheory GRing.Theory Num.Theory.
Local Open Scope ring_scope.

Section Filter.
Variable R : realFieldType.

(** spreg/utils.py:423-468 get_spFilter, T = 1 *)
Definition sp_filter n k (W : 'M[R]_n) (lam : R) (sf : 'M[R]_(n, k)) : 'M[R]_(n, k) := sf - lam *: (W *m sf).

(** scipy.sparse.kron(identity(T), W): entry (a, b) of the block diagonal matrix; rows a = t * n + i *)
Definition kron_id T n (W : 'M[R]_n.+1) : 'M[R]_(T * n.+1) :=
  \matrix_(a, b) if (a %/ n.+1 == b %/ n.+1)%N then W (inord (a %% n.+1)) (inord (b %% n.+1)) else 0.

(** spreg/utils.py:423-468 get_spFilter, T <> 1: stacked by period *)
Definition sp_filter_panel T n k (W : 'M[R]_n.+1) (lam : R) (sf : 'M[R]_(T * n.+1, k)) : 'M[R]_(T * n.+1, k) :=
  sf - lam *: (kron_id T W *m sf).

(** spreg/utils.py:189-214 get_A1_het *)
Definition get_A1_het n (S : 'M[R]_n) : 'M[R]_n :=
  let StS := S^T *m S in StS - \matrix_(i, j) (if i == j then StS i i else 0).

(** spreg/utils.py:217-253 get_A1_hom *)
Definition get_A1_hom n (s : 'M[R]_n) (scalarKP : bool) : 'M[R]_n :=
  let wpw := s^T *m s in
  let twpw := \sum_i wpw i i in
  let num := wpw - (twpw / n%:R)%:M in
  if scalarKP then (1 + (twpw / n%:R) ^+ 2)^-1 *: num else num.

(** spreg/utils.py:256-276 get_A2_hom *)
Definition get_A2_hom n (s : 'M[R]_n) : 'M[R]_n := 2%:R^-1 *: (s + s^T).

Definition dot n (u v : 'cV[R]_n) : R := (u^T *m v) 0 0.

(** spreg/utils.py:279-319 _moments2eqs *)
Definition moments2eqs n (A1 s : 'M[R]_n) (u : 'cV[R]_n) : 'M[R]_2 * 'cV[R]_2 :=
  let A1u := A1 *m u in
  let wu := s *m u in
  let g1 := dot u A1u in
  let g2 := dot u wu in
  let G11 := dot u ((A1 + A1^T) *m wu) in
  let G12 := - (wu^T *m A1 *m wu) 0 0 in
  let G21 := dot u ((s + s^T) *m wu) in
  let G22 := - dot wu (s *m wu) in
  (\matrix_(i, j) (nth 0 (nth [::] [:: [:: G11; G12]; [:: G21; G22]] i) j / n%:R),
   \col_i (nth 0 [:: g1; g2] i / n%:R)).

(** spreg/error_sp.py:1380-1410 _momentsGM_Error *)
Definition moments_gm_error n (W : 'M[R]_n) (u : 'cV[R]_n) : 'M[R]_3 * 'cV[R]_3 :=
  let u2 := dot u u in
  let wu := W *m u in
  let uwu := dot u wu in
  let wu2 := dot wu wu in
  let wwu := W *m wu in
  let uwwu := dot u wwu in
  let wwu2 := dot wwu wwu in
  let wuwwu := dot wu wwu in
  let trWtW := \sum_i (W^T *m W) i i in
  let N := n%:R in
  (\matrix_(i, j) (nth 0 (nth [::] [:: [:: 2%:R * uwu; - wu2; N];
                                     [:: 2%:R * wuwwu; - wwu2; trWtW];
                                     [:: uwwu + wu2; - wuwwu; 0]] i) j / N),
   \col_i (nth 0 [:: u2; wu2; uwu] i / N)).

(** spreg/utils.py:398-420 foptim_par *)
Definition foptim_par m p (par : 'cV[R]_p) (mom : 'M[R]_(m, p) * 'cV[R]_m) : R :=
  \sum_i ((mom.2 - mom.1 *m par) i 0) ^+ 2.

(** spreg/utils.py:353-361 optim_moments: weighting by Ec = L' with L L' = inv(vcX) (numpy's lower Cholesky factor, an argument),
    then division of both by the smallest entry; the optimiser minimises foptim_par of the result over the parameter vectors. *)
Definition weight_moments m p (L : option 'M[R]_m) (mom : 'M[R]_(m, p) * 'cV[R]_m) : 'M[R]_(m, p) * 'cV[R]_m :=
  match L with None => mom | Some L => (L^T *m mom.1, L^T *m mom.2) end.
(** np.min over the entries of both arrays; None on empty arrays *)
Definition minl (l : seq R) : R := if l is a :: t then foldl Num.min a t else 0.
Definition mom_scale m p (mom : 'M[R]_(m, p) * 'cV[R]_m) : R :=
  minl ([seq mom.1 i j | i <- enum 'I_m, j <- enum 'I_p] ++ [seq mom.2 i 0 | i <- enum 'I_m]).
Definition optim_objective m p (L : option 'M[R]_m) (mom : 'M[R]_(m, p) * 'cV[R]_m) (par : 'cV[R]_p) : R :=
  let w := weight_moments L mom in
  let scale := mom_scale w in
  foptim_par par (scale^-1 *: w.1, scale^-1 *: w.2).

(** the parameter vectors tried: [lam, lam^2] and [lam, lam^2, sig2] (spreg/utils.py:362-375) *)
Definition par2 (lam : R) : 'cV[R]_2 := \col_i nth 0 [:: lam; lam ^+ 2] i.
Definition par3 (lam sig2 : R) : 'cV[R]_3 := \col_i nth 0 [:: lam; lam ^+ 2; sig2] i.

(** spreg/error_sp.py:92-120 BaseGM_Error; the optimiser of optim_moments is an argument [optim] *)
Record gm_error n k := GmError { ge_betas : 'cV[R]_k; ge_lambda : R; ge_predy : 'cV[R]_n; ge_u : 'cV[R]_n;
  ge_sig2 : R; ge_efilt : 'cV[R]_n; ge_vm : 'M[R]_k; ge_ols2 : ols R n k }.
Definition base_gm_error n k (optim : 'M[R]_3 * 'cV[R]_3 -> R) (y : 'cV[R]_n) (x : 'M[R]_(n, k)) (W : 'M[R]_n) : option (gm_error n k) :=
  if base_ols y x RobNone None true is Some o1 then
    let lam := optim (moments_gm_error W (o_u o1)) in
    if base_ols (sp_filter W lam y) (sp_filter W lam x) RobNone None true is Some o2 then
      let predy := x *m o_betas o2 in
      let u := y - predy in
      let sig2 := sig2_of k false (o_u o2) in
      Some (GmError (o_betas o2) lam predy u sig2 (u - lam *: (W *m u)) (sig2 *: o_xtxi o2) o2)
    else None
  else None.

(** spreg/error_sp_regimes.py:350-368 GM_Error_Regimes without regime_err_sep, every coefficient varying; x includes the constant.
    The data are filtered first and the filtered columns are then expanded by regime. *)
Definition gm_error_regimes n k m (g : 'I_n -> 'I_m) (optim : 'M[R]_3 * 'cV[R]_3 -> R) (y : 'cV[R]_n) (x : 'M[R]_(n, k)) (W : 'M[R]_n)
  : option (gm_error n (m * k)) :=
  if base_ols y (regime_x g x) RobNone None true is Some o1 then
    let lam := optim (moments_gm_error W (o_u o1)) in
    if base_ols (sp_filter W lam y) (regime_x g (sp_filter W lam x)) RobNone None true is Some o2 then
      let predy := regime_x g x *m o_betas o2 in
      let u := y - predy in
      let sig2 := sig2_of (m * k) false (o_u o2) in
      Some (GmError (o_betas o2) lam predy u sig2 (u - lam *: (W *m u)) (sig2 *: o_xtxi o2) o2)
    else None
  else None.
(** spreg/ml_error.py:283-296 get_x_lag with regimes: the lag is expanded by regime *)
Definition get_x_lag_regimes n k m (g : 'I_n -> 'I_m) (W : 'M[R]_n) (x : 'M[R]_(n, k)) : 'M[R]_(n, m * k) := regime_x g (W *m x).
End Filter.

Section Power.
Variable R : rcfType.

Inductive outcome (A : Type) := Done (a : A) | Raised.
Arguments Done {A} a.
Arguments Raised {A}.

(** numpy.linalg.norm of an array with two dimensions: Frobenius norm *)
Definition la_norm n k (a : 'M[R]_(n, k)) : R := Num.sqrt (\sum_i \sum_j a i j ^+ 2).

(** the initial value of test (spreg/utils.py:661) *)
Definition test0 : R := 10%:R ^+ 7.

(** spreg/utils.py:664-677: the loop; [fuel] = max_iterations - count + 1 passes left *)
Fixpoint pe_loop n k (step : 'M[R]_(n, k) -> 'M[R]_(n, k)) (threshold : R) (fuel : nat) (total inc : 'M[R]_(n, k)) (test : R)
  : outcome 'M[R]_(n, k) :=
  if threshold < test then
    if fuel is f.+1 then
      let inc' := step inc in
      let total' := total + inc' in
      let test' := la_norm inc' in
      if test < test' then Raised else pe_loop step threshold f total' inc' test'
    else Done total
  else Done total.

(** spreg/utils.py:636-677 power_expansion; max_iterations=None is 10000000 *)
Definition power_expansion n k (W : 'M[R]_n) (data : 'M[R]_(n, k)) (scalar : R) (threshold : R) (max_iterations : nat) : outcome 'M[R]_(n, k) :=
  pe_loop (fun inc => scalar *: (W *m inc)) threshold max_iterations data data test0.
(** the same with post_multiply=True: data' in place of data, multiplied from the right *)
Definition power_expansion_post n k (W : 'M[R]_n) (data : 'M[R]_(n, k)) (scalar : R) (threshold : R) (max_iterations : nat) : outcome 'M[R]_(k, n) :=
  pe_loop (fun inc => scalar *: (inc *m W)) threshold max_iterations data^T data^T test0.

(** spreg/utils.py:618-632 inverse_prod with inv_method='true_inv'; a singular matrix raises *)
Definition true_inv_prod n k (W : 'M[R]_n) (data : 'M[R]_(n, k)) (scalar : R) : outcome 'M[R]_(n, k) :=
  if la_inv (1%:M - scalar *: W) is Some m then Done (m *m data) else Raised.

(** spreg/utils.py:757-777 sp_att; returns prediction, prediction error, and whether a warning is given *)
Definition sp_att n (W : 'M[R]_n) (y predy w_y : 'cV[R]_n) (rho : R) (hard_bound : bool) (threshold : R) (max_iterations : nat)
  : outcome ('cV[R]_n * 'cV[R]_n * bool) :=
  let xb := predy - rho *: w_y in
  if `|rho| < 1 then
    match power_expansion W xb rho threshold max_iterations with
    | Done p => Done (p, y - p, false)
    | Raised => Raised
    end
  else if hard_bound then Raised
  else Done (0, 0, true).
End Power.
Arguments Done {A} a.
Arguments Raised {A}.
