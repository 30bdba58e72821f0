(** Iterative estimators.  Numbers that can be NaN in the code are options (None = NaN; every comparison with NaN is False). *)
From mathcomp Require Import all_ssreflect all_algebra.
From Coq Require Import String.
From Verif Require Import LinRegModel FilterModel.
Set Implicit Arguments.
Unset Strict Implicit.
Unset Printing Implicit Defensive.
Import Order.TTheory GRing.Theory Num.Theory.
Local Open Scope ring_scope.

Section Generic.
Variables (R : realFieldType) (B : Type).
(** steps 2a and 2b with the previous lambda: the regression of step 2a (None: raises) and the new lambda (None: NaN) *)
Variable step : R -> option (B * option R).

(** spreg/error_sp_het.py:135-151 and 586-628, spreg/error_sp_hom.py:143-158 and 574-590, and the same lines of the regimes classes
    (error_sp_het_regimes.py:414-433, 1064-1090; error_sp_hom_regimes.py:427-445, 1069-1092):
      iteration, eps = 0, 1
      while iteration < max_iter and eps > epsilon: ...; eps = abs(lambda3 - lambda_old); lambda_old = lambda3; iteration += 1
    state: iteration, lambda_old, eps, and what the last pass left behind (the lambda it used, its regression, lambda3) *)
Record gm_state := GmState { g_it : nat; g_eps : option R; g_last : option (R * B * option R) }.
Definition above (eps : option R) (epsilon : R) : bool := if eps is Some e then epsilon < e else false.
(** [left] = max_iter - iteration *)
Fixpoint gm_while (left_ : nat) (epsilon : R) (lambda_old : R) (s : gm_state) : option gm_state :=
  match left_ with
  | 0 => Some s
  | m.+1 =>
    if above (g_eps s) epsilon then
      match step lambda_old with
      | None => None
      | Some (b, None) => Some (GmState (g_it s).+1 None (Some (lambda_old, b, None)))
      | Some (b, Some l3) => gm_while m epsilon l3 (GmState (g_it s).+1 (Some `|l3 - lambda_old|) (Some (lambda_old, b, Some l3)))
      end
    else Some s
  end.
Definition gm_loop (max_iter : nat) (epsilon lambda0 : R) : option gm_state := gm_while max_iter epsilon lambda0 (GmState 0 (Some 1) None).
End Generic.

(** spreg/utils.py:749-754 iter_msg *)
Local Open Scope string_scope.
Definition iter_msg (iteration max_iter : nat) : string :=
  if iteration == max_iter then "Maximum number of iterations reached." else "Convergence threshold (epsilon) reached.".
Local Close Scope string_scope.

Section Het.
Variables (R : realFieldType) (n k h : nat) (W : 'M[R]_n).

(** how the constructor ends: an exception, or the attributes *)
Inductive het_err := ESingular | EUnbound | EErrorBound | ELagBound.
Record het_fit p := HetFit { hf_betas : 'cV[R]_p; hf_lambda : option R; hf_used : R; hf_u : 'cV[R]_n; hf_predy : 'cV[R]_n; hf_iter : nat;
  hf_stop : string; hf_warn_error : bool; hf_warn_lag : bool }.
Inductive het_res p := Bad (e : het_err) | Good (f : het_fit p).
Arguments Bad {p}.
Arguments Good {p}.

(** abs(x) >= 0.99, False on NaN *)
Definition b99 : R := 99%:R / 100%:R.
Definition out99 (l : option R) : bool := if l is Some v then b99 <= `|v| else false.

(** spreg/error_sp_het.py:113-167 BaseGM_Error_Het.  [first u]: lambda2 from the residuals of step 1a (steps 1b, 1c);
    [gmm u l]: lambda3 from the residuals and the previous lambda.  vm is not modelled here. *)
Definition het_error_step (gmm : 'cV[R]_n -> R -> option R) (y : 'cV[R]_n) (x : 'M[R]_(n, k)) (l : R) : option ('cV[R]_k * option R) :=
  if base_ols (sp_filter W l y) (sp_filter W l x) RobNone None true is Some o then
    Some (o_betas o, gmm (y - x *m o_betas o) l) else None.
Definition base_gm_error_het (first : 'cV[R]_n -> R) (gmm : 'cV[R]_n -> R -> option R) (y : 'cV[R]_n) (x : 'M[R]_(n, k)) (max_iter : nat)
    (epsilon : R) (hard_bound : bool) : het_res k :=
  if base_ols y x RobNone None true is Some o then
    match gm_loop (het_error_step gmm y x) max_iter epsilon (first (o_u o)) with
    | None => Bad ESingular
    | Some s =>
      match g_last s with
      | None => Bad EUnbound
      | Some (used, betas, l3) =>
        if hard_bound && out99 l3 then Bad EErrorBound else
        Good (HetFit betas l3 used (y - x *m betas) (x *m betas) (g_it s) (iter_msg (g_it s) max_iter) (out99 l3) false)
      end
    end
  else Bad ESingular.

(** lines 544-551 and 594-601: the last coefficient is forced into [-0.9, 0.9] *)
Definition b90 : R := 9%:R / 10%:R.
Definition clamp p (b : 'cV[R]_p.+1) : 'cV[R]_p.+1 :=
  if `|b ord_max 0| <= b90 then b
  else \col_i (if i == ord_max then (if b ord_max 0 < - b90 then - b90 else b90) else b i 0).
(** spreg/error_sp_het.py:526-660 BaseGM_Endog_Error_Het; z = [x yend], hm = the instruments of step 1a, used again unfiltered *)
Definition endog_het_step p (gmm : 'cV[R]_n -> R -> option R) (y : 'cV[R]_n) (z : 'M[R]_(n, p.+1)) (hm : 'M[R]_(n, h)) (l : R) : option ('cV[R]_p.+1 * option R) :=
  if base_tsls (sp_filter W l y) (sp_filter W l z) hm RobNone None true is Some t then
    let betas := clamp (t_betas t) in Some (betas, gmm (y - z *m betas) l) else None.
Definition base_gm_endog_error_het p (first : 'cV[R]_n -> R) (gmm : 'cV[R]_n -> R -> option R) (y : 'cV[R]_n) (z : 'M[R]_(n, p.+1)) (hm : 'M[R]_(n, h))
    (max_iter : nat) (epsilon : R) (hard_bound : bool) : het_res p.+1 :=
  if base_tsls y z hm RobNone None true is Some t then
    match gm_loop (endog_het_step gmm y z hm) max_iter epsilon (first (y - z *m clamp (t_betas t))) with
    | None => Bad ESingular
    | Some s =>
      match g_last s with
      | None => Bad EUnbound
      | Some (used, betas, l3) =>
        if hard_bound && out99 l3 then Bad EErrorBound
        else if hard_bound && (b99 <= `|betas ord_max 0|) then Bad ELagBound else
        Good (HetFit betas l3 used (y - z *m betas) (z *m betas) (g_it s) (iter_msg (g_it s) max_iter) (out99 l3) (b99 <= `|betas ord_max 0|))
      end
    end
  else Bad ESingular.

(** spreg/error_sp_hom.py:537-597 BaseGM_Endog_Error_Hom: no clamp; optim_moments itself raises for hard_bound (utils.py:389-391): gmm = None for that *)
Definition endog_hom_step p (gmm : 'cV[R]_n -> R -> option (option R)) (y : 'cV[R]_n) (z : 'M[R]_(n, p.+1)) (hm : 'M[R]_(n, h)) (l : R) : option ('cV[R]_p.+1 * option R) :=
  if base_tsls (sp_filter W l y) (sp_filter W l z) hm RobNone None true is Some t then
    if gmm (y - z *m t_betas t) l is Some l3 then Some (t_betas t, l3) else None
  else None.
Definition base_gm_endog_error_hom p (first : 'cV[R]_n -> option R) (gmm : 'cV[R]_n -> R -> option (option R)) (y : 'cV[R]_n) (z : 'M[R]_(n, p.+1))
    (hm : 'M[R]_(n, h)) (max_iter : nat) (epsilon : R) : het_res p.+1 :=
  if base_tsls y z hm RobNone None true is Some t then
    if first (t_u t) is Some l0 then
      match gm_loop (endog_hom_step gmm y z hm) max_iter epsilon l0 with
      | None => Bad ESingular
      | Some s =>
        match g_last s with
        | None => Bad EUnbound
        | Some (used, betas, l3) => Good (HetFit betas l3 used (y - z *m betas) (z *m betas) (g_it s) (iter_msg (g_it s) max_iter) false false)
        end
      end
    else Bad EErrorBound
  else Bad ESingular.
End Het.
Arguments Bad {R n p}.
Arguments Good {R n p}.

Section OtherLoops.
Variables (R : realFieldType) (S : Type).
(** spreg/probit.py:521-554 newton: [newton_step p] = new parameters and m = g'Hg (None: NaN); thr = 1e-04 *)
Variable newton_step : S -> S * option R.
Definition not_below (m : option R) (thr : R) : bool := if m is Some v then thr <= v else false.
Fixpoint newton_while (left_ : nat) (thr : R) (it : nat) (par : S) (m : option R) : nat * S * option R :=
  match left_ with
  | 0 => (it, par, m)
  | l.+1 => if not_below m thr then let '(par', m') := newton_step par in newton_while l thr it.+1 par' m' else (it, par, m)
  end.
(** iterations, parameters, last m, warn *)
Definition newton (start : S) (maxiter : nat) (thr : R) : nat * S * option R * bool :=
  let '(it, par, m) := newton_while maxiter thr 0 start (Some 1) in (it, par, m, it == maxiter).

(** spreg/sur.py:136-155 BaseSUR with iter=True: [sur_step s] = new estimates and log det(Sigma);
      while np.abs(det1 - det0) > epsilon and n_iter <= maxiter *)
Variable sur_step : S -> S * R.
Fixpoint sur_while (left_ : nat) (maxiter : nat) (epsilon det0 det1 : R) (s : S) (n_iter : nat) : nat * S * R * R :=
  match left_ with
  | 0 => (n_iter, s, det0, det1)
  | l.+1 => if (epsilon < `|det1 - det0|) && (n_iter <= maxiter)%N then
      let '(s', d) := sur_step s in sur_while l maxiter epsilon det1 d s' n_iter.+1
    else (n_iter, s, det0, det1)
  end.
(** n_iter, estimates, det0, det1; the counter grows, so maxiter + 2 passes of the loop test suffice *)
Definition sur_iter (s : S) (det0 det1 : R) (maxiter : nat) (epsilon : R) : nat * S * R * R := sur_while maxiter.+2 maxiter epsilon det0 det1 s 0.

(** spreg/panel_re.py:133-172 and spreg/panel.py:2778-2815: while converge > criteria and i < itermax; converge = |phiold - phi| after each pass *)
Variable re_step : S -> R -> S * R.
Fixpoint re_while (left_ : nat) (criteria converge : R) (s : S) (phi : R) (i : nat) : nat * S * R * R :=
  match left_ with
  | 0 => (i, s, phi, converge)
  | l.+1 => if criteria < converge then let '(s', phi') := re_step s phi in re_while l criteria `|phi - phi'| s' phi' i.+1 else (i, s, phi, converge)
  end.
Definition re_iter (s : S) (phi0 criteria : R) (itermax : nat) : nat * S * R * R := re_while itermax criteria 1 s phi0 0.
End OtherLoops.
