(** Maximum likelihood spatial error panel with random effects: spreg/panel.py BaseML_ErrorRE, and the objective of the deprecated
    spreg/panel_re.py BasePanel_RE_Error.  The minimiser's result ((lam, phi), value) and the answers of la.eig and la.eigh are arguments;
    eigenvalues and eigenvectors are real.  c ** (-0.5) is 1 / sqrt c (for a number that is not positive numpy gives nan or inf).
    Not modelled: the array shape tests, bounds and tolerances, names, the printed summary. *)
From Coq Require Import Reals.
From mathcomp Require Import all_ssreflect all_algebra.
From Verif Require Import Rinst LinRegModel FilterModel MLModel Kron PanelModel PfeModel.
Set Implicit Arguments.
Unset Strict Implicit.
Unset Printing Implicit Defensive.
Import Order.TTheory GRing.Theory Num.Theory.
Local Open Scope ring_scope.

Section Model.
Variables (T n k : nat).
(** P of the objective: spreg/panel.py:2076-2077; [phi2]: phi ** 2 *)
Definition re_err_P (evals : 'rV[R]_n) (evecs : 'M[R]_n) (lam phi2 : R) : 'M[R]_n :=
  let cvals := \row_i (T%:R * phi2 + 1 / (1 - lam * evals 0 i) ^+ 2) in
  diag_mx (\row_i (Num.sqrt (cvals 0 i))^-1) *m evecs^T.
(** bigy + np.tile(pr_y, (t, 1)) - lam * ylag, pr = P - (I - lam W): spreg/panel.py:2079-2092, 1987-2001 *)
Definition re_filter (P W : 'M[R]_n) (lam : R) c (a : 'M[R]_(T * n, c)) : 'M[R]_(T * n, c) :=
  let pr := P - (1%:M - lam *: W) in
  a + tile T (pr *m unit_mean a) - lam *: (w_nt T W *m a).
(** the sum of squares ee: spreg/panel.py:2094-2100 *)
Definition re_err_ssr (y : 'cV[R]_(T * n)) (x : 'M[R]_(T * n, k)) (P W : 'M[R]_n) (lam : R) : option R :=
  let ys := re_filter P W lam y in let xs := re_filter P W lam x in
  if la_inv (xs^T *m xs) is Some xsxsi then
    let xsys := xs^T *m ys in
    Some ((ys^T *m ys) 0 0 - (xsys^T *m (xsxsi *m xsys)) 0 0)
  else None.
(** spreg/panel.py:2071-2115 err_c_loglik_ord ([adj] = true: sig2 = ee / (n t)), spreg/panel_re.py:806-838 ([adj] = false: sig2 = ee) *)
Definition re_err_obj (adj : bool) (y : 'cV[R]_(T * n)) (x : 'M[R]_(T * n, k)) (W : 'M[R]_n) (evals : 'rV[R]_n) (evecs : 'M[R]_n) (lam phi : R) : option R :=
  if re_err_ssr y x (re_err_P evals evecs lam (phi ^+ 2)) W lam is Some ee then
    match np_log (if adj then ee / (n%:R * T%:R) else ee),
          osum [seq np_log (1 + T%:R * phi ^+ 2 * (1 - lam * evals 0 i) ^+ 2) | i <- enum 'I_n],
          osum [seq np_log (1 - lam * evals 0 i) | i <- enum 'I_n] with
    | Some lsig2, Some pj, Some j => Some (n%:R * T%:R / 2%:R * lsig2 + 1 / 2%:R * pj - T%:R * j)
    | _, _, _ => None
    end
  else None.

Record re_err := ReErr { er_b : 'cV[R]_k; er_lam : R; er_phi : R; er_u : 'cV[R]_(T * n); er_predy : 'cV[R]_(T * n); er_efilt : 'cV[R]_(T * n);
  er_sig2 : R; er_sig2_u : R; er_logll : R; er_vm : 'M[R]_(k + (1 + 1)) }.
(** spreg/panel.py:2022-2066: the matrix v, order lambda, phi, sigma2 *)
Definition re_err_v (W aTai vi a : 'M[R]_n) (sig2 : R) : 'M[R]_(1 + 1 + 1) :=
  let wa_aw := W^T *m a + a^T *m W in
  let gamma := wa_aw *m aTai in
  let sigma := vi *m aTai in
  let t := T%:R in
  let tr1 := \tr gamma in let tr2 := \tr vi in let tr3 := \tr sigma in
  let tr4 := \tr (sigma *m gamma) in let tr5 := \tr (sigma *m vi) in
  let tr6 := \tr (sigma *m gamma *m vi) in let tr7 := \tr (sigma *m gamma *m sigma) in
  let v11 := (t - 1) / 2%:R * tr1 ^+ 2 + 1 / 2%:R * tr4 ^+ 2 in
  let v12 := t / (2%:R * sig2) * tr6 in
  let v13 := (t - 1) / (2%:R * sig2) * tr1 + 1 / (2%:R * sig2) * tr7 in
  let v22 := t ^+ 2 / (2%:R * sig2 ^+ 2) * tr2 ^+ 2 in
  let v23 := t / (2%:R * sig2 ^+ 2) * tr5 in
  let v33 := 1 / (2%:R * sig2 ^+ 2) * ((t - 1) * n%:R + tr3 ^+ 2) in
  block_mx (block_mx v11%:M v12%:M v12%:M v22%:M) (col_mx v13%:M v23%:M) (row_mx v13%:M v23%:M) v33%:M.
(** spreg/panel.py:1970-1973, spreg/panel_re.py:524-527 *)
Definition re_err_logll (fun_ : R) : R := - fun_ - (T * n)%:R / 2%:R * ln (2%:R * PI) - (T * n)%:R / 2%:R.
(** spreg/panel.py:1967-2069 after the minimiser returned *)
Definition base_re_err (eigh : 'M[R]_n -> 'rV[R]_n * 'M[R]_n) (y : 'cV[R]_(T * n)) (x : 'M[R]_(T * n, k)) (W : 'M[R]_n) (res : (R * R) * R) : option re_err :=
  let '((lam, phi0), fun_) := res in
  let phi := phi0 ^+ 2 in
  let logll := re_err_logll fun_ in
  let B := 1%:M - lam *: W in
  if la_inv (B^T *m B) is Some BB_inv then
    let Omega := (T%:R * phi) *: 1%:M + BB_inv in
    let: (eig_O, vec_O) := eigh Omega in
    let P := vec_O *m (diag_mx (\row_i (Num.sqrt (eig_O 0 i))^-1) *m vec_O^T) in
    let ys := re_filter P W lam y in let xs := re_filter P W lam x in
    if la_inv (xs^T *m xs) is Some xsxsi then
      let b := xsxsi *m (xs^T *m ys) in
      let u := y - x *m b in
      let e_filtered := ys - xs *m b in
      let sig2 := (e_filtered^T *m e_filtered) 0 0 / (T * n)%:R in
      let a := a_of W lam in
      if la_inv (a^T *m a) is Some aTai then
        if la_inv ((T%:R * Num.sqrt phi) *: 1%:M + aTai) is Some vi then
          if la_inv (re_err_v W aTai vi a sig2) is Some vm1 then
            Some (ReErr b lam phi u (y - u) e_filtered sig2 (phi * sig2) logll (block_mx (sig2 *: xsxsi) 0 0 (ulsubmx vm1)))
          else None
        else None
      else None
    else None
  else None.
End Model.
