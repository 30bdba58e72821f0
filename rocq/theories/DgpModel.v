(** Data generation: spreg/dgp.py. *)
From Coq Require Import Strings.String.
From mathcomp Require Import all_ssreflect all_algebra.
From Verif Require Import LinRegModel FilterModel.
Set Implicit Arguments.
Unset Strict Implicit.
Unset Printing Implicit Defensive.
Import Order.TTheory GRing.Theory Num.Theory.
Local Open Scope ring_scope.

(** None is returned, an exception is raised, or data are returned *)
Inductive dres (A : Type) := DNone | DRaise | DOk (a : A).
Arguments DNone {A}.
Arguments DRaise {A}.
Definition dbind A B (r : dres A) (f : A -> dres B) : dres B :=
  match r with DNone => DNone | DRaise => DRaise | DOk a => f a end.

Section Dgp.
Variable R : rcfType.
(** a numpy array of shape (v_n, 1) *)
Record vec := Vec { v_n : nat; v_d : 'cV[R]_v_n }.
(** seen as an array with n rows, when it has n rows *)
Definition as_n n (v : vec) : 'cV[R]_n := conform_mx 0 (v_d v).
(** weights: w.n and w.full()[0] *)
Record wts := Wts { w_n : nat; w_d : 'M[R]_w_n }.
(** numpy addition of columns: a column with one row is broadcast, other shapes must agree *)
Definition np_add (a b : vec) : dres vec :=
  if v_n a == v_n b then DOk (Vec (v_d a + as_n (v_n a) b))
  else if v_n a == 1%N then DOk (Vec (const_mx (as_n 1 a 0 0) + v_d b))
  else if v_n b == 1%N then DOk (Vec (v_d a + const_mx (as_n 1 b 0 0)))
  else DRaise.
(** threshold and max_iterations of spreg/utils.py:551-552 inverse_prod: 1e-10 and 10000000 *)
Variables (thr : R) (mx : nat).
(** spreg/utils.py:611-634 inverse_prod(w, data, scalar, inv_method=imethod); the product raises when the dimensions disagree *)
Definition inverse_prod (w : wts) (v : vec) (scalar : R) (imethod : string) : dres vec :=
  let conv (o : outcome 'cV[R]_(w_n w)) := match o with Done a => DOk (Vec a) | Raised => DRaise end in
  if String.eqb imethod "power_exp" then
    if v_n v == w_n w then conv (power_expansion (w_d w) (as_n (w_n w) v) scalar thr mx) else DRaise
  else if String.eqb imethod "true_inv" then
    if v_n v == w_n w then conv (true_inv_prod (w_d w) (as_n (w_n w) v) scalar) else DRaise
  else DRaise.
(** lag_spatial(w, v) = w.sparse * v *)
Definition lag_v (w : wts) (v : vec) : dres vec :=
  if v_n v == w_n w then DOk (Vec (w_d w *m as_n (w_n w) v)) else DRaise.
(** spreg/dgp.py:894-928 make_bin: 1 where y exceeds its mean *)
Definition make_bin (y : vec) : vec :=
  let mm := (\sum_i v_d y i 0) / (v_n y)%:R in Vec (\col_i (if mm < v_d y i 0 then 1 else 0)).
Definition bin_if (ybin : bool) (r : dres vec) : dres vec := dbind r (fun y => DOk (if ybin then make_bin y else y)).
(** lam * lag_spatial(w, u) + u *)
Definition ma_err (w : wts) (u : vec) (lam : R) : dres vec :=
  dbind (lag_v w u) (fun wu => np_add u (Vec (lam *: v_d wu))).
(** the common branch on model *)
Definition err_model (w : wts) (u : vec) (lam : R) (model imethod : string) : dres vec :=
  if String.eqb model "sar" then inverse_prod w u lam imethod
  else if String.eqb model "ma" then ma_err w u lam
  else DNone.
(** spreg/dgp.py:296-341 dgp_errproc *)
Definition dgp_errproc (u : vec) (w : wts) (lam : R) (model imethod : string) : dres vec :=
  if w_n w != v_n u then DNone else err_model w u lam model imethod.
(** spreg/dgp.py:344-381 dgp_ols *)
Definition dgp_ols (u xb : vec) : dres vec := if v_n u != v_n xb then DNone else np_add xb u.
(** spreg/dgp.py:383-431 dgp_slx *)
Definition dgp_slx (u xb wxg : vec) (ybin : bool) : dres vec :=
  if v_n u != v_n xb then DNone else if v_n xb != v_n wxg then DNone else
  bin_if ybin (dbind (np_add xb wxg) (fun a => np_add a u)).
(** spreg/dgp.py:433-489 dgp_sperror *)
Definition dgp_sperror (u xb : vec) (w : wts) (lam : R) (model imethod : string) (ybin : bool) : dres vec :=
  if v_n u != v_n xb then DNone else if w_n w != v_n xb then DNone else
  bin_if ybin (dbind (err_model w u lam model imethod) (fun u1 => np_add xb u1)).
(** spreg/dgp.py:491-556 dgp_slxerror *)
Definition dgp_slxerror (u xb wxg : vec) (w : wts) (lam : R) (model imethod : string) (ybin : bool) : dres vec :=
  if v_n u != v_n xb then DNone else if v_n xb != v_n wxg then DNone else if w_n w != v_n xb then DNone else
  bin_if ybin (dbind (err_model w u lam model imethod) (fun u1 => dbind (np_add xb wxg) (fun a => np_add a u1))).
(** spreg/dgp.py:558-608 dgp_lag *)
Definition dgp_lag (u xb : vec) (w : wts) (rho : R) (imethod : string) (ybin : bool) : dres vec :=
  if v_n u != v_n xb then DNone else if w_n w != v_n xb then DNone else
  bin_if ybin (dbind (np_add xb u) (fun y1 => inverse_prod w y1 rho imethod)).
(** spreg/dgp.py:610-666 dgp_spdurbin: the message about the weights is printed, but nothing is returned (lines 660-661) *)
Definition dgp_spdurbin (u xb wxg : vec) (w : wts) (rho : R) (imethod : string) (ybin : bool) : dres vec :=
  if v_n u != v_n xb then DNone else if v_n xb != v_n wxg then DNone else
  bin_if ybin (dbind (np_add xb wxg) (fun a => dbind (np_add a u) (fun y1 => inverse_prod w y1 rho imethod))).
(** spreg/dgp.py:668-729 dgp_lagerr *)
Definition dgp_lagerr (u xb : vec) (w : wts) (rho lam : R) (model imethod : string) (ybin : bool) : dres vec :=
  if v_n u != v_n xb then DNone else if w_n w != v_n xb then DNone else
  bin_if ybin (dbind (err_model w u lam model imethod) (fun u1 => dbind (np_add xb u1) (fun y1 => inverse_prod w y1 rho imethod))).
(** spreg/dgp.py:731-798 dgp_gns: as in dgp_spdurbin, nothing is returned at lines 785-786 *)
Definition dgp_gns (u xb wxg : vec) (w : wts) (rho lam : R) (model imethod : string) (ybin : bool) : dres vec :=
  if v_n u != v_n xb then DNone else if v_n xb != v_n wxg then DNone else
  bin_if ybin (dbind (err_model w u lam model imethod) (fun u1 =>
    dbind (np_add xb wxg) (fun a => dbind (np_add a u1) (fun y1 => inverse_prod w y1 rho imethod)))).
(** spreg/dgp.py:800-849 dgp_mess; [expm]: scipy.linalg.expm, [log]: np.log *)
Definition dgp_mess (expm : forall n, 'M[R]_n -> 'M[R]_n) (log : R -> R) (u xb : vec) (w : wts) (rho : R) : dres vec :=
  if v_n u != v_n xb then DNone else if w_n w != v_n xb then DNone else
  let aw := - log (1 - rho) *: w_d w in
  dbind (np_add xb u) (fun xbu => DOk (Vec (expm _ aw *m as_n (w_n w) xbu))).
(** spreg/dgp.py:851-892 dgp_probit *)
Definition dgp_probit (u xb : vec) : dres vec := if v_n u != v_n xb then DNone else dbind (np_add xb u) (fun yy => DOk (make_bin yy)).

(** spreg/dgp.py:210-246 make_xb: constant first; beta as a list *)
Definition make_xb n k (x : 'M[R]_(n, k)) (beta : seq R) : dres 'cV[R]_n :=
  if k.+1 != size beta then DNone
  else DOk (row_mx (const_mx 1) x *m (\col_(i < 1 + k) nth 0 beta i)).
(** spreg/dgp.py:163-206 make_wx: lags of order 1 to o (order 1 also for o < 1), as the list of blocks that are stacked side by side *)
Fixpoint wx_more n k (W : 'M[R]_n) (w1x : 'M[R]_(n, k)) (m : nat) : seq 'M[R]_(n, k) :=
  if m is m'.+1 then let whx := W *m w1x in whx :: wx_more W whx m' else [::].
Definition make_wx n k (x : 'M[R]_(n, k)) (W : 'M[R]_n) (o : nat) : seq 'M[R]_(n, k) :=
  let w1x := W *m x in w1x :: wx_more W w1x (o - 1).
(** spreg/dgp.py:249-293 make_wxg; the result of the scalar branch has as many columns as gamma *)
Definition make_wxg n k (wx : 'M[R]_(n, k)) (gamma : seq R) : dres {m : nat & 'M[R]_(n, m)} :=
  if (1 < k)%N then
    if k != size gamma then DNone else DOk (existT _ 1%N (wx *m (\col_(i < k) nth 0 gamma i)))
  else DOk (existT _ (size gamma) (\matrix_(i < n, j < size gamma) ((\sum_c wx i c) * nth 0 gamma j))).
(** spreg/dgp.py:931-955 make_heterror *)
Definition make_heterror (u v : vec) : dres vec :=
  if v_n u != v_n v then DNone else DOk (Vec (\col_i (v_d u i 0 * Num.sqrt (as_n (v_n u) v i 0)))).
(** spreg/dgp.py:957-1009 make_vmult for methods linear and group (uniform draws random numbers); n = 1 divides by zero in the linear method *)
Definition make_vmult (n : nat) (method : string) (vlow vup : seq R) (glow : seq nat) : dres (seq R) :=
  if String.eqb method "linear" then
    match vlow, vup with
    | lo :: _, up :: _ => if n == 1%N then DRaise else
        let slop := (up - lo) / (n%:R - 1) in DOk [seq lo + slop * i%:R | i <- iota 0 n]
    | _, _ => DRaise
    end
  else if String.eqb method "group" then
    if (size vup == size glow) && (sumn glow == n) then DOk (flatten [seq nseq p.2 p.1 | p <- zip vup glow]) else DNone
  else DNone.
End Dgp.
