(** Random effects panel model with spatially correlated errors by the moments of Kapoor, Kelejian and Prucha:
    spreg/sp_panels.py BaseGM_KKP (Kronecker form) and spreg/panel.py BaseGM_ErrorRE (T x N form). *)
From mathcomp Require Import all_ssreflect all_algebra.
From Verif Require Import LinRegModel FilterModel Kron PanelModel.
Set Implicit Arguments.
Unset Strict Implicit.
Unset Printing Implicit Defensive.
Import Order.TTheory GRing.Theory Num.Theory.
Local Open Scope ring_scope.

Section Kkp.
Variables (R : rcfType) (T n : nat).
Implicit Types (W : 'M[R]_n) (u : 'cV[R]_(T * n)).

(** spreg/sp_panels.py:416-419: the two averaging matrices and I_T (x) W *)
Definition kkp_Q0 : 'M[R]_(T * n) := kron (1%:M - T%:R^-1 *: const_mx 1) 1%:M.
Definition kkp_Q1 : 'M[R]_(T * n) := kron (T%:R^-1 *: const_mx 1) 1%:M.
Definition kkp_Tw W : 'M[R]_(T * n) := kron 1%:M W.
(** (ws.power(2)).sum() *)
Definition trace_w2 W : R := \sum_i \sum_j W i j ^+ 2.

(** the three rows of G without the columns of the variances, and g, from the six sums: spreg/sp_panels.py:426-447, panel.py:1252-1280 *)
Definition kkp_G0 (G11 G12 G21 G22 G31 G32 tr : R) : 'M[R]_3 :=
  let c := n%:R * (T%:R - 1) in
  \matrix_(i, j) (nth 0 (nth [::] [:: [:: G11; G12; n%:R * (T%:R - 1)]; [:: G21; G22; tr * (T%:R - 1)]; [:: G31; G32; 0]] i) j / c).
Definition kkp_G1 (G11 G12 G21 G22 G31 G32 tr : R) : 'M[R]_(3, 4) :=
  \matrix_(i, j) (nth 0 (nth [::] [:: [:: G11; G12; 0; n%:R]; [:: G21; G22; 0; tr]; [:: G31; G32; 0; 0]] i) j / n%:R).
(** N * (T - 1) ** (1 - i) *)
Definition kkp_g (i : bool) (g1 g2 g3 : R) : 'cV[R]_3 :=
  \col_r (nth 0 [:: g1; g2; g3] r / (n%:R * (if i then 1 else T%:R - 1))).

(** spreg/sp_panels.py:413-450 _moments_kkp; [Q] is kkp_Q0 for i = 0 and kkp_Q1 for i = 1 *)
Definition kron_sums W (Q : 'M[R]_(T * n)) u : seq R * seq R :=
  let ub := kkp_Tw W *m u in
  let ubb := kkp_Tw W *m ub in
  let Qu := Q *m u in let Qub := Q *m ub in let Qubb := Q *m ubb in
  ([:: 2%:R * dot u Qub; - dot ub Qub; 2%:R * dot ubb Qub; - dot ubb Qubb; dot u Qubb + dot ub Qub; - dot ub Qubb],
   [:: dot u Qu; dot ub Qub; dot u Qub]).
(** spreg/panel.py:1229-1255, 1276-1278: the same sums over T x N arrays *)
Definition mat_of u : 'M[R]_(T, n) := \matrix_(t, i) u (pix t i) 0.
Definition col_mean (a : 'M[R]_(T, n)) : 'rV[R]_n := \row_i ((\sum_t a t i) / T%:R).
Definition txn_Q (i : bool) (a : 'M[R]_(T, n)) : 'M[R]_(T, n) :=
  if i then \matrix_(t, j) col_mean a 0 j else \matrix_(t, j) (a t j - col_mean a 0 j).
Definition sum_prod (a b : 'M[R]_(T, n)) : R := \sum_t \sum_i a t i * b t i.
Definition txn_sums W (i : bool) u : seq R * seq R :=
  let u_mat := mat_of u in
  let ub_mat := (W *m u_mat^T)^T in
  let ubb_mat := (W *m ub_mat^T)^T in
  let Qu := txn_Q i u_mat in let Qub := txn_Q i ub_mat in let Qubb := txn_Q i ubb_mat in
  ([:: 2%:R * sum_prod u_mat Qub; - sum_prod ub_mat Qub; 2%:R * sum_prod ubb_mat Qub; - sum_prod ubb_mat Qubb;
       sum_prod u_mat Qubb + sum_prod ub_mat Qub; - sum_prod ub_mat Qubb],
   [:: sum_prod u_mat Qu; sum_prod ub_mat Qub; sum_prod u_mat Qub]).
Definition with6 A (f : R -> R -> R -> R -> R -> R -> A) (s : seq R) : A :=
  f (nth 0 s 0) (nth 0 s 1) (nth 0 s 2) (nth 0 s 3) (nth 0 s 4) (nth 0 s 5).
Definition with3 A (f : R -> R -> R -> A) (s : seq R) : A := f (nth 0 s 0) (nth 0 s 1) (nth 0 s 2).
Definition of_sums0 W (s : seq R * seq R) : 'M[R]_3 * 'cV[R]_3 :=
  (with6 (fun a b c d e f => kkp_G0 a b c d e f (trace_w2 W)) s.1, with3 (kkp_g false) s.2).
Definition of_sums1 W (s : seq R * seq R) : 'M[R]_(3, 4) * 'cV[R]_3 :=
  (with6 (fun a b c d e f => kkp_G1 a b c d e f (trace_w2 W)) s.1, with3 (kkp_g true) s.2).
Definition moments_kkp0 W u := of_sums0 W (kron_sums W kkp_Q0 u).
Definition moments_kkp1 W u := of_sums1 W (kron_sums W kkp_Q1 u).
Definition moments_re0 W u := of_sums0 W (txn_sums W false u).
Definition moments_re1 W u := of_sums1 W (txn_sums W true u).

(** spreg/sp_panels.py:103-104, panel.py:1152-1153: the six equations in four unknowns *)
Definition moments6 (m0 : 'M[R]_3 * 'cV[R]_3) (m1 : 'M[R]_(3, 4) * 'cV[R]_3) : 'M[R]_(3 + 3, 4) * 'cV[R]_(3 + 3) :=
  (col_mx (row_mx m0.1 (0 : 'cV[R]_3) : 'M[R]_(3, 3 + 1)) m1.1, col_mx m0.2 m1.2).
(** the parameter vector of spreg/utils.py:377-383 *)
Definition par4 (lam sv s1 : R) : 'cV[R]_4 := \col_i nth 0 [:: lam; lam ^+ 2; sv; s1] i.

(** spreg/sp_panels.py:453-474, panel.py:1284-1308 _get_Tau; power(2) and multiply are entrywise *)
Definition get_Tau W : 'M[R]_3 :=
  let T12 := 2%:R * trace_w2 W / n%:R in
  let wtw := W^T *m W in
  let T22 := \sum_i \sum_j wtw i j ^+ 2 in
  let T23 := \sum_i \sum_j wtw i j * (W j i + W i j) in
  let T33 := \sum_i ((\sum_j W j i * W i j) + wtw i i) in
  \matrix_(i, j) (nth 0 (nth [::] [:: [:: 2%:R * n%:R; T12; 0]; [:: T12; T22; T23]; [:: 0; T23; T33]] i) j / n%:R).
(** spreg/sp_panels.py:96-101, panel.py:1145-1150 Xi *)
Definition kkp_Xi W (full_weights : bool) (sig_v sig_1 : R) : 'M[R]_(2 * 3) :=
  let a : 'rV[R]_2 := \row_i nth 0 [:: sig_v * sig_v / (T%:R - 1); sig_1 * sig_1] i in
  kron (diag_mx a) (if full_weights then get_Tau W else 1%:M).
End Kkp.

Section Est.
Variables (R : rcfType) (T n k : nat).
Record kkp := Kkp { kk_b : 'cV[R]_k; kk_lam : R; kk_sv : R; kk_s1 : R; kk_predy : 'cV[R]_(T * n); kk_u : 'cV[R]_(T * n);
  kk_efilt : 'cV[R]_(T * n); kk_vm : 'M[R]_k; kk_start : R * R * R }.
(** spreg/sp_panels.py:80-125, panel.py:1128-1171.  The two calls of optim_moments are arguments: [opt1] gives (lambda1, sig_v),
    [opt2] (which has the weights Xi and the starting values) gives (lambda2, sig_vb, sig_1b).  get_spFilter of a panel is
    x - lambda (I (x) W) x (spreg/utils.py:423-468).  betas is stacked over lambda2, sig_vb, sig_1b. *)
Definition base_gm_kkp (moments0 : 'M[R]_n -> 'cV[R]_(T * n) -> 'M[R]_3 * 'cV[R]_3)
    (moments1 : 'M[R]_n -> 'cV[R]_(T * n) -> 'M[R]_(3, 4) * 'cV[R]_3)
    (opt1 : 'M[R]_3 * 'cV[R]_3 -> R * R) (opt2 : 'M[R]_(3 + 3, 4) * 'cV[R]_(3 + 3) -> 'M[R]_(2 * 3) -> R * R * R -> R * R * R)
    (y : 'cV[R]_(T * n)) (x : 'M[R]_(T * n, k)) (W : 'M[R]_n) (full_weights : bool) : option kkp :=
  if base_ols y x RobNone None true is Some o then
    let u := o_u o in
    let m0 := moments0 W u in
    let: (lambda1, sig_v) := opt1 m0 in
    let ulu := u - lambda1 *: (kkp_Tw T W *m u) in
    let sig_1 := dot ulu (kkp_Q1 R T n *m ulu) / n%:R in
    let: (lam, sv, s1) := opt2 (moments6 m0 (moments1 W u)) (kkp_Xi T W full_weights sig_v sig_1) (lambda1, sig_v, sig_1) in
    let theta := 1 - Num.sqrt sv / Num.sqrt s1 in
    let gls_w := 1%:M - theta *: kkp_Q1 R T n in
    let xs := gls_w *m (x - lam *: (kkp_Tw T W *m x)) in
    let ys := gls_w *m (y - lam *: (kkp_Tw T W *m y)) in
    if base_ols ys xs RobNone None true is Some s then
      let predy := x *m o_betas s in
      let e := y - predy in
      Some (Kkp (o_betas s) lam sv s1 predy e (e - lam *: (kkp_Tw T W *m e)) (o_vm s) (lambda1, sig_v, sig_1))
    else None
  else None.
End Est.
