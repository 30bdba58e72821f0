(** Covariance matrices of the GM error estimators with heteroskedastic and homoskedastic innovations:
    spreg/error_sp_het.py:1540-1769, spreg/error_sp_hom.py:1545-1719.  Exact arithmetic; la.inv raises on a singular matrix (None);
    sparse matrices are dense.  reg.x, reg.z, reg.h, reg.u are arguments. *)
From mathcomp Require Import all_ssreflect all_algebra.
From Verif Require Import LinRegModel FilterModel.
Set Implicit Arguments.
Unset Strict Implicit.
Unset Printing Implicit Defensive.
Import Order.TTheory GRing.Theory Num.Theory.
Local Open Scope ring_scope.

Section Gvm.
Variable R : realFieldType.
Notation obind x f := (if x is Some v then f v else None).
(** a 2 x 2 array *)
Definition mx2 (a b c d : R) : 'M[R]_2 := \matrix_(i, j) nth 0 (nth [::] [:: [:: a; b]; [:: c; d]] i) j.
(** np.array([[1], [2 * lamb]]) *)
Definition gv_j (G : 'M[R]_2) (lam : R) : 'cV[R]_2 := G *m \col_i nth 0 [:: 1; 2%:R * lam] i.
Section Het.
Variables (n k h : nat).
Implicit Types (W E : 'M[R]_n) (u : 'cV[R]_n).
(** spreg/error_sp_het.py:1540-1557 get_psi_sigma *)
Definition get_psi_sigma W u (lam : R) : 'M[R]_n := diag_mx (\row_i (u - lam *: (W *m u)) i 0 ^+ 2).
(** spreg/error_sp_het.py:1560-1598 get_vc_het *)
Definition get_vc_het W (A1 : 'M[R]_n) E : 'M[R]_2 :=
  let aPatE := (2%:R *: A1) *m E in
  let wPwtE := (W + W^T) *m E in
  let psi11 := \tr (aPatE *m aPatE) in
  let psi12 := \tr (aPatE *m wPwtE) in
  let psi22 := \tr (wPwtE *m wPwtE) in
  (2%:R * n%:R)^-1 *: mx2 psi11 psi12 psi12 psi22.
(** spreg/error_sp_het.py:1601-1646 get_vm_het *)
Definition get_vm_het (G : 'M[R]_2) (lam : R) (x : 'M[R]_(n, k)) u W (psi : 'M[R]_2) : option 'M[R]_(k + 1) :=
  let J := gv_j G lam in
  let Zs := sp_filter W lam x in
  let ZstEZs := Zs^T *m get_psi_sigma W u lam *m Zs in
  obind (la_inv (Zs^T *m Zs)) (fun ZsZsi =>
  let omega11 := n%:R *: (ZsZsi *m ZstEZs *m ZsZsi) in
  obind (la_inv psi) (fun psii =>
  obind (la_inv (J^T *m psii *m J)) (fun omega22 =>
  Some (n%:R^-1 *: block_mx omega11 0 0 omega22)))).
(** spreg/error_sp_het.py:1649-1657 get_P_hat *)
Definition get_P_hat (hm : 'M[R]_(n, h)) (hthi : 'M[R]_h) (zf : 'M[R]_(n, k)) : option 'M[R]_(h, k) :=
  let htzf := hm^T *m zf in
  let P1 := hthi *m htzf in
  let P2 := htzf^T *m P1 in
  obind (la_inv P2) (fun P2i => Some (n%:R *: (P1 *m P2i))).
(** spreg/error_sp_het.py:1660-1692 get_a1a2 with filt=True: the columns a1, a2 *)
Definition get_a1a2 W (A1 : 'M[R]_n) (hm : 'M[R]_(n, h)) u (lam : R) (P : 'M[R]_(h, k)) (zs : 'M[R]_(n, k)) : 'cV[R]_n * 'cV[R]_n :=
  let us := sp_filter W lam u in
  let alpha1 := (- 2%:R / n%:R) *: (zs^T *m A1 *m us) in
  let alpha2 := (- 1 / n%:R) *: (zs^T *m (W + W^T) *m us) in
  (hm *m P *m alpha1, hm *m P *m alpha2).
(** spreg/error_sp_het.py:1695-1713 get_vc_het_tsls with save_a1a2=True *)
Definition get_vc_het_tsls W (A1 : 'M[R]_n) (hm : 'M[R]_(n, h)) u (lam : R) (P : 'M[R]_(h, k)) (zs : 'M[R]_(n, k)) : 'M[R]_2 * 'cV[R]_n * 'cV[R]_n :=
  let sigma := get_psi_sigma W u lam in
  let vc1 := get_vc_het W A1 sigma in
  let (a1, a2) := get_a1a2 W A1 hm u lam P zs in
  let a1s := a1^T *m sigma in
  let a2s := a2^T *m sigma in
  let psi0 := n%:R^-1 *: mx2 ((a1s *m a1) 0 0) ((a1s *m a2) 0 0) ((a2s *m a1) 0 0) ((a2s *m a2) 0 0) in
  (vc1 + psi0, a1, a2).
(** spreg/error_sp_het.py:1716-1768 get_Omega_GS2SLS *)
Definition get_Omega_GS2SLS W (lam : R) (hm : 'M[R]_(n, h)) u (G psi : 'M[R]_2) (a1 a2 : 'cV[R]_n) (P : 'M[R]_(h, k)) : option 'M[R]_(k + 1) :=
  let sigma := get_psi_sigma W u lam in
  let psi_dd_1 := n%:R^-1 *: (hm^T *m sigma) in
  let psi_dd := psi_dd_1 *m hm in
  let psi_dl : 'M[R]_(h, 1 + 1) := psi_dd_1 *m row_mx a1 a2 in
  let psi_o : 'M[R]_(h + 2) := row_mx (col_mx psi_dd psi_dl^T) (col_mx psi_dl psi) in
  obind (la_inv psi) (fun psii =>
  let j := gv_j G lam in
  let jtpsii := j^T *m psii in
  let jtpsiij := jtpsii *m j in
  obind (la_inv jtpsiij) (fun jtpsiiji =>
  let omega_1 := jtpsiiji *m jtpsii in
  let omega_2 := psii *m j *m jtpsiiji in
  let omega_left := row_mx (col_mx P^T 0) (col_mx 0 omega_1) in
  let omega_right := row_mx (col_mx P 0) (col_mx 0 omega_2) in
  Some (n%:R^-1 *: (omega_left *m psi_o *m omega_right)))).
(** spreg/error_sp_het.py:142-167, 642-646: the covariance matrix of BaseGM_Error_Het, of BaseGM_Endog_Error_Het (tsls.hthi = inv(h'h)) *)
Definition vm_error_het (G : 'M[R]_2) (lam : R) (x : 'M[R]_(n, k)) u W A1 : option 'M[R]_(k + 1) :=
  get_vm_het G lam x u W (get_vc_het W A1 (get_psi_sigma W u lam)).
Definition vm_endog_het (G : 'M[R]_2) (lam : R) (z : 'M[R]_(n, k)) (hm : 'M[R]_(n, h)) u W A1 : option 'M[R]_(k + 1) :=
  obind (la_inv (hm^T *m hm)) (fun hthi =>
  let zs := sp_filter W lam z in
  obind (get_P_hat hm hthi zs) (fun P =>
  let: (psi, a1, a2) := get_vc_het_tsls W A1 hm u lam P zs in
  get_Omega_GS2SLS W lam hm u G psi a1 a2 P)).
End Het.
Section Hom.
Variables (n k h : nat).
Implicit Types (W : 'M[R]_n) (u : 'cV[R]_n).
Definition gv_sig2 (us : 'cV[R]_n) : R := dot us us / n%:R.
Definition gv_mu3 (us : 'cV[R]_n) : R := (\sum_i us i 0 ^+ 3) / n%:R.
Definition gv_mu4 (us : 'cV[R]_n) : R := (\sum_i us i 0 ^+ 4) / n%:R.
Definition gv_vecd A1 : 'cV[R]_n := \col_i A1 i i.
(** spreg/error_sp_hom.py:1580-1600, 1625: psi without endogenous variables (z_s=None) *)
Definition hom_psi_n W (A1 A2 : 'M[R]_n) u (lam : R) : R * R * R :=
  let us := sp_filter W lam u in
  let sig2 := gv_sig2 us in
  let mu4 := gv_mu4 us in
  let tr11 := \tr (A1 *m A1) in
  let tr12 := \tr (A1 *m (2%:R *: A2)) in
  let tr22 := \tr (2%:R *: (A2 *m A2)) in
  let vecd1 := gv_vecd A1 in
  (2%:R * sig2 ^+ 2 * tr11 + (mu4 - 3%:R * sig2 ^+ 2) * dot vecd1 vecd1, sig2 ^+ 2 * tr12, sig2 ^+ 2 * tr22).
Definition get_vc_hom W (A1 A2 : 'M[R]_n) u (lam : R) : 'M[R]_2 :=
  let: (psi11, psi12, psi22) := hom_psi_n W A1 A2 u lam in n%:R^-1 *: mx2 psi11 psi12 psi12 psi22.
(** spreg/error_sp_hom.py:1545-1625 get_vc_hom with z_s: psi, a1, a2, p *)
Definition get_vc_hom_z W (A1 A2 : 'M[R]_n) (hm : 'M[R]_(n, h)) u (lam : R) (zs : 'M[R]_(n, k)) : option ('M[R]_2 * 'cV[R]_n * 'cV[R]_n * 'M[R]_(h, k)) :=
  let us := sp_filter W lam u in
  let: (psi11, psi12, psi22) := hom_psi_n W A1 A2 u lam in
  let vecd1 := gv_vecd A1 in
  let alpha1 := (- 2%:R / n%:R) *: (zs^T *m (A1 *m us)) in
  let alpha2 := (- 2%:R / n%:R) *: (zs^T *m (A2 *m us)) in
  obind (la_inv (n%:R^-1 *: (hm^T *m hm))) (fun hthni =>
  let htzsn := n%:R^-1 *: (hm^T *m zs) in
  let p0 := hthni *m htzsn in
  obind (la_inv (htzsn^T *m p0)) (fun pi =>
  let p := p0 *m pi in
  let hp := hm *m p in
  let a1 := hp *m alpha1 in
  let a2 := hp *m alpha2 in
  let sig2 := gv_sig2 us in
  let mu3 := gv_mu3 us in
  let psi11 := psi11 + sig2 * dot a1 a1 + 2%:R * mu3 * dot a1 vecd1 in
  let psi12 := psi12 + sig2 * dot a1 a2 + mu3 * dot a2 vecd1 in
  let psi22 := psi22 + sig2 * dot a2 a2 in
  Some (n%:R^-1 *: mx2 psi11 psi12 psi12 psi22, a1, a2, p))).
(** spreg/error_sp_hom.py:1628-1674 get_omega_hom *)
Definition get_omega_hom W (A1 A2 : 'M[R]_n) (z : 'M[R]_(n, k)) (hm : 'M[R]_(n, h)) u (lam : R) (G : 'M[R]_2) : option ('M[R]_(k + 1) * R) :=
  let zs := sp_filter W lam z in
  let us := sp_filter W lam u in
  let sig2 := gv_sig2 us in
  let mu3 := gv_mu3 us in
  obind (get_vc_hom_z W A1 A2 hm u lam zs) (fun r =>
  let: (psi, a1, a2, p) := r in
  let j := gv_j G lam in
  obind (la_inv psi) (fun psii =>
  let psiDL : 'M[R]_(h, 1 + 1) := n%:R^-1 *: (mu3 *: (hm^T *m row_mx (gv_vecd A1) 0) + sig2 *: (hm^T *m row_mx a1 a2)) in
  obind (la_inv (hm^T *m hm)) (fun hthi =>
  obind (la_inv (zs^T *m (hm *m (hthi *m (hm^T *m zs))))) (fun zpzi =>
  let oDD := sig2 *: zpzi in
  obind (la_inv (j^T *m (psii *m j))) (fun ji =>
  let oLL := n%:R^-1 *: ji in
  let oDL := p^T *m psiDL *m (psii *m j) *m oLL in
  Some (col_mx (row_mx oDD oDL) (row_mx oDL^T oLL), sig2)))))).
(** spreg/error_sp_hom.py:1677-1719 get_omega_hom_ols; psiDL is computed with reg.x, not with the filtered x_s *)
Definition get_omega_hom_ols W (A1 A2 : 'M[R]_n) (x : 'M[R]_(n, k)) u (lam : R) (G : 'M[R]_2) : option ('M[R]_(k + 1) * R) :=
  let xs := sp_filter W lam x in
  let us := sp_filter W lam u in
  let sig2 := gv_sig2 us in
  let psi := get_vc_hom W A1 A2 u lam in
  obind (la_inv (n%:R^-1 *: (xs^T *m xs))) (fun p =>
  let j := gv_j G lam in
  obind (la_inv psi) (fun psii =>
  obind (la_inv (xs^T *m xs)) (fun xxi =>
  let oDD := sig2 *: xxi in
  obind (la_inv (j^T *m (psii *m j))) (fun ji =>
  let oLL := n%:R^-1 *: ji in
  let mu3 := gv_mu3 us in
  let psiDL : 'M[R]_(k, 1 + 1) := n%:R^-1 *: (mu3 *: (x^T *m row_mx (gv_vecd A1) 0)) in
  let oDL := p^T *m psiDL *m (psii *m j) *m oLL in
  Some (col_mx (row_mx oDD oDL) (row_mx oDL^T oLL), sig2))))).
End Hom.
End Gvm.
