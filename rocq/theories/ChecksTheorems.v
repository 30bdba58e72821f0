(** Property theorems C04 (arrays), C05 (constants), C06 (robust/spatial diagnostics options),
    C57 (y, weights and regime list validation). *)
From Verif Require Import PyBase ChecksModel ChecksProofs.
Open Scope string_scope.
Open Scope list_scope.
Open Scope nat_scope.

(** C04. Specification of an acceptable argument with n rows. *)
Definition acceptable (n : nat) (a : arg) : Prop :=
  a = ANone \/
  (exists c, a = AArr [n; c] true /\ c <= n) \/
  (a = AArr [n] true /\ 1 <= n).

Theorem C04_check_arrays : forall (args : list arg) (n : nat),
  check_arrays args = Ok n <->
  (exists a, In a args /\ a <> ANone) /\ Forall (acceptable n) args.
Proof.
  intros args n. rewrite check_arrays_iff, Forall_forall.
  assert (E : forall a, (a <> ANone -> arr_rows a n) <-> acceptable n a).
  { intros a. unfold acceptable. split.
    - intros H. destruct a as [|shape fin|]; auto.
      + specialize (H ltac:(discriminate)). right.
        destruct shape as [|d [|c [|e s]]], fin; cbn in H; try contradiction; destruct H as [-> H].
        * right; auto.
        * left; eauto.
      + destruct (H ltac:(discriminate)).
    - intros [->|[(c & -> & Hc)|[-> Hn]]] Hne; [congruence| |]; cbn; auto. }
  split; intros [H1 H2]; split; auto; intros a Ha; [apply E; auto|apply E, H2; auto].
Qed.

(** at most one n can be returned, and it does not depend on the order of the arguments *)
Theorem C04_check_arrays_order : forall args args' n, (forall a, In a args <-> In a args') ->
  check_arrays args = Ok n -> check_arrays args' = Ok n.
Proof.
  intros args args' n He. rewrite !C04_check_arrays, !Forall_forall. intros [(a & Ha & Hn) H2]. split.
  - exists a. rewrite <- He. auto.
  - intros b Hb. apply H2, He, Hb.
Qed.

Example C04_witness : check_arrays [AArr [5] true; ANone; AArr [5; 3] true] = Ok 5 /\
  is_ok (check_arrays [ANone; ANone]) = false /\ is_ok (check_arrays [AArr [2; 3] true]) = false.
Proof. repeat split. Qed.

(** C05.  [deref h r] is the content of the Python list object r; [h'] is the heap afterwards. *)
Definition constant_col (c : list Z) : Prop := exists v, forall z, In z c -> z = v.

(** [selects keep_p l m out]: out is the sublist of l at the positions where the column satisfies [keep_p]. *)
Inductive selects {A} (p : list Z -> Prop) : list (list Z) -> list A -> list A -> Prop :=
| sel_nil : selects p [] [] []
| sel_keep c x a l out : p c -> selects p x l out -> selects p (c :: x) (a :: l) (a :: out)
| sel_drop c x a l out : ~ p c -> selects p x l out -> selects p (c :: x) (a :: l) out.

Lemma compress_selects {A} x (l : list A) : (forall c, In c x -> c <> []) -> List.length l = List.length x ->
  selects (fun c => ~ constant_col c) x l (compress l (map negb (map constb x))).
Proof.
  revert l; induction x as [|c x IH]; intros [|a l] Hne H; cbn in *; try discriminate; [constructor|].
  assert (Hc : c <> []) by (apply Hne; auto).
  destruct (constb c) eqn:E; cbn [negb].
  - apply sel_drop; [|apply IH; auto]. intros Hn. apply Hn. now apply constb_true.
  - apply sel_keep; [|apply IH; auto]. intros Hn. apply constb_true in Hn; auto. congruence.
Qed.

Theorem C05_check_constant : forall (h : heap) (nrows : nat) (x : list (list Z)) (name_x : option ref) (just_rem : bool),
  (forall c, In c x -> c <> []) ->
  (forall r, name_x = Some r -> r < List.length h /\ List.length (deref h r) = List.length x) ->
  exists h' cols keep removed,
    check_constant h nrows x name_x just_rem =
      Ok (h', (if just_rem then [] else [repeat 1%Z nrows]) ++ cols, keep, removed) /\
    (* the varying columns, in order *)
    selects (fun c => ~ constant_col c) x x cols /\
    (* every list that existed before the call is unchanged: the caller's name list is not mutated *)
    (forall k, k < List.length h -> deref h' k = deref h k) /\
    (* the returned list is a new object holding the names of exactly those columns *)
    (forall r, name_x = Some r -> exists r', keep = Some r' /\ List.length h <= r' /\
        selects (fun c => ~ constant_col c) x (deref h r) (deref h' r')) /\
    (name_x = None -> keep = None) /\
    removed + List.length cols = List.length x.
Proof.
  intros h nrows x name_x jr Hne Hn.
  destruct (check_constant_spec h nrows x name_x jr Hne Hn) as (h' & keep & E & Hold & Hk).
  exists h', (compress x (map negb (map constb x))), keep, (List.length (filter (fun b => b) (map constb x))).
  split; [exact E|]. split; [now apply compress_selects|]. split; [exact Hold|]. split; [|split].
  - intros r ->. destruct (Hn r eq_refl) as [Hr Hl]. destruct keep as [r'|]; [|contradiction].
    destruct Hk as [H1 H2]. exists r'. split; auto. split; auto. rewrite H2. now apply compress_selects.
  - intros ->. destruct keep; [contradiction|auto].
  - clear. induction x as [|c x IH]; cbn; auto. destruct (constb c); cbn; lia.
Qed.

Example C05_witness :
  check_constant [["a"; "k"; "b"]] 3 [[1;2;3]; [7;7;7]; [4;4;5]]%Z (Some 0) false =
  Ok ([["a"; "k"; "b"]; ["a"; "b"]], [[1;1;1]; [1;2;3]; [4;4;5]]%Z, Some 1, 1).
Proof. reflexivity. Qed.

(** C06. *)
Definition valid_robust (robust : option string) (wk : option kern) : Prop :=
  robust = None \/ robust = Some "" \/
  (exists s, robust = Some s /\ (lower s = "white" \/ lower s = "ogmm")) \/
  (exists s k, robust = Some s /\ lower s = "hac" /\ wk = Some k /\
     k_diag k <> [] /\ (forall d, In d (k_diag k) -> (d == 1)%Q) /\
     (forall row, In row (k_weights k) -> row <> [] /\ forall v, In v row -> (0 <= v /\ v <= 1)%Q)).

Theorem C06_check_robust : forall robust wk, check_robust robust wk = Ok tt <-> valid_robust robust wk.
Proof.
  intros [s|] wk; unfold valid_robust; [|split; [auto|reflexivity]].
  destruct (String.eqb_spec s "") as [->|Hs].
  { split; [auto|reflexivity]. }
  apply String.eqb_neq in Hs.
  destruct (String.eqb_spec (lower s) "hac") as [El|El].
  - rewrite (check_robust_hac s wk Hs El). split.
    + intros (k & -> & H). right; right; right. exists s, k. unfold good_kernel in H. tauto.
    + intros [H|[H|[(s' & H & [H'|H'])|(s' & k & H & _ & -> & H')]]]; try discriminate.
      * injection H as ->. discriminate Hs.
      * injection H as <-. congruence.
      * injection H as <-. congruence.
      * exists k. auto.
  - unfold check_robust. rewrite Hs. apply String.eqb_neq in El. rewrite El. apply String.eqb_neq in El.
    destruct (String.eqb_spec (lower s) "white") as [E1|E1], (String.eqb_spec (lower s) "ogmm") as [E2|E2]; cbn [orb];
      (split; [try discriminate|]); try (intros _; right; right; left; exists s; auto; fail); try reflexivity.
    intros [H|[H|[(s' & H & [H'|H'])|(s' & k & H & H' & _)]]]; try discriminate; injection H as H; subst; try congruence; discriminate Hs.
Qed.

(** Diagnostics are switched off when HAC is requested in lower case (with a warning), and only then or for SLX
    models with kernel weights.  Missing: the other spellings check_robust accepts. *)
Theorem C06_spat_diag_partial : forall sd kern robust slx_lags flag warn,
  check_spat_diag sd kern robust slx_lags = Ok (flag, warn) ->
  (robust = Some "hac" -> flag = false) /\
  (flag = sd \/ warn = true) /\
  (flag = true -> sd = true) /\
  (sd = true -> flag = false -> robust = Some "hac" \/ (kern = true /\ exists k, slx_lags = Some k /\ 0 < k)).
Proof.
  intros sd kern robust slx flag warn H. unfold check_spat_diag in H.
  assert (Hh : forall s, String.eqb s "hac" = true -> s = "hac") by (intros s Hs; now apply String.eqb_eq).
  destruct robust as [s|]; [destruct (String.eqb s "hac") eqn:E|]; destruct sd; cbn [andb] in H.
  - injection H as <- <-. repeat split; auto; try congruence. intros _ _. left. f_equal; auto.
  - injection H as <- <-. repeat split; auto; congruence.
  - destruct kern; [|injection H as <- <-; repeat split; auto; try congruence; intros E'; injection E' as ->; discriminate E].
    destruct slx as [k|]; [|discriminate]. destruct (Nat.ltb_spec 0 k); injection H as <- <-; repeat split; auto; try congruence.
    + intros _ _. right. eauto.
    + intros E'; injection E' as ->; discriminate E.
  - injection H as <- <-. repeat split; auto; congruence.
  - destruct kern; [|injection H as <- <-; repeat split; auto; congruence].
    destruct slx as [k|]; [|discriminate]. destruct (Nat.ltb_spec 0 k); injection H as <- <-; repeat split; auto; try congruence.
    intros _ _. right. eauto.
  - injection H as <- <-. repeat split; auto; congruence.
Qed.

(** "HAC" passes check_robust but leaves the spatial diagnostics on. *)
Theorem C06_spat_diag_case_refuted :
  check_robust (Some "HAC") (Some {| k_diag := [1]; k_weights := [[1]] |})%Q = Ok tt /\
  check_spat_diag true false (Some "HAC") (Some 0) = Ok (true, false).
Proof. split; reflexivity. Qed.

Example C06_witness : valid_robust (Some "White") None /\ ~ valid_robust (Some "foo") None.
Proof.
  split.
  - right; right; left. exists "White". auto.
  - intros H. apply C06_check_robust in H. discriminate H.
Qed.

(** C57 *)
Theorem C57_check_y : forall shape d fin n out,
  check_y shape d fin n = Ok out <-> out = [n; 1] /\ d = DNum /\ fin = true /\ (shape = [n] \/ shape = [n; 1]).
Proof.
  intros shape d fin n out. unfold check_y. split.
  - destruct shape as [|r [|c [|e s]]]; cbn [List.length Nat.ltb Nat.leb bind]; try discriminate.
    + destruct (Nat.eqb_spec r n) as [->|]; cbn [bind]; [|discriminate]. rewrite Nat.eqb_refl. cbn.
      destruct d, fin; cbn; try discriminate. intros H; injection H as <-. auto.
    + destruct (Nat.eqb_spec r n) as [->|], (Nat.eqb_spec c 1) as [->|]; cbn; try discriminate.
      destruct d, fin; cbn; try discriminate. intros H; injection H as <-. auto.
  - intros (-> & -> & -> & [-> | ->]); cbn; rewrite Nat.eqb_refl; cbn; rewrite ?Nat.eqb_refl; reflexivity.
Qed.

(** a weights object is accepted for a spatial model exactly when it is a non-kernel n x n matrix with zero diagonal,
    or a kernel one for a first-order SLX model where the caller allows it (its diagonal is then zeroed) *)
Theorem C57_check_weights : forall w nrow req slx allow w',
  check_weights (Some w) nrow req false slx allow = Ok (Some w') <->
  w_n w = nrow /\
  ((w_kernel w = false /\ w' = w /\ (forall d, In d (w_diag w) -> (d == 0)%Q)) \/
   (w_kernel w = true /\ slx = 1 /\ allow = true /\
    w' = {| w_kernel := false; w_n := w_n w; w_diag := map (fun _ => 0%Q) (w_diag w) |})).
Proof.
  intros w nrow req slx allow w'. unfold check_weights. rewrite orb_true_r. cbn [orb].
  destruct w as [ker n diag]; cbn [w_kernel w_n w_diag].
  assert (Ez : forall l : list Q, forallb (fun d => Qeq_bool d 0) (map (fun _ => 0%Q) l) = true).
  { intros l. induction l; cbn; auto. }
  assert (Ed : forallb (fun d => Qeq_bool d 0) diag = true <-> forall d, In d diag -> (d == 0)%Q).
  { rewrite forallb_forall. split; intros H d Hd; apply Qeq_bool_iff || apply Qeq_bool_iff; auto. }
  destruct ker; rewrite ?andb_true_r, ?andb_false_r; cbn [andb].
  - destruct (Nat.eqb_spec slx 1) as [->|Hs]; cbn [andb].
    + destruct allow; cbn [bind Nat.ltb Nat.leb Nat.eqb negb orb w_n w_diag].
      * rewrite andb_true_r, Ez. destruct (Nat.eqb_spec n nrow) as [->|Hn]; cbn [negb].
        -- split.
           ++ intros H; injection H as <-. split; auto.
           ++ intros (_ & [(H & _)|(_ & _ & _ & ->)]); [discriminate H|reflexivity].
        -- split; [discriminate|]. intros (H & _). congruence.
      * split; [discriminate|]. intros (_ & [(H & _)|(_ & _ & H & _)]); discriminate H.
    + destruct (1 <? slx) eqn:E1; cbn [bind].
      * split; [discriminate|]. intros (_ & [(H & _)|(_ & H & _)]); [discriminate H|congruence].
      * assert (slx = 0) as -> by (apply Nat.ltb_ge in E1; lia). cbn.
        split; [discriminate|]. intros (_ & [(H & _)|(_ & H & _)]); discriminate H.
  - cbn [bind w_n w_diag]. destruct (Nat.eqb_spec n nrow) as [->|Hn]; cbn [negb].
    + destruct (forallb (fun d => Qeq_bool d 0) diag) eqn:E.
      * split.
        -- intros H; injection H as <-. split; auto. left. split; auto. split; auto. now apply Ed.
        -- intros (_ & [(_ & -> & _)|(H & _)]); [reflexivity|discriminate H].
      * split; [discriminate|]. intros (_ & [(_ & _ & H)|(H & _)]); [|discriminate H].
        apply Ed in H. congruence.
    + split; [discriminate|]. intros (H & _). congruence.
Qed.

Theorem C57_check_regimes : forall (A : Type) (regs : list A) n nr K,
  (check_reg_list regs n = Ok regs <-> List.length regs = n) /\
  (check_regimes nr n K = Ok tt <-> 2 <= nr /\ (K + 1) * nr <= n).
Proof.
  intros A regs n nr K. split.
  - unfold check_reg_list. destruct (Nat.eqb_spec (List.length regs) n); split; auto; congruence.
  - unfold check_regimes. destruct (Nat.ltb_spec nr 2); [split; [discriminate|lia]|].
    destruct (Nat.ltb_spec n ((K + 1) * nr)); split; try discriminate; auto; lia.
Qed.

Theorem C57_check_regi_args : forall cr c2r sep flag,
  check_regi_args cr c2r sep flag = false <-> cr = "many" /\ c2r = "all" /\ sep = flag.
Proof.
  intros cr c2r sep flag. unfold check_regi_args. rewrite !orb_false_iff, !negb_false_iff, !String.eqb_eq.
  rewrite Bool.eqb_true_iff. tauto.
Qed.

Example C57_witness :
  check_weights (Some {| w_kernel := true; w_n := 2; w_diag := [1;1] |})%Q 2 true false 1 true =
  Ok (Some {| w_kernel := false; w_n := 2; w_diag := [0;0] |})%Q /\ check_regimes 2 10 4 = Ok tt.
Proof. split; reflexivity. Qed.

Print Assumptions C04_check_arrays.
Print Assumptions C04_check_arrays_order.
Print Assumptions C05_check_constant.
Print Assumptions C06_check_robust.
Print Assumptions C06_spat_diag_partial.
Print Assumptions C06_spat_diag_case_refuted.
Print Assumptions C57_check_y.
Print Assumptions C57_check_weights.
Print Assumptions C57_check_regimes.
Print Assumptions C57_check_regi_args.
