From Verif Require Import PyBase ChecksModel.
Open Scope string_scope.
Open Scope list_scope.
Open Scope nat_scope.

(** what an acceptable array argument is, with its number of rows *)
Definition arr_rows (a : arg) (r : nat) : Prop :=
  match a with
  | AArr [d] true => d = r /\ 1 <= r
  | AArr [d; c] true => d = r /\ c <= r
  | _ => False
  end.

Definition given (a : arg) : Prop := a <> ANone.

Lemma step_err e args : fold_left check_arrays_step args (Err e) = Err e.
Proof. induction args; cbn; auto. Qed.

Lemma arr_rows_fun a r r' : arr_rows a r -> arr_rows a r' -> r = r'.
Proof.
  destruct a as [|[|d [|c [|e s]]] [|]|]; cbn; try tauto; intros [-> _] [-> _]; auto.
Qed.

(** the list of row counts collected from a list of acceptable arguments *)
Fixpoint rows_of (args : list arg) : option (list nat) :=
  match args with
  | [] => Some []
  | ANone :: t => rows_of t
  | AArr [d] true :: t => if 1 <=? d then option_map (cons d) (rows_of t) else None
  | AArr [d; c] true :: t => if c <=? d then option_map (cons d) (rows_of t) else None
  | _ :: _ => None
  end.

Lemma step_1 rs d fin : check_arrays_step (Ok rs) (AArr [d] fin) =
  if d <? 1 then Err "more columns than rows" else if negb fin then Err "missing/NaN values" else Ok (rs ++ [d]).
Proof. reflexivity. Qed.
Lemma step_2 rs d c fin : check_arrays_step (Ok rs) (AArr [d; c] fin) =
  if d <? c then Err "more columns than rows" else if negb fin then Err "missing/NaN values" else Ok (rs ++ [d]).
Proof. reflexivity. Qed.

Lemma fold_rows args rs :
  match rows_of args with
  | Some new => fold_left check_arrays_step args (Ok rs) = Ok (rs ++ new)
  | None => exists e, fold_left check_arrays_step args (Ok rs) = Err e
  end.
Proof.
  revert rs; induction args as [|a args IH]; intros rs; cbn [fold_left].
  - cbn. now rewrite app_nil_r.
  - destruct a as [|shape fin|].
    + cbn [rows_of check_arrays_step bind]. apply IH.
    + destruct shape as [|d [|c [|e s]]].
      * cbn. rewrite step_err. eauto.
      * cbn [rows_of]. rewrite step_1.
        destruct fin; [|destruct (d <? 1); cbn [negb]; rewrite step_err; eauto].
        destruct (Nat.leb_spec 1 d), (Nat.ltb_spec d 1); try lia.
        -- specialize (IH (rs ++ [d])). destruct (rows_of args); cbn [option_map negb]; auto.
           rewrite IH, <- app_assoc. reflexivity.
        -- rewrite step_err; eauto.
      * cbn [rows_of]. rewrite step_2.
        destruct fin; [|destruct (d <? c); cbn [negb]; rewrite step_err; eauto].
        destruct (Nat.leb_spec c d), (Nat.ltb_spec d c); try lia.
        -- specialize (IH (rs ++ [d])). destruct (rows_of args); cbn [option_map negb]; auto.
           rewrite IH, <- app_assoc. reflexivity.
        -- rewrite step_err; eauto.
      * cbn. rewrite step_err. eauto.
    + cbn. rewrite step_err; eauto.
Qed.

Lemma all_equal_spec r t : all_equal (r :: t) = true <-> forall s, In s (r :: t) -> s = r.
Proof.
  cbn. rewrite forallb_forall. split.
  - intros H s [<-|Hs]; auto. apply H in Hs. now apply Nat.eqb_eq in Hs.
  - intros H s Hs. apply Nat.eqb_eq. symmetry. auto.
Qed.

Lemma rows_of_spec args new : rows_of args = Some new ->
  (forall a, In a args -> a <> ANone -> exists r, arr_rows a r /\ In r new) /\
  (forall r, In r new -> exists a, In a args /\ arr_rows a r).
Proof.
  revert new; induction args as [|a args IH]; cbn [rows_of]; intros new H.
  - injection H as <-. cbn. tauto.
  - destruct a as [|shape fin|]; try discriminate.
    + destruct (IH new H) as [H1 H2]. split.
      * intros a [<-|Ha] Hn; [congruence|auto].
      * intros r Hr. destruct (H2 r Hr) as (a & ? & ?). exists a; cbn; auto.
    + assert (Hx : exists d t, arr_rows (AArr shape fin) d /\ rows_of args = Some t /\ new = d :: t).
      { destruct shape as [|d [|c [|e s]]]; try discriminate; destruct fin; try discriminate.
        - destruct (Nat.leb_spec 1 d); try discriminate. destruct (rows_of args) as [t|]; try discriminate.
          injection H as <-. exists d, t. cbn; auto.
        - destruct (Nat.leb_spec c d); try discriminate. destruct (rows_of args) as [t|]; try discriminate.
          injection H as <-. exists d, t. cbn; auto. }
      destruct Hx as (d & t & Ha & Et & ->). destruct (IH t Et) as [H1 H2]. split.
      * intros b [<-|Hb] Hn; [exists d; cbn; auto|]. destruct (H1 b Hb Hn) as (r & ? & ?). exists r; cbn; auto.
      * intros r [<-|Hr]; [eexists; cbn; eauto|]. destruct (H2 r Hr) as (b & ? & ?). exists b; cbn; auto.
Qed.

Lemma rows_of_complete args : (forall a, In a args -> a <> ANone -> exists r, arr_rows a r) -> rows_of args <> None.
Proof.
  induction args as [|a args IH]; cbn [rows_of]; [congruence|]. intros H.
  assert (IH' : rows_of args <> None) by (apply IH; intros b Hb; apply H; cbn; auto).
  destruct a as [|shape fin|]; auto.
  - destruct (H (AArr shape fin)) as (r & Hr); [cbn; auto|congruence|].
    destruct shape as [|d [|c [|e s]]]; cbn in Hr; destruct fin; try contradiction.
    + destruct (Nat.leb_spec 1 d); [|lia]. destruct (rows_of args); cbn; congruence.
    + destruct (Nat.leb_spec c d); [|lia]. destruct (rows_of args); cbn; congruence.
  - destruct (H AOther) as (r & []); cbn; auto. congruence.
Qed.

Lemma check_arrays_iff args n :
  check_arrays args = Ok n <->
  (exists a, In a args /\ a <> ANone) /\ (forall a, In a args -> a <> ANone -> arr_rows a n).
Proof.
  unfold check_arrays. pose proof (fold_rows args []) as F. split.
  - destruct (rows_of args) as [new|] eqn:E.
    + rewrite F. cbn [bind app]. destruct (rows_of_spec args new E) as [H1 H2].
      destruct new as [|r t]; [cbn; discriminate|].
      destruct (all_equal (r :: t)) eqn:Ea; cbn [negb]; [|discriminate]. intros H; injection H as ->.
      rewrite all_equal_spec in Ea. split.
      * destruct (H2 n) as (a & Ha & Hr); [cbn; auto|]. exists a; split; auto. intros ->. exact Hr.
      * intros a Ha Hn. destruct (H1 a Ha Hn) as (s & Hs & Hin). apply Ea in Hin. now subst.
    + destruct F as (e & ->). discriminate.
  - intros [(a0 & Ha0 & Hn0) H].
    assert (Hc : rows_of args <> None) by (apply rows_of_complete; eauto).
    destruct (rows_of args) as [new|] eqn:E; [|congruence]. rewrite F. cbn [bind app].
    destruct (rows_of_spec args new E) as [H1 H2].
    assert (Hall : forall r, In r new -> r = n).
    { intros r Hr. destruct (H2 r Hr) as (a & Ha & Hr'). apply (arr_rows_fun a); auto. apply H; auto.
      intros ->; exact Hr'. }
    destruct (H1 a0 Ha0 Hn0) as (r0 & _ & Hin). destruct new as [|r t]; [contradiction|].
    assert (r = n) by (apply Hall; cbn; auto). subst r.
    assert (Ea : all_equal (n :: t) = true) by (apply all_equal_spec; auto).
    rewrite Ea. reflexivity.
Qed.

(** ---- check_constant ---- *)
Definition is_constant (c : list Z) : Prop := exists v, forall z, In z c -> z = v.

Lemma fold_max_ge t a : (a <= fold_left Z.max t a)%Z /\ (forall z, In z t -> (z <= fold_left Z.max t a)%Z).
Proof.
  revert a; induction t as [|b t IH]; cbn; intros a; [split; [lia|tauto]|].
  destruct (IH (Z.max a b)) as [H1 H2]. split; [lia|]. intros z [<-|Hz]; [lia|auto].
Qed.
Lemma fold_min_le t a : (fold_left Z.min t a <= a)%Z /\ (forall z, In z t -> (fold_left Z.min t a <= z)%Z).
Proof.
  revert a; induction t as [|b t IH]; cbn; intros a; [split; [lia|tauto]|].
  destruct (IH (Z.min a b)) as [H1 H2]. split; [lia|]. intros z [<-|Hz]; [lia|auto].
Qed.
Lemma fold_max_in t a : In (fold_left Z.max t a) (a :: t).
Proof.
  revert a; induction t as [|b t IH]; cbn; intros a; auto.
  destruct (IH (Z.max a b)) as [H|H]; auto.
  destruct (Z.max_spec a b) as [[_ E]|[_ E]]; rewrite E in *; auto.
Qed.
Lemma fold_min_in t a : In (fold_left Z.min t a) (a :: t).
Proof.
  revert a; induction t as [|b t IH]; cbn; intros a; auto.
  destruct (IH (Z.min a b)) as [H|H]; auto.
  destruct (Z.min_spec a b) as [[_ E]|[_ E]]; rewrite E in *; auto.
Qed.

Lemma ptp_spec c d : ptp c = Ok d -> (d >= 0)%Z /\ (d = 0%Z <-> is_constant c).
Proof.
  destruct c as [|a t]; cbn; [discriminate|]. intros H; injection H as <-.
  destruct (fold_max_ge t a) as [M1 M2], (fold_min_le t a) as [m1 m2]. split; [lia|]. split.
  - intros E. exists a. intros z [<-|Hz]; auto. specialize (M2 z Hz); specialize (m2 z Hz). lia.
  - intros (v & Hv). pose proof (Hv _ (fold_max_in t a)). pose proof (Hv _ (fold_min_in t a)). lia.
Qed.

Lemma map_res_Forall2 {A B} (f : A -> res B) l out : map_res f l = Ok out -> Forall2 (fun a b => f a = Ok b) l out.
Proof.
  revert out; induction l as [|a l IH]; cbn; intros out H.
  - injection H as <-. constructor.
  - destruct (f a) as [b|] eqn:E; cbn in H; [|discriminate].
    destruct (map_res f l) as [bs|]; cbn in H; [|discriminate]. injection H as <-. constructor; auto.
Qed.

Lemma pick_compress names m : List.length m = List.length names ->
  pick names (nonzero m) = Ok (compress names m).
Proof.
  unfold nonzero. assert (G : forall (pre post : list string) m, List.length m = List.length post ->
    pick (pre ++ post) (nonzero_from (List.length pre) m) = Ok (compress post m)).
  { intros pre post. revert pre. induction post as [|p post IH]; intros pre [|b mm] H; cbn in H; try discriminate; auto.
    cbn [nonzero_from compress]. injection H as H.
    specialize (IH (pre ++ [p]) mm H). rewrite <- app_assoc, app_length in IH. cbn in IH.
    rewrite Nat.add_1_r in IH. unfold pick in *. destruct b; auto. cbn [map_res].
    rewrite nth_error_app2, Nat.sub_diag by lia. cbn. rewrite IH. reflexivity. }
  intros H. apply (G [] names m H).
Qed.

Lemma deref_assign h r v : r < List.length h -> deref (py_assign h r v) r = v.
Proof. unfold deref. revert r; induction h as [|a h IH]; intros [|r]; cbn; try lia; auto. intros; apply IH; lia. Qed.
Lemma deref_assign_other h r v k : k <> r -> deref (py_assign h r v) k = deref h k.
Proof.
  unfold deref. revert r k; induction h as [|a h IH]; intros [|r] [|k] Hk; cbn; auto; try lia.
Qed.
Lemma deref_app_old h l k : k < List.length h -> deref (h ++ [l]) k = deref h k.
Proof. intros. unfold deref. now apply app_nth1. Qed.
Lemma deref_app_new h l : deref (h ++ [l]) (List.length h) = l.
Proof. unfold deref. rewrite app_nth2, Nat.sub_diag by lia. reflexivity. Qed.

(** boolean constancy, used only inside proofs *)
Definition constb (c : list Z) : bool := match ptp c with Ok d => Z.eqb d 0 | Err _ => false end.

Lemma map_res_ptp_mask x diffs : map_res ptp x = Ok diffs -> map (fun d => Z.eqb d 0) diffs = map constb x.
Proof.
  intros H. apply map_res_Forall2 in H. induction H; cbn; auto. unfold constb at 1. rewrite H. now rewrite IHForall2.
Qed.
Lemma map_res_ptp_pos x diffs : map_res ptp x = Ok diffs ->
  map (fun d => (0 <? d)%Z) diffs = map negb (map (fun d => Z.eqb d 0) diffs).
Proof.
  intros H. apply map_res_Forall2 in H. induction H; cbn; auto. rewrite IHForall2. f_equal.
  apply ptp_spec in H. destruct (Z.ltb_spec 0 y), (Z.eqb_spec y 0); cbn; auto; lia.
Qed.

Lemma compress_true {A} (l : list A) : compress l (map (fun _ => true) l) = l.
Proof. induction l; cbn; congruence. Qed.

Lemma filter_none_mask {A} (f : A -> bool) l :
  List.length (filter (fun b => b) (map f l)) = 0 -> map negb (map f l) = map (fun _ => true) l.
Proof.
  induction l as [|a l IH]; cbn; auto. destruct (f a); cbn; [lia|]. intros H. f_equal; auto.
Qed.

(** main lemma: value of check_constant *)
Lemma check_constant_spec h nrows x name_x just_rem :
  (forall c, In c x -> c <> []) ->
  (forall r, name_x = Some r -> r < List.length h /\ List.length (deref h r) = List.length x) ->
  exists h' keep,
    check_constant h nrows x name_x just_rem =
      Ok (h', (if just_rem then [] else [repeat 1%Z nrows]) ++ compress x (map negb (map constb x)), keep,
          List.length (filter (fun b => b) (map constb x))) /\
    (forall k, k < List.length h -> deref h' k = deref h k) /\
    match name_x, keep with
    | None, None => True
    | Some r, Some r' => List.length h <= r' /\ deref h' r' = compress (deref h r) (map negb (map constb x))
    | _, _ => False
    end.
Proof.
  intros Hne Hn. unfold check_constant.
  assert (Hd : exists diffs, map_res ptp x = Ok diffs).
  { clear Hn. induction x as [|c x IH]; cbn; [eauto|]. destruct c as [|a t]; [exfalso; apply (Hne []); cbn; auto|].
    cbn. destruct IH as (ds & ->); [intros; apply Hne; cbn; auto|]. cbn; eauto. }
  destruct Hd as (diffs & Ed). rewrite Ed. cbn [bind].
  rewrite (map_res_ptp_pos x diffs Ed), !(map_res_ptp_mask x diffs Ed).
  set (m := map constb x).
  destruct name_x as [r|].
  - destruct (Hn r eq_refl) as [Hr Hl]. cbn [py_copy]. rewrite deref_app_new.
    destruct (Nat.ltb_spec 0 (List.length (filter (fun b => b) m))) as [Hc|Hc].
    + destruct (deref h r) as [|s names] eqn:En.
      * exfalso. destruct x; [cbn in Hc; lia|discriminate Hl].
      * rewrite <- En in *.
        assert (Hlm : List.length m = List.length (deref h r)) by (unfold m; rewrite map_length; lia).
        rewrite pick_compress by auto. cbn [bind].
        rewrite pick_compress by (rewrite map_length; auto). cbn [bind].
        eexists _, _. split; [destruct just_rem; reflexivity|]. split.
        -- intros k Hk. rewrite deref_assign_other by lia. now rewrite deref_app_old.
        -- split; [lia|]. rewrite deref_assign; auto. rewrite app_length; cbn; lia.
    + cbn [bind]. eexists _, _. split; [destruct just_rem; reflexivity|]. split.
      * intros k Hk. now rewrite deref_app_old.
      * split; [lia|]. rewrite deref_app_new. unfold m in *. rewrite filter_none_mask by lia.
        assert (G : forall {A B} (a : list A) (b : list B), List.length a = List.length b ->
                  compress a (map (fun _ => true) b) = a).
        { intros A B a; induction a as [|z a IH]; intros [|w b] H; cbn in *; try discriminate; auto.
          now rewrite IH by lia. }
        now rewrite G.
  - destruct (0 <? List.length (filter (fun b => b) m)); cbn [bind];
      eexists _, _; (split; [destruct just_rem; reflexivity|]); auto.
Qed.

Lemma constb_true c : c <> [] -> (constb c = true <-> is_constant c).
Proof.
  intros Hc. unfold constb. destruct (ptp c) as [d|] eqn:E.
  - destruct (ptp_spec c d E) as [_ H]. rewrite Z.eqb_eq. exact H.
  - destruct c; [congruence|discriminate E].
Qed.

(** robust *)
Lemma Qltb_true a b : Qltb a b = true <-> (a < b)%Q.
Proof.
  unfold Qltb. rewrite negb_true_iff, <- not_true_iff_false, Qle_bool_iff. split.
  - apply Qnot_le_lt.
  - apply Qlt_not_le.
Qed.

Lemma existsb_false_iff {A} (f : A -> bool) l : existsb f l = false <-> forall a, In a l -> f a = false.
Proof.
  induction l as [|b l IH]; cbn; [split; [tauto|auto]|]. rewrite orb_false_iff, IH. split.
  - intros [H1 H2] a [<-|Ha]; auto.
  - intros H; split; auto.
Qed.

Definition unit_interval (v : Q) : Prop := (0 <= v /\ v <= 1)%Q.

Lemma check_kernel_rows_iff rows : check_kernel_rows rows = Ok tt <->
  (forall r, In r rows -> r <> [] /\ forall v, In v r -> unit_interval v).
Proof.
  induction rows as [|r rows IH]; cbn [check_kernel_rows]; [split; [cbn; tauto|auto]|].
  destruct r as [|a t].
  - split; [discriminate|]. intros H. destruct (H []) as [H0 _]; cbn; auto. congruence.
  - set (r := a :: t) in *.
    destruct (existsb (fun v => Qltb v 0) r) eqn:E1.
    + split; [discriminate|]. intros H. apply existsb_exists in E1. destruct E1 as (v & Hv & E1).
      apply Qltb_true in E1. destruct (H r) as [_ H0]; [cbn; auto|]. destruct (H0 v Hv) as [H1 _].
      exfalso. apply (Qlt_not_le _ _ E1 H1).
    + destruct (existsb (fun v => Qltb 1 v) r) eqn:E2.
      * split; [discriminate|]. intros H. apply existsb_exists in E2. destruct E2 as (v & Hv & E2).
        apply Qltb_true in E2. destruct (H r) as [_ H0]; [cbn; auto|]. destruct (H0 v Hv) as [_ H1].
        exfalso. apply (Qlt_not_le _ _ E2 H1).
      * rewrite IH. rewrite existsb_false_iff in E1, E2. split.
        -- intros H s [<-|Hs]; [|auto]. split; [discriminate|]. intros v Hv. split.
           ++ specialize (E1 v Hv). apply not_true_iff_false in E1. rewrite Qltb_true in E1. now apply Qnot_lt_le.
           ++ specialize (E2 v Hv). apply not_true_iff_false in E2. rewrite Qltb_true in E2. now apply Qnot_lt_le.
        -- intros H s Hs. apply H; cbn; auto.
Qed.

Definition good_kernel (k : kern) : Prop :=
  k_diag k <> [] /\ (forall d, In d (k_diag k) -> (d == 1)%Q) /\
  (forall r, In r (k_weights k) -> r <> [] /\ forall v, In v r -> unit_interval v).

Lemma check_robust_hac s wk : String.eqb s "" = false -> lower s = "hac" ->
  (check_robust (Some s) wk = Ok tt <-> exists k, wk = Some k /\ good_kernel k).
Proof.
  intros Hs Hl. unfold check_robust. rewrite Hs, Hl. cbn [String.eqb Ascii.eqb Bool.eqb].
  destruct wk as [k|]; [|split; [discriminate|intros (k & H & _); discriminate H]].
  unfold good_kernel. destruct (k_diag k) as [|a t] eqn:Ed.
  - split; [discriminate|]. intros (k' & H & H0 & _). injection H as <-. congruence.
  - rewrite <- Ed. destruct (existsb (fun v => Qltb v 1) (k_diag k)) eqn:E1.
    + split; [discriminate|]. intros (k' & H & _ & H1 & _). injection H as <-.
      apply existsb_exists in E1. destruct E1 as (v & Hv & E1). apply Qltb_true in E1.
      apply H1 in Hv. rewrite Hv in E1. exfalso. apply (Qlt_irrefl 1 E1).
    + destruct (existsb (fun v => Qltb 1 v) (k_diag k)) eqn:E2.
      * split; [discriminate|]. intros (k' & H & _ & H1 & _). injection H as <-.
        apply existsb_exists in E2. destruct E2 as (v & Hv & E2). apply Qltb_true in E2.
        apply H1 in Hv. rewrite Hv in E2. exfalso. apply (Qlt_irrefl 1 E2).
      * rewrite check_kernel_rows_iff. rewrite existsb_false_iff in E1, E2. split.
        -- intros H. exists k. split; auto. rewrite Ed at 1. split; [congruence|]. split; auto.
           intros d Hd. specialize (E1 d Hd). specialize (E2 d Hd).
           apply not_true_iff_false in E1. rewrite Qltb_true in E1. apply not_true_iff_false in E2.
           rewrite Qltb_true in E2. apply Qnot_lt_le in E1, E2. apply Qle_antisym; auto.
        -- intros (k' & H & _ & _ & H1). injection H as <-. auto.
Qed.
