(** C94: the type of every coefficient in reg.output, and the coefficients in the common factor test.
    spreg/output.py, ml_lag.py, ml_lag_regimes.py, twosls_sp.py, twosls_sp_regimes.py. *)
From Coq Require Import Lia.
From Verif Require Import PyBase RegimesModel RegimesSpec RegimesProofs OutModel OutProofs OutTheorems ChoTheorems TypModel TypProofs.
Open Scope list_scope.
Open Scope nat_scope.

(** ** Specification *)
(** What a coefficient belongs to: the constant, exogenous variable j, the lag of order o of exogenous variable j, endogenous
    variable j, the spatial lag of y *)
Inductive var := VO | VX (j : nat) | VWX (o j : nat) | VY (j : nat) | VRho.

Definition type_of (v : var) : vtype :=
  match v with VO => TO | VX _ => TX | VWX _ _ => TWX | VY _ => TYend | VRho => TRho end.

(** The regressors: constant, kx variables, then for every order the lags of the variables in [sel] *)
Definition durbin_vars (constant : const_regi) (kx : nat) (sel : list nat) (lags : nat) : list var :=
  match constant with CNone => [] | _ => [VO] end ++ map VX (seq 0 kx) ++ flat_map (fun o => map (VWX o) sel) (seq 1 lags).

Definition with_constant (constant : const_regi) (flags : list bool) : list bool :=
  match constant with COne => [false] | CMany => [true] | _ => [] end ++ flags.

Section Spec.
Context {R : Type}.

(** The coefficients of a regimes model, in the order of betas: regime (None: global) and variable.  [layout] is the order of
    the columns of the design (C07). *)
Definition coefs (vars : list var) (flags : list bool) (regs : list R) : list (option R * var) :=
  map (fun d => (fst d, nth (snd d) vars VO)) (layout regs flags).

(** The right row for a coefficient *)
Definition row_of (d : option R * var) : @trow R := {| t_type := type_of (snd d); t_reg := fst d |}.

(** The coefficients at the rows [idx] *)
Definition at_rows (C : list (option R * var)) (idx : list nat) : list (option (option R * var)) := map (nth_error C) idx.
End Spec.

(** ** Lemmas *)
Section Thm.
Context {R : Type} (reqb : R -> R -> bool).
Hypothesis reqb_spec : forall a b, reqb a b = true <-> a = b.
Local Notation mk := (@mk R).

Lemma coefs_blocks vars flags (regs : list R) : List.length flags = List.length vars ->
  coefs vars flags regs = flat_map (fun r => map (fun v => (Some r, v)) (compress vars flags)) regs
                          ++ map (fun v => (None, v)) (compress vars (map negb flags)).
Proof.
  intros H. unfold coefs, layout. rewrite map_app. rewrite positions_negb.
  rewrite (compress_positions VO vars flags H). rewrite (compress_positions VO vars (map negb flags)) by (now rewrite map_length).
  rewrite !map_map. f_equal. rewrite flat_map_concat_map, concat_map, map_map, <- flat_map_concat_map.
  apply flat_map_ext. intros r. now rewrite !map_map.
Qed.

Lemma frame_truth vars flags (regs : list R) : List.length flags = List.length vars ->
  frame_types (map type_of vars) flags regs = map row_of (coefs vars flags regs).
Proof.
  intros H. rewrite coefs_blocks by exact H. unfold frame_types. rewrite map_app, map_map. f_equal.
  - rewrite flat_map_concat_map, (flat_map_concat_map (fun r => map _ _)), concat_map, map_map. f_equal. apply map_ext. intros r.
    now rewrite compress_map', !map_map.
  - now rewrite compress_map', map_map.
Qed.

Lemma frame_blk types flags (regs : list R) :
  frame_types types flags regs = flat_map (blk (compress types flags)) regs ++ map (mk None) (compress types (map negb flags)).
Proof. reflexivity. Qed.

Lemma durbin_types constant kx sel lags :
  map type_of (durbin_vars constant kx sel lags) =
  match constant with CNone => [] | _ => [TO] end ++ repeat TX kx ++ repeat TWX (List.length sel * lags).
Proof.
  unfold durbin_vars. rewrite !map_app. f_equal; [now destruct constant|]. f_equal.
  - rewrite map_map. cbn [type_of]. generalize 0. induction kx as [|k IH]; intros i; [reflexivity|]. cbn [seq map repeat]. now rewrite IH.
  - generalize 1. induction lags as [|l IH]; intros i; [now rewrite Nat.mul_0_r|]. cbn [seq flat_map]. rewrite map_app, IH.
    rewrite map_map. cbn [type_of]. replace (List.length sel * S l) with (List.length sel + List.length sel * l) by lia. rewrite repeat_app. f_equal.
    clear. induction sel as [|s sel IH]; [reflexivity|]. cbn [map List.length repeat]. now rewrite IH.
Qed.

Lemma durbin_length constant kx sel lags : constant <> COther ->
  List.length (durbin_vars constant kx sel lags) = List.length (with_constant constant []) + kx + List.length sel * lags.
Proof.
  intros Hc. rewrite <- (map_length type_of), durbin_types, !app_length, !repeat_length. destruct constant; try contradiction; cbn; lia.
Qed.

Lemma wc_length constant flags : List.length (with_constant constant flags) = List.length (with_constant constant []) + List.length flags.
Proof. unfold with_constant. rewrite !app_length. cbn. lia. Qed.

(** The types of a block before and after the relabelling *)
Lemma block_types constant (t : vtype) fx fw : constant <> COther ->
  compress (match constant with CNone => [] | _ => [TO] end ++ repeat TX (List.length fx) ++ repeat t (List.length fw)) (with_constant constant (fx ++ fw))
  = (match constant with CMany => [TO] | _ => [] end ++ repeat TX (ntrue fx)) ++ repeat t (ntrue fw).
Proof.
  intros Hc. unfold with_constant. rewrite compress_app by (destruct constant; try contradiction; reflexivity).
  rewrite compress_app by (now rewrite repeat_length). rewrite !compress_repeat, <- app_assoc. f_equal. now destruct constant.
Qed.

Lemma glob_types constant (t : vtype) fx fw : constant <> COther ->
  compress (match constant with CNone => [] | _ => [TO] end ++ repeat TX (List.length fx) ++ repeat t (List.length fw)) (map negb (with_constant constant (fx ++ fw)))
  = (match constant with COne => [TO] | _ => [] end ++ repeat TX (ntrue (map negb fx))) ++ repeat t (ntrue (map negb fw)).
Proof.
  intros Hc. unfold with_constant. rewrite !map_app. rewrite compress_app by (destruct constant; try contradiction; reflexivity).
  rewrite compress_app by (now rewrite repeat_length, map_length).
  rewrite <- (map_length negb fx), <- (map_length negb fw), !compress_repeat, <- app_assoc. f_equal. now destruct constant.
Qed.

(** ** ML_Lag_Regimes, one equation: every coefficient gets its type, for every choice of flags and lagged variables. *)
Theorem C94_ml_types : forall constant kx sel lags flags (regs : list R), constant <> COther -> NoDup regs ->
  List.length flags = kx + List.length sel * lags ->
  ml_regimes_types reqb constant flags (List.length sel * lags) regs =
  map row_of (coefs (durbin_vars constant kx sel lags) (with_constant constant flags) regs ++ [(None, VRho)]).
Proof.
  intros constant kx sel lags flags regs Hc Hd Hl. set (kwx := List.length sel * lags) in *.
  rewrite map_app, <- frame_truth by (rewrite durbin_length, wc_length by exact Hc; fold kwx; lia).
  rewrite durbin_types. fold kwx.
  pose (fx := firstn kx flags). pose (fw := skipn kx flags).
  assert (Ef : flags = fx ++ fw) by (symmetry; apply firstn_skipn).
  assert (Lx : List.length fx = kx) by (unfold fx; rewrite firstn_length; lia).
  assert (Lw : List.length fw = kwx) by (unfold fw; rewrite skipn_length; lia).
  clearbody fx fw. subst flags. unfold ml_regimes_types.
  rewrite <- app_assoc, (lastn_app fx (fw ++ [false]) (kwx + 1)) by (rewrite ?app_length; cbn [List.length]; lia). rewrite removelast_last.
  assert (Efix : List.length (filter negb fw) = ntrue (map negb fw)).
  { unfold ntrue. clear. induction fw as [|[] fw IH]; cbn; auto. }
  rewrite Efix. clear Efix. pose proof (ntrue_negb fw) as Hn. rewrite Lw in Hn.
  set (fixed := ntrue (map negb fw)) in *. cbv zeta.
  replace (kwx - fixed) with (ntrue fw) by lia.
  unfold x_types. rewrite app_length, repeat_app.
  change (x_flags constant (fx ++ fw)) with (with_constant constant (fx ++ fw)).
  rewrite !frame_blk. rewrite <- Lx, <- Lw. rewrite !block_types, !glob_types by exact Hc. fold fixed.
  set (pb := match constant with CMany => [TO] | _ => [] end ++ repeat TX (ntrue fx)).
  set (pg := match constant with COne => [TO] | _ => [] end ++ repeat TX (ntrue (map negb fx))).
  set (rho := {| t_type := TRho; t_reg := None |}).
  rewrite <- !app_assoc.
  assert (S1 : (if 0 <? ntrue fw then fold_left (wx_step reqb (fun _ => ntrue fw)) regs
      (flat_map (blk (pb ++ repeat TX (ntrue fw))) regs ++ map (mk None) (pg ++ repeat TX fixed) ++ [rho])
      else flat_map (blk (pb ++ repeat TX (ntrue fw))) regs ++ map (mk None) (pg ++ repeat TX fixed) ++ [rho]) =
      flat_map (blk (pb ++ repeat TWX (ntrue fw))) regs ++ map (mk None) (pg ++ repeat TX fixed) ++ [rho]).
  { destruct (Nat.ltb_spec 0 (ntrue fw)) as [Hp|Hp].
    - rewrite (wx_fold0 reqb reqb_spec (fun _ => ntrue fw)); [|exact Hd| |].
      + f_equal. apply flat_map_ext. intros r. f_equal. unfold newb. cbv zeta. rewrite app_length, repeat_length.
        unfold sfx. destruct (Nat.eqb_spec (ntrue fw) 0); [lia|]. rewrite Nat.min_l by lia. rewrite Nat.add_sub.
        rewrite firstn_app, firstn_all, Nat.sub_diag. cbn [firstn]. now rewrite app_nil_r.
      + intros t Ht. apply in_app_or in Ht. destruct Ht as [Ht|Ht]; [|apply repeat_spec in Ht; now left].
        unfold pb in Ht. apply in_app_or in Ht. destruct Ht as [Ht|Ht]; [|apply repeat_spec in Ht; now left].
        destruct constant; try contradiction. destruct Ht as [<-|[]]. now right.
      + intros r Hr m _. apply in_app_or in Hr. destruct Hr as [Hr|[<-|[]]]; [|reflexivity].
        apply in_map_iff in Hr. destruct Hr as (t & <- & _). reflexivity.
    - replace (ntrue fw) with 0 by lia. reflexivity. }
  rewrite S1. clear S1.
  destruct (Nat.ltb_spec 0 fixed) as [Hp|Hp].
  - rewrite map_app. rewrite !app_length, !map_length, repeat_length. cbn [List.length]. rewrite <- !app_assoc.
    set (A := flat_map (blk (pb ++ repeat TWX (ntrue fw))) regs).
    replace (List.length A + (List.length pg + fixed + 1)) with ((List.length A + List.length pg) + (fixed + 1)) by lia.
    rewrite seq_app, (lastn_app _ (seq (0 + _) (fixed + 1)) (fixed + 1)) by (rewrite ?seq_length; lia).
    rewrite seq_app. cbn [seq]. rewrite removelast_last, Nat.add_0_l.
    rewrite (app_assoc A). rewrite <- (map_length (mk None) pg), <- app_length.
    rewrite <- (repeat_length TX fixed) at 1. rewrite <- (map_length (mk None) (repeat TX fixed)) at 1.
    rewrite relabel_mid. rewrite <- !app_assoc. f_equal. rewrite map_app, <- app_assoc. f_equal. f_equal.
    clear. induction fixed as [|n IH]; [reflexivity|]. cbn [repeat map]. rewrite IH. reflexivity.
  - replace fixed with 0 by lia. reflexivity.
Qed.
(** ** GM_Lag_Regimes *)
Definition end_vars (ny : nat) : list var := map VY (seq 0 ny) ++ [VRho].

Lemma end_types ny : map type_of (map VY (seq 0 ny)) = repeat TYend ny.
Proof. rewrite map_map. cbn [type_of]. generalize 0. induction ny as [|k IH]; intros i; [reflexivity|]. cbn [seq map repeat]. now rewrite IH. Qed.

Definition yrows (yf : list bool) (regs : list R) : list (@trow R) :=
  flat_map (blk (repeat TYend (ntrue yf))) regs ++ map (mk None) (repeat TYend (ntrue (map negb yf))).

Lemma y_truth yf (regs : list R) :
  map row_of (coefs (end_vars (List.length yf)) (yf ++ [false]) regs) = yrows yf regs ++ [mk None TRho].
Proof.
  rewrite <- frame_truth by (unfold end_vars; rewrite !app_length, map_length, seq_length; reflexivity).
  unfold end_vars. rewrite map_app, end_types, frame_blk, map_app. rewrite !compress_app by (now rewrite ?map_length, repeat_length).
  rewrite <- (map_length negb yf) at 2. rewrite !compress_repeat. cbn [compress map negb type_of]. rewrite app_nil_r, map_app.
  unfold yrows. rewrite <- app_assoc. reflexivity.
Qed.

Lemma y_frame yf (regs : list R) : frame_types (repeat TYend (List.length (yf ++ [false]))) (yf ++ [false]) regs = yrows yf regs ++ [mk None TYend].
Proof.
  rewrite app_length. cbn [List.length]. rewrite repeat_app. rewrite frame_blk, map_app. rewrite !compress_app by (now rewrite ?map_length, repeat_length).
  rewrite <- (map_length negb yf) at 2. rewrite !compress_repeat. cbn [compress repeat map negb]. rewrite app_nil_r, map_app.
  unfold yrows. rewrite <- app_assoc. reflexivity.
Qed.

Lemma gm_rows0 (X : list (@trow R)) yf regs :
  let rows := X ++ frame_types (repeat TYend (List.length (yf ++ [false]))) (yf ++ [false]) regs in
  removelast rows ++ match rev rows with r :: _ => [{| t_type := TRho; t_reg := t_reg r |}] | [] => [] end = X ++ yrows yf regs ++ [mk None TRho].
Proof.
  cbv zeta. rewrite y_frame, app_assoc, removelast_last, rev_app_distr. cbn [rev app t_reg mk]. now rewrite <- app_assoc.
Qed.

Lemma yrows_not_xo yf regs r m : In r (yrows yf regs) -> is_xo reqb m r = false.
Proof.
  unfold yrows. intros Hr. apply in_app_or in Hr. destruct Hr as [Hr|Hr].
  - apply in_flat_map in Hr. destruct Hr as (r' & _ & Hr). unfold blk in Hr. apply in_map_iff in Hr. destruct Hr as (t & <- & Ht).
    apply repeat_spec in Ht. subst. unfold is_xo. cbn. apply andb_false_r.
  - apply in_map_iff in Hr. destruct Hr as (t & <- & Ht). reflexivity.
Qed.

(** Without lags of x: right for every choice of flags. *)
Theorem C94_gm_types_noslx : forall constant kx flags yf (regs : list R), constant <> COther -> List.length flags = kx ->
  gm_regimes_types reqb constant flags (yf ++ [false]) 0 regs =
  map row_of (coefs (durbin_vars constant kx [] 0) (with_constant constant flags) regs ++
              coefs (end_vars (List.length yf)) (yf ++ [false]) regs).
Proof.
  intros constant kx flags yf regs Hc Hl. unfold gm_regimes_types. rewrite gm_rows0. cbn [Nat.ltb Nat.leb].
  rewrite map_app, y_truth. f_equal. rewrite <- frame_truth by (rewrite durbin_length, wc_length by exact Hc; cbn; lia).
  rewrite durbin_types. cbn [List.length Nat.mul repeat]. rewrite app_nil_r, Hl. reflexivity.
Qed.

Lemma gm_unfold constant kx sel lags yf (regs : list R) : constant <> COther -> NoDup regs -> 1 <= lags ->
  let W := List.length sel * lags in
  let b := match constant with CMany => [TO] | _ => [] end ++ repeat TX (kx + W) in
  let glob := map (mk None) (match constant with COne => [TO] | _ => [] end) in
  gm_regimes_types reqb constant (repeat true (kx + W)) (yf ++ [false]) lags regs =
    flat_map (blk (newb (fun n => (n - 1) / (lags + 1) * lags) b)) regs ++ glob ++ yrows yf regs ++ [mk None TRho] /\
  map row_of (coefs (durbin_vars constant kx sel lags) (with_constant constant (repeat true (kx + W))) regs ++
              coefs (end_vars (List.length yf)) (yf ++ [false]) regs) =
    flat_map (blk (match constant with CMany => [TO] | _ => [] end ++ repeat TX kx ++ repeat TWX W)) regs ++ glob ++ yrows yf regs ++ [mk None TRho].
Proof.
  intros Hc Hd Hlag W b glob.
  assert (Hnt : forall n, ntrue (repeat true n) = n) by (intros n; unfold ntrue; induction n; cbn; auto).
  assert (Hnf : forall n, ntrue (map negb (repeat true n)) = 0) by (intros n; unfold ntrue; induction n; cbn; auto).
  assert (Eb : forall t, compress (match constant with CNone => [] | _ => [TO] end ++ repeat TX kx ++ repeat t W) (with_constant constant (repeat true (kx + W)))
     = match constant with CMany => [TO] | _ => [] end ++ repeat TX kx ++ repeat t W).
  { intros t. rewrite repeat_app. pose proof (block_types constant t (repeat true kx) (repeat true W) Hc) as B.
    rewrite !repeat_length, !Hnt in B. rewrite B. now rewrite <- app_assoc. }
  assert (Eg : forall t, map (mk None) (compress (match constant with CNone => [] | _ => [TO] end ++ repeat TX kx ++ repeat t W)
     (map negb (with_constant constant (repeat true (kx + W))))) = glob).
  { intros t. rewrite repeat_app. pose proof (glob_types constant t (repeat true kx) (repeat true W) Hc) as B.
    rewrite !repeat_length, !Hnf in B. rewrite B. cbn [repeat]. now rewrite !app_nil_r. }
  split.
  - unfold gm_regimes_types. rewrite gm_rows0. replace (0 <? lags) with true by (symmetry; apply Nat.ltb_lt; lia).
    unfold x_types. rewrite repeat_length, frame_blk. rewrite repeat_app at 2.
    change (x_flags constant (repeat true (kx + W))) with (with_constant constant (repeat true (kx + W))).
    rewrite repeat_app at 1. rewrite Eb, Eg, <- repeat_app, <- app_assoc. fold b. apply (wx_fold0 reqb reqb_spec); [exact Hd| |].
    + intros t Ht. unfold b in Ht. apply in_app_or in Ht. destruct Ht as [Ht|Ht]; [|apply repeat_spec in Ht; now left].
      destruct constant; try contradiction. destruct Ht as [<-|[]]. now right.
    + intros r Hr m _. apply in_app_or in Hr. destruct Hr as [Hr|Hr].
      * unfold glob in Hr. apply in_map_iff in Hr. destruct Hr as (t & <- & _). reflexivity.
      * apply in_app_or in Hr. destruct Hr as [Hr|[<-|[]]]; [|reflexivity]. now apply yrows_not_xo with yf regs.
  - rewrite map_app, y_truth.
    rewrite <- frame_truth by (rewrite durbin_length, wc_length, repeat_length by exact Hc; fold W; lia).
    rewrite durbin_types. fold W. rewrite frame_blk, Eb, Eg. now rewrite <- app_assoc.
Qed.

Lemma app_eq_len {A} (a b c d : list A) : List.length a = List.length b -> a ++ c = b ++ d -> a = b.
Proof.
  revert b. induction a as [|x a IH]; intros [|y b] Hl E; try discriminate; [reflexivity|]. injection E as -> E. f_equal. apply IH; [now injection Hl|exact E].
Qed.

Lemma count_wx l : List.length (filter (fun t => vtype_eqb t TWX) (repeat TWX l)) = l.
Proof. induction l; cbn; auto. Qed.

(** With lags of x every coefficient varies (C91: explicit flags raise); the last ((n-1)/(lags+1)) lags coefficients of a regime are
    taken for lags, n the number of coefficients that it has. *)
Theorem C94_gm_types_iff : forall constant kx sel lags yf (regs : list R), constant <> COther -> NoDup regs -> regs <> [] ->
  1 <= kx -> 1 <= lags -> 1 <= List.length sel ->
  let n := (match constant with CMany => 1 | _ => 0 end) + kx + List.length sel * lags in
  gm_regimes_types reqb constant (repeat true (kx + List.length sel * lags)) (yf ++ [false]) lags regs =
  map row_of (coefs (durbin_vars constant kx sel lags) (with_constant constant (repeat true (kx + List.length sel * lags))) regs ++
              coefs (end_vars (List.length yf)) (yf ++ [false]) regs)
  <-> (n - 1) / (lags + 1) = List.length sel.
Proof.
  intros constant kx sel lags yf regs Hc Hd Hne Hkx Hlag Hsel n.
  destruct (gm_unfold constant kx sel lags yf regs Hc Hd Hlag) as (-> & ->).
  set (W := List.length sel * lags) in *. set (hd := match constant with CMany => [TO] | _ => [] end).
  set (b := hd ++ repeat TX (kx + W)). set (q := (n - 1) / (lags + 1)).
  assert (Hn : List.length b = n) by (unfold b, n, hd; rewrite app_length, repeat_length; destruct constant; cbn; lia).
  assert (HW : 1 <= W) by (unfold W; nia).
  assert (Hq : q * lags <= n - 1).
  { unfold q. assert ((lags + 1) * ((n - 1) / (lags + 1)) <= n - 1) by (apply Nat.mul_div_le; lia). nia. }
  set (f := fun n => (n - 1) / (lags + 1) * lags).
  assert (Hs : sfx (List.length b) (f (List.length b)) = if Nat.eqb q 0 then n else q * lags).
  { rewrite Hn. unfold f. fold q. unfold sfx. destruct (Nat.eqb_spec q 0) as [-> |Hq0]; [reflexivity|].
    destruct (Nat.eqb_spec (q * lags) 0); [nia|]. apply Nat.min_l. lia. }
  unfold newb. rewrite Hs, Hn.
  set (s := if Nat.eqb q 0 then n else q * lags).
  assert (Hsn : s <= n) by (unfold s; destruct (Nat.eqb q 0); lia).
  split.
  - intros E. destruct regs as [|r regs]; [contradiction|]. cbn [flat_map] in E. rewrite <- !app_assoc in E.
    assert (L1 : List.length (blk (firstn (n - s) b ++ repeat TWX s) r) = n) by (unfold blk; rewrite map_length, app_length, firstn_length, repeat_length; lia).
    assert (L2 : List.length (blk (hd ++ repeat TX kx ++ repeat TWX W) r) = n).
    { unfold blk. rewrite map_length, !app_length, !repeat_length. unfold n, hd. destruct constant; cbn; lia. }
    apply app_eq_len in E; [|now rewrite L1, L2].
    apply (f_equal (map (@t_type R))) in E. unfold blk in E. rewrite !map_map in E. cbn [mk t_type] in E. rewrite !map_id in E.
    apply (f_equal (fun l => List.length (filter (fun t => vtype_eqb t TWX) l))) in E. rewrite !filter_app, !app_length, !count_wx in E.
    assert (Z1 : filter (fun t => vtype_eqb t TWX) (firstn (n - s) b) = []).
    { apply filter_none. intros t Ht. assert (Hb : In t b) by (rewrite <- (firstn_skipn (n - s) b); apply in_or_app; now left).
      unfold b, hd in Hb. apply in_app_or in Hb. destruct Hb as [Hb|Hb]; [|apply repeat_spec in Hb; now subst].
      destruct constant; try contradiction. destruct Hb as [<-|[]]. reflexivity. }
    assert (Z2 : filter (fun t => vtype_eqb t TWX) hd = []) by (unfold hd; destruct constant; reflexivity).
    assert (Z3 : filter (fun t => vtype_eqb t TWX) (repeat TX kx) = []) by (apply filter_none; intros t Ht; apply repeat_spec in Ht; now subst).
    rewrite Z1, Z2, Z3 in E. cbn [List.length plus] in E. unfold s in E. destruct (Nat.eqb_spec q 0) as [Hq0|Hq0].
    + exfalso. unfold n in E. fold W in E. destruct constant; lia.
    + unfold W in E. nia.
  - intros E. assert (Es : s = W). { unfold s. destruct (Nat.eqb_spec q 0); [lia|]. rewrite E. reflexivity. }
    rewrite Es. f_equal. apply flat_map_ext. intros r. f_equal. rewrite (app_assoc hd). f_equal.
    unfold b. rewrite repeat_app, app_assoc. rewrite firstn_app.
    assert (L3 : List.length (hd ++ repeat TX kx) = n - W) by (rewrite <- Hn; unfold b; rewrite !app_length, !repeat_length; lia).
    rewrite L3, Nat.sub_diag. cbn [firstn]. rewrite <- L3, firstn_all. now rewrite app_nil_r.
Qed.

(** All variables lagged: right with one constant per regime ... *)
Corollary C94_gm_types_many : forall kx lags yf (regs : list R), NoDup regs -> regs <> [] -> 1 <= kx -> 1 <= lags ->
  gm_regimes_types reqb CMany (repeat true (kx + kx * lags)) (yf ++ [false]) lags regs =
  map row_of (coefs (durbin_vars CMany kx (seq 0 kx) lags) (with_constant CMany (repeat true (kx + kx * lags))) regs ++
              coefs (end_vars (List.length yf)) (yf ++ [false]) regs).
Proof.
  intros kx lags yf regs Hd Hne Hk Hl.
  pose proof (proj2 (C94_gm_types_iff CMany kx (seq 0 kx) lags yf regs ltac:(discriminate) Hd Hne Hk Hl ltac:(rewrite seq_length; exact Hk))) as H.
  rewrite seq_length in H. apply H. replace (1 + kx + kx * lags - 1) with (kx * (lags + 1)) by lia. apply Nat.div_mul. lia.
Qed.

(** ... and never with a global constant or without one. *)
Corollary C94_gm_types_one_refuted : forall constant kx lags yf (regs : list R), constant = COne \/ constant = CNone ->
  NoDup regs -> regs <> [] -> 1 <= kx -> 1 <= lags ->
  gm_regimes_types reqb constant (repeat true (kx + kx * lags)) (yf ++ [false]) lags regs <>
  map row_of (coefs (durbin_vars constant kx (seq 0 kx) lags) (with_constant constant (repeat true (kx + kx * lags))) regs ++
              coefs (end_vars (List.length yf)) (yf ++ [false]) regs).
Proof.
  intros constant kx lags yf regs Hc Hd Hne Hk Hl.
  assert (Hc' : constant <> COther) by (destruct Hc; subst; discriminate).
  pose proof (proj1 (C94_gm_types_iff constant kx (seq 0 kx) lags yf regs Hc' Hd Hne Hk Hl ltac:(rewrite seq_length; exact Hk))) as H.
  rewrite seq_length in H. intros E. apply H in E.
  replace (match constant with CMany => 1 | _ => 0 end) with 0 in E by (destruct Hc; subst; reflexivity).
  assert (Hlt : (0 + kx + kx * lags - 1) / (lags + 1) < kx) by (apply Nat.div_lt_upper_bound; nia). lia.
Qed.
(** ** The common factor test *)
Definition vt (t : vtype) (v : var) : bool := vtype_eqb (type_of v) t.

Lemma flat_map_map' {A B C} (f : A -> B) (g : B -> list C) l : flat_map g (map f l) = flat_map (fun a => g (f a)) l.
Proof. induction l as [|a l IH]; [reflexivity|]. cbn. now rewrite IH. Qed.

Lemma flat_map_filter_map {A B C} (g : B -> C) (f : A -> list B) U : map g (flat_map f U) = flat_map (fun m => map g (f m)) U.
Proof. induction U as [|u U IH]; [reflexivity|]. cbn. now rewrite map_app, IH. Qed.

Lemma comfac_at (C : list (option R * var)) :
  let '(x, wx, v) := comfac_idx reqb (map row_of C) in
  at_rows C x = map Some (flat_map (fun m => filter (fun d => (oreqb reqb (fst d) m && vt TX (snd d))%bool) C) (uniq (oreqb reqb) (map fst C))) /\
  at_rows C wx = map Some (filter (fun d => (vt TWX (snd d) && negb (oreqb reqb (fst d) None))%bool) C) /\
  at_rows C v = at_rows C x ++ at_rows C wx ++ map Some (filter (fun d => vt TRho (snd d)) C).
Proof.
  unfold comfac_idx, at_rows. split; [|split].
  - rewrite map_map. cbn [row_of t_reg]. rewrite flat_map_filter_map, (flat_map_filter_map Some). apply flat_map_ext. intros m.
    exact (where_at row_of (fun r => (oreqb reqb (t_reg r) m && vtype_eqb (t_type r) TX)%bool) C).
  - exact (where_at row_of (fun r => (vtype_eqb (t_type r) TWX && negb (oreqb reqb (t_reg r) None))%bool) C).
  - rewrite !map_app. do 2 f_equal. exact (where_at row_of (fun r => vtype_eqb (t_type r) TRho) C).
Qed.

Lemma filter_map_pair (g : option R) (p : option R * var -> bool) B :
  filter p (map (fun v => (g, v)) B) = map (fun v => (g, v)) (filter (fun v => p (g, v)) B).
Proof. induction B as [|v B IH]; [reflexivity|]. cbn [map filter]. destruct (p (g, v)); cbn [map]; now rewrite IH. Qed.

Definition blocks (B : list var) (regs : list R) := flat_map (fun r => map (fun v => (Some r, v)) B) regs.

Lemma filter_flat {A B} (p : B -> bool) (f : A -> list B) l : filter p (flat_map f l) = flat_map (fun a => filter p (f a)) l.
Proof. induction l as [|a l IH]; [reflexivity|]. cbn. now rewrite filter_app, IH. Qed.

Lemma filter_false {A} (p : A -> bool) l : (forall a, p a = false) -> filter p l = [].
Proof. intros H. induction l as [|a l IH]; [reflexivity|]. cbn. now rewrite H. Qed.

Lemma filter_blocks_some B regs m p : NoDup regs -> In m regs ->
  filter (fun d => (oreqb reqb (fst d) (Some m) && p (snd d))%bool) (blocks B regs) = map (fun v => (Some m, v)) (filter p B).
Proof.
  intros Hd Hm. unfold blocks. rewrite filter_flat. induction regs as [|r regs IH]; [contradiction|]. inversion Hd as [|? ? Hr Hd']; subst.
  cbn [flat_map]. rewrite filter_map_pair. cbn [fst snd oreqb]. destruct Hm as [-> |Hm].
  - rewrite (proj2 (reqb_spec m m) eq_refl). cbn [andb].
    assert (E : flat_map (fun a => filter (fun d : option R * var => (oreqb reqb (fst d) (Some m) && p (snd d))%bool) (map (fun v => (Some a, v)) B)) regs = []).
    { clear -Hr reqb_spec. induction regs as [|r regs IH]; [reflexivity|]. cbn [flat_map]. rewrite IH by (intros H; apply Hr; now right).
      rewrite filter_map_pair. cbn [fst snd oreqb]. destruct (reqb r m) eqn:E; [apply reqb_spec in E; subst; exfalso; apply Hr; now left|].
      cbn [andb]. rewrite filter_false by reflexivity. reflexivity. }
    rewrite E, app_nil_r. reflexivity.
  - destruct (reqb r m) eqn:E; [apply reqb_spec in E; subst; contradiction|]. cbn [andb]. rewrite (filter_false (fun _ => false)) by reflexivity. cbn [map app].
    now apply IH.
Qed.

Lemma filter_blocks_none B regs p : filter (fun d => (oreqb reqb (fst d) None && p (snd d))%bool) (blocks B regs) = [].
Proof.
  unfold blocks. rewrite filter_flat. induction regs as [|r regs IH]; [reflexivity|]. cbn [flat_map]. rewrite IH, filter_map_pair, app_nil_r.
  rewrite filter_false by reflexivity. reflexivity.
Qed.

Lemma filter_blocks B regs p : filter (fun d => p (snd d)) (blocks B regs) = blocks (filter p B) regs.
Proof. unfold blocks. rewrite filter_flat. apply flat_map_ext. intros r. now rewrite filter_map_pair. Qed.

Lemma uniq_coefs B G regs : NoDup regs -> 1 <= List.length B ->
  uniq (oreqb reqb) (map fst (blocks B regs ++ map (fun v => (None, v)) (G ++ [VRho]))) = map Some regs ++ [None].
Proof.
  intros Hd HB. rewrite map_app, map_map. cbn [fst]. unfold blocks. rewrite flat_map_filter_map.
  assert (E : forall r : R, map fst (map (fun v : var => (Some r, v)) B) = repeat (@Some R r) (S (List.length B - 1))).
  { intros r. rewrite map_map. cbn [fst]. replace (S (List.length B - 1)) with (List.length B) by lia. clear. induction B; cbn; congruence. }
  rewrite (flat_map_ext _ _ (fun r => E r)).
  assert (E2 : map (fun _ : var => @None R) (G ++ [VRho]) = repeat None (S (List.length G))).
  { clear. induction G as [|g G IH]; [reflexivity|]. cbn [app map List.length]. rewrite IH. reflexivity. }
  rewrite E2. apply (uniq_blocks reqb reqb_spec). exact Hd.
Qed.

(** The selected coefficients, for any blocks *)
Lemma select_x B G regs : NoDup regs -> 1 <= List.length B ->
  flat_map (fun m => filter (fun d => (oreqb reqb (fst d) m && vt TX (snd d))%bool) (blocks B regs ++ map (fun v => (None, v)) (G ++ [VRho])))
    (uniq (oreqb reqb) (map fst (blocks B regs ++ map (fun v => (None, v)) (G ++ [VRho])))) =
  blocks (filter (vt TX) B) regs ++ map (fun v => (None, v)) (filter (vt TX) G).
Proof.
  intros Hd HB. rewrite uniq_coefs by assumption. rewrite flat_map_app. cbn [flat_map]. rewrite app_nil_r, flat_map_map'. f_equal.
  - assert (Q : forall l : list R, incl l regs ->
      flat_map (fun m => filter (fun d => (oreqb reqb (fst d) (Some m) && vt TX (snd d))%bool) (blocks B regs ++ map (fun v => (None, v)) (G ++ [VRho]))) l
      = blocks (filter (vt TX) B) l); [|apply Q, incl_refl].
    induction l as [|m l IH]; intros Hl; [reflexivity|]. unfold blocks at 2. cbn [flat_map]. rewrite IH by (intros m' Hm'; apply Hl; now right). f_equal.
    rewrite filter_app, filter_blocks_some by (try assumption; apply Hl; now left). rewrite filter_map_pair. cbn [fst oreqb andb].
    rewrite (filter_false (fun _ => false)) by reflexivity. cbn [map]. apply app_nil_r.
  - rewrite filter_app, filter_blocks_none, filter_map_pair. cbn [fst snd oreqb andb app]. rewrite filter_app. cbn. now rewrite app_nil_r.
Qed.

Lemma select_wx B G regs :
  filter (fun d => (vt TWX (snd d) && negb (oreqb reqb (fst d) None))%bool) (blocks B regs ++ map (fun v => (None, v)) (G ++ [VRho])) =
  blocks (filter (vt TWX) B) regs.
Proof.
  rewrite filter_app. rewrite filter_map_pair. cbn [fst snd oreqb negb]. rewrite (filter_false (fun v => (vt TWX v && false)%bool)) by (intros; apply andb_false_r).
  cbn [map]. rewrite app_nil_r. unfold blocks. rewrite filter_flat. apply flat_map_ext. intros r. rewrite filter_map_pair. f_equal.
  apply filter_ext. intros v. cbn. apply andb_true_r.
Qed.

Lemma vt_X t kx : filter (vt t) (map VX (seq 0 kx)) = if vtype_eqb TX t then map VX (seq 0 kx) else [].
Proof.
  destruct (vtype_eqb TX t) eqn:E; [apply filter_all|apply filter_none]; intros v Hv; apply in_map_iff in Hv; destruct Hv as (j & <- & _); exact E.
Qed.
Lemma vt_WX t o sel : filter (vt t) (map (VWX o) sel) = if vtype_eqb TWX t then map (VWX o) sel else [].
Proof.
  destruct (vtype_eqb TWX t) eqn:E; [apply filter_all|apply filter_none]; intros v Hv; apply in_map_iff in Hv; destruct Hv as (j & <- & _); exact E.
Qed.

(** The coefficients that the test compares *)
Definition betas_of (regs : list R) (kx : nat) : list (option R * var) := flat_map (fun r => map (fun j => (Some r, VX j)) (seq 0 kx)) regs.
Definition gammas_of (regs : list R) (kx : nat) : list (option R * var) := flat_map (fun r => map (fun j => (Some r, VWX 1 j)) (seq 0 kx)) regs.

Lemma blocks_vars (f : nat -> var) kx regs : blocks (map f (seq 0 kx)) regs = flat_map (fun r => map (fun j => (Some r, f j)) (seq 0 kx)) regs.
Proof. unfold blocks. apply flat_map_ext. intros r. apply map_map. Qed.

Lemma regimes_coefs constant kx (regs : list R) : constant <> COther ->
  coefs (durbin_vars constant kx (seq 0 kx) 1) (with_constant constant (repeat true (kx + kx))) regs ++ [(None, VRho)] =
  blocks (match constant with CMany => [VO] | _ => [] end ++ map VX (seq 0 kx) ++ map (VWX 1) (seq 0 kx)) regs
  ++ map (fun v => (None, v)) (match constant with COne => [VO] | _ => [] end ++ [VRho]).
Proof.
  intros Hc. rewrite coefs_blocks by (rewrite durbin_length, wc_length, repeat_length, seq_length by exact Hc; lia).
  unfold durbin_vars, with_constant. cbn [seq flat_map]. rewrite app_nil_r.
  set (XW := map VX (seq 0 kx) ++ map (VWX 1) (seq 0 kx)).
  assert (LX : List.length (repeat true (kx + kx)) = List.length XW) by (unfold XW; rewrite app_length, !map_length, seq_length, repeat_length; reflexivity).
  rewrite !map_app. rewrite !compress_app by (rewrite ?map_length; destruct constant; try contradiction; reflexivity).
  rewrite (compress_all XW) by (try exact LX; clear; induction (kx + kx); cbn; auto).
  rewrite (compress_none XW) by (clear; induction (kx + kx); cbn; auto).
  rewrite app_nil_r, <- app_assoc. unfold blocks. f_equal; destruct constant; try contradiction; reflexivity.
Qed.

Lemma existsb_row t (C : list (option R * var)) : existsb (fun r => vtype_eqb (t_type r) t) (map row_of C) = existsb (fun d => vt t (snd d)) C.
Proof. induction C as [|c C IH]; [reflexivity|]. cbn [map existsb]. now rewrite IH. Qed.

Lemma at_rows_length {A} (C : list (option R * var)) idx (l : list A) f : at_rows C idx = map f l -> List.length idx = List.length l.
Proof. intros E. apply (f_equal (@List.length _)) in E. unfold at_rows in E. now rewrite !map_length in E. Qed.

(** One lag of every variable, everything but perhaps the constant varies by regime: the coefficient of each variable in each
    regime is compared with that of its own lag in the same regime. *)
(* partial; missing: models with a fixed variable or lag, where the test raises or compares the wrong coefficients (C94_ml_comfac_raises_iff, C94_wrong_pairs_refuted). *)
Theorem C94_comfac_partial : forall constant kx (regs : list R), constant <> COther -> NoDup regs -> 1 <= kx ->
  let C := coefs (durbin_vars constant kx (seq 0 kx) 1) (with_constant constant (repeat true (kx + kx))) regs ++ [(None, VRho)] in
  exists x wx v, summary_comfac reqb 1 false (map row_of C) = Ok (Some (x, wx, v)) /\
    at_rows C x = map Some (betas_of regs kx) /\ at_rows C wx = map Some (gammas_of regs kx) /\
    at_rows C v = map Some (betas_of regs kx ++ gammas_of regs kx ++ [(None, VRho)]).
Proof.
  intros constant kx regs Hc Hd Hk C. pose proof (comfac_at C) as H. unfold summary_comfac. rewrite !existsb_row.
  destruct (comfac_idx reqb (map row_of C)) as ((x, wx), v).
  assert (EC : C = _) by (apply (regimes_coefs constant kx regs Hc)).
  set (B := match constant with CMany => [VO] | _ => [] end ++ map VX (seq 0 kx) ++ map (VWX 1) (seq 0 kx)) in EC.
  set (G := match constant with COne => [VO] | _ => [] end) in EC.
  destruct H as (Hx & Hwx & Hv). rewrite Hx, Hwx in Hv. clearbody C. subst C.
  rewrite select_x in Hx, Hv by (try exact Hd; unfold B; rewrite !app_length, !map_length, seq_length; lia). rewrite select_wx in Hwx, Hv.
  assert (EX : blocks (filter (vt TX) B) regs = betas_of regs kx).
  { unfold B, betas_of. rewrite !filter_app, vt_X, vt_WX. cbn [vtype_eqb]. rewrite app_nil_r.
    replace (filter (vt TX) (match constant with CMany => [VO] | _ => [] end)) with (@nil var) by (destruct constant; reflexivity).
    apply blocks_vars. }
  assert (EW : blocks (filter (vt TWX) B) regs = gammas_of regs kx).
  { unfold B, gammas_of. rewrite !filter_app, vt_X, vt_WX. cbn [vtype_eqb].
    replace (filter (vt TWX) (match constant with CMany => [VO] | _ => [] end)) with (@nil var) by (destruct constant; reflexivity).
    apply (blocks_vars (VWX 1)). }
  assert (EG : filter (vt TX) G = []) by (unfold G; destruct constant; reflexivity).
  rewrite EG, app_nil_r, EX in Hx, Hv. rewrite EW in Hwx, Hv.
  assert (ER : filter (fun d => vt TRho (snd d)) (blocks B regs ++ map (fun v => (None, v)) (G ++ [VRho])) = [(None, VRho)]).
  { rewrite filter_app, filter_blocks. replace (filter (vt TRho) B) with (@nil var).
    - unfold blocks. rewrite filter_map_pair, filter_app. replace (filter _ G) with (@nil var) by (unfold G; destruct constant; reflexivity).
      cbn. clear. induction regs; [reflexivity|assumption].
    - unfold B. rewrite !filter_app, vt_X, vt_WX. destruct constant; reflexivity. }
  rewrite ER in Hv. cbn [map] in Hv.
  assert (E1 : existsb (fun d : option R * var => vt TRho (snd d)) (blocks B regs ++ map (fun v => (None, v)) (G ++ [VRho])) = true).
  { apply existsb_exists. exists (None, VRho). split; [|reflexivity]. apply in_or_app. right. apply (in_map (fun v => (None, v))). apply in_or_app. right. now left. }
  assert (E2 : existsb (fun d : option R * var => vt TYend (snd d)) (blocks B regs ++ map (fun v => (None, v)) (G ++ [VRho])) = false).
  { apply not_true_is_false. intros H. apply existsb_exists in H. destruct H as ((g, u) & Hu & Hty). apply in_app_or in Hu.
    assert (Hin : In u (B ++ G ++ [VRho])).
    { apply in_or_app. destruct Hu as [Hu|Hu].
      - left. unfold blocks in Hu. apply in_flat_map in Hu. destruct Hu as (r & _ & Hu). apply in_map_iff in Hu. destruct Hu as (u' & E & Hu). injection E as _ ->. exact Hu.
      - right. apply in_map_iff in Hu. destruct Hu as (u' & E & Hu). injection E as _ ->. exact Hu. }
    cbn [snd] in Hty. unfold B, G in Hin. repeat (apply in_app_or in Hin; destruct Hin as [Hin|Hin]);
      try (destruct constant; cbn in Hin; try contradiction; destruct Hin as [<-|[]]; discriminate);
      try (apply in_map_iff in Hin; destruct Hin as (j & <- & _); discriminate). }
  rewrite E1, E2. cbn [Nat.eqb negb andb].
  assert (L : List.length x = List.length wx).
  { rewrite (at_rows_length _ _ _ _ Hx), (at_rows_length _ _ _ _ Hwx). unfold betas_of, gammas_of.
    clear. induction regs as [|r regs IH]; [reflexivity|]. cbn [flat_map]. rewrite !app_length, !map_length. f_equal. exact IH. }
  rewrite L, Nat.eqb_refl. exists x, wx, v. split; [reflexivity|]. split; [exact Hx|]. split; [exact Hwx|].
  rewrite Hv, !map_app. reflexivity.
Qed.

(** ** When the test raises *)
Lemma filter_blocks_len p B (regs : list R) : List.length (filter (fun d => p (snd d)) (blocks B regs)) = List.length regs * List.length (filter p B).
Proof.
  rewrite filter_blocks. unfold blocks. induction regs as [|r regs IH]; [reflexivity|]. cbn [flat_map List.length]. rewrite app_length, map_length, IH. lia.
Qed.

Lemma vt_len t (l : list var) : List.length (filter (vt t) l) = List.length (filter (fun u => vtype_eqb u t) (map type_of l)).
Proof. induction l as [|v l IH]; [reflexivity|]. cbn [filter map]. unfold vt at 1. destruct (vtype_eqb (type_of v) t); cbn [List.length]; now rewrite IH. Qed.

Lemma rep_len t u n : List.length (filter (fun w => vtype_eqb w t) (repeat u n)) = if vtype_eqb u t then n else 0.
Proof. induction n as [|n IH]; [now destruct (vtype_eqb u t)|]. cbn [repeat filter]. destruct (vtype_eqb u t); cbn [List.length]; now rewrite IH. Qed.

Lemma regimes_counts constant sel fx fw (regs : list R) : constant <> COther -> List.length fw = List.length sel ->
  let C := coefs (durbin_vars constant (List.length fx) sel 1) (with_constant constant (fx ++ fw)) regs ++ [(None, VRho)] in
  List.length (filter (fun d => vt TX (snd d)) C) = List.length regs * ntrue fx + ntrue (map negb fx) /\
  List.length (filter (fun d => (vt TWX (snd d) && negb (oreqb reqb (fst d) None))%bool) C) = List.length regs * ntrue fw /\
  existsb (fun d => vt TRho (snd d)) C = true /\ existsb (fun d => vt TYend (snd d)) C = false.
Proof.
  intros Hc Hw C. unfold C. clear C.
  rewrite coefs_blocks by (rewrite durbin_length, wc_length, app_length by exact Hc; lia).
  pose proof (block_types constant TWX fx fw Hc) as HB. pose proof (glob_types constant TWX fx fw Hc) as HG.
  set (vars := durbin_vars constant (List.length fx) sel 1) in *.
  assert (ET : map type_of vars = match constant with CNone => [] | _ => [TO] end ++ repeat TX (List.length fx) ++ repeat TWX (List.length fw)).
  { unfold vars. rewrite durbin_types, Nat.mul_1_r, Hw. reflexivity. }
  rewrite <- ET in HB, HG. rewrite compress_map' in HB, HG.
  set (B := compress vars (with_constant constant (fx ++ fw))) in *. set (G := compress vars (map negb (with_constant constant (fx ++ fw)))) in *.
  clearbody B G. change (flat_map (fun r => map (fun v => (Some r, v)) B) regs) with (blocks B regs). rewrite <- app_assoc.
  split; [|split; [|split]].
  - rewrite filter_app, app_length, filter_blocks_len, filter_app. rewrite filter_map_pair. cbn [filter snd vt type_of vtype_eqb]. rewrite app_nil_r, map_length.
    rewrite !vt_len, HB, HG, !filter_app, !app_length, !rep_len. destruct constant; try contradiction; cbn; lia.
  - rewrite app_assoc. rewrite !filter_app, filter_map_pair. cbn [filter snd fst oreqb negb]. rewrite !andb_false_r.
    rewrite (filter_false (fun v => (vt TWX v && false)%bool)) by (intros; apply andb_false_r). cbn [map]. rewrite !app_nil_r.
    assert (E : filter (fun d : option R * var => (vt TWX (snd d) && negb (oreqb reqb (fst d) None))%bool) (blocks B regs) =
                filter (fun d => vt TWX (snd d)) (blocks B regs)).
    { apply filter_ext_in. intros (g, u) Hu. unfold blocks in Hu. apply in_flat_map in Hu. destruct Hu as (r & _ & Hu).
      apply in_map_iff in Hu. destruct Hu as (u' & E & _). injection E as <- <-. apply andb_true_r. }
    rewrite E, filter_blocks_len, vt_len, HB, !filter_app, !app_length, !rep_len. destruct constant; try contradiction; cbn; lia.
  - apply existsb_exists. exists (None, VRho). split; [|reflexivity]. do 2 (apply in_or_app; right). now left.
  - apply not_true_is_false. intros H. apply existsb_exists in H. destruct H as ((g, u) & Hu & Hty). cbn [snd] in Hty. unfold vt in Hty.
    assert (Hin : In (type_of u) (map type_of B) \/ In (type_of u) (map type_of G) \/ type_of u = TRho).
    { apply in_app_or in Hu. destruct Hu as [Hu|Hu].
      - left. apply in_map. unfold blocks in Hu. apply in_flat_map in Hu. destruct Hu as (r & _ & Hu). apply in_map_iff in Hu. destruct Hu as (u' & E & Hu). injection E as _ ->. exact Hu.
      - right. apply in_app_or in Hu. destruct Hu as [Hu|[Hu|[]]]; [left; apply in_map|right; now injection Hu as _ <-].
        apply in_map_iff in Hu. destruct Hu as (u' & E & Hu). injection E as _ ->. exact Hu. }
    rewrite HB, HG in Hin. destruct (type_of u); try discriminate.
    destruct Hin as [Hin|[Hin|Hin]]; [| |discriminate]; apply in_app_or in Hin;
      (destruct Hin as [Hin|Hin]; [|apply repeat_spec in Hin; discriminate]); apply in_app_or in Hin;
      (destruct Hin as [Hin|Hin]; [|apply repeat_spec in Hin; discriminate]);
      destruct constant; try contradiction; (destruct Hin as [Hin|[]]; discriminate).
Qed.

(** One lag: the summary of ML_Lag_Regimes raises exactly when the number of coefficients of the variables, global ones
    included, is not the number of coefficients of their lags, global ones not included.  fx, fw: the flags (True: varies) of
    the variables and of the lagged variables. *)
Theorem C94_ml_comfac_raises_iff : forall constant (sel : list nat) (fx fw : list bool) (regs : list R), constant <> COther -> NoDup regs ->
  List.length fw = List.length sel ->
  summary_comfac reqb 1 false (ml_regimes_types reqb constant (fx ++ fw) (List.length sel * 1) regs) = Err "ValueError" <->
  List.length regs * ntrue fx + ntrue (map negb fx) <> List.length regs * ntrue fw.
Proof.
  intros constant sel fx fw regs Hc Hd Hw.
  rewrite (C94_ml_types constant (List.length fx) sel 1 (fx ++ fw) regs Hc Hd) by (rewrite app_length; lia).
  set (C := coefs _ _ _ ++ _). destruct (regimes_counts constant sel fx fw regs Hc Hw) as (NX & NW & E1 & E2). fold C in NX, NW, E1, E2.
  unfold summary_comfac. rewrite !existsb_row, E1, E2. cbn [Nat.eqb negb andb].
  pose proof (comfac_at C) as H. destruct (comfac_idx reqb (map row_of C)) as ((x, wx), v). destruct H as (Hx & Hwx & _).
  apply at_rows_length in Hx. apply at_rows_length in Hwx. rewrite NW in Hwx.
  rewrite (partition_length reqb reqb_spec fst (fun d => vt TX (snd d))) in Hx.
  - rewrite NX in Hx. rewrite Hx, Hwx. destruct (Nat.eqb_spec (List.length regs * ntrue fx + ntrue (map negb fx)) (List.length regs * ntrue fw)) as [E|E].
    + split; [discriminate|]. intros H. contradiction.
    + split; auto.
  - apply uniq_NoDup. apply oreqb_spec. exact reqb_spec.
  - intros c Hcin. apply uniq_In; [apply oreqb_spec; exact reqb_spec|]. now apply in_map.
Qed.

(** The flags given for x are those of the lags too, and one of them is fixed: the summary raises. *)
Corollary C94_ml_comfac_fixed_raises : forall constant (fx : list bool) (regs : list R), constant <> COther -> NoDup regs -> In false fx ->
  summary_comfac reqb 1 false (ml_regimes_types reqb constant (fx ++ fx) (List.length (seq 0 (List.length fx)) * 1) regs) = Err "ValueError".
Proof.
  intros constant fx regs Hc Hd Hf. apply C94_ml_comfac_raises_iff; try assumption; [now rewrite seq_length|].
  assert (1 <= ntrue (map negb fx)); [|lia]. clear -Hf. unfold ntrue. induction fx as [|b fx IH]; [contradiction|]. destruct Hf as [-> |Hf]; [cbn; lia|].
  specialize (IH Hf). destruct b; cbn in *; lia.
Qed.

(** Everything varies and only some of the variables are lagged: the summary raises. *)
Corollary C94_ml_comfac_mask_raises : forall constant kx (sel : list nat) (regs : list R), constant <> COther -> NoDup regs -> regs <> [] ->
  List.length sel < kx ->
  summary_comfac reqb 1 false (ml_regimes_types reqb constant (repeat true kx ++ repeat true (List.length sel)) (List.length sel * 1) regs) = Err "ValueError".
Proof.
  intros constant kx sel regs Hc Hd Hne Hk. apply C94_ml_comfac_raises_iff; try assumption; [apply repeat_length|].
  assert (Ht : forall n, ntrue (repeat true n) = n) by (unfold ntrue; induction n; cbn; auto).
  assert (Hnf : forall n, ntrue (map negb (repeat true n)) = 0) by (unfold ntrue; induction n; cbn; auto).
  rewrite !Ht, Hnf. destruct regs; [contradiction|]. cbn [List.length]. nia.
Qed.

(** ** One equation without regimes, and one equation per regime *)
Definition eqn (e : R) (vars : list var) : list (option R * var) := map (fun v => (Some e, v)) vars.

Lemma eqn_rows e (vars : list var) : map row_of (eqn e vars) = map (fun t => {| t_type := t; t_reg := Some e |}) (map type_of vars).
Proof. unfold eqn. now rewrite !map_map. Qed.

Lemma column_iff (e : R) types vars : column e types (List.length vars) = Ok (map row_of (eqn e vars)) <-> types = map type_of vars.
Proof.
  rewrite eqn_rows. unfold column. split.
  - destruct (Nat.eqb _ _); [|discriminate]. intros E. injection E as E. apply (f_equal (map (@t_type R))) in E. rewrite !map_map in E. cbn [t_type] in E.
    now rewrite !map_id in E.
  - intros ->. rewrite map_length, Nat.eqb_refl. reflexivity.
Qed.

Definition ml_vars kx (sel : list nat) lags : list var := durbin_vars CMany kx sel lags ++ [VRho].
Definition gm_vars kx (sel : list nat) lags ny : list var := durbin_vars CMany kx sel lags ++ end_vars ny.

Lemma ml_vars_types kx sel lags : map type_of (ml_vars kx sel lags) = [TO] ++ repeat TX kx ++ repeat TWX (List.length sel * lags) ++ [TRho].
Proof. unfold ml_vars. rewrite map_app, durbin_types. now rewrite <- !app_assoc. Qed.
Lemma gm_vars_types kx sel lags ny :
  map type_of (gm_vars kx sel lags ny) = [TO] ++ repeat TX kx ++ repeat TWX (List.length sel * lags) ++ repeat TYend ny ++ [TRho].
Proof. unfold gm_vars, end_vars. rewrite !map_app, durbin_types, end_types. now rewrite <- !app_assoc. Qed.
Lemma ml_vars_len kx sel lags : List.length (ml_vars kx sel lags) = kx + List.length sel * lags + 2.
Proof. rewrite <- (map_length type_of), ml_vars_types, !app_length, !repeat_length. cbn. lia. Qed.
Lemma gm_vars_len kx sel lags ny : List.length (gm_vars kx sel lags ny) = kx + List.length sel * lags + ny + 2.
Proof. rewrite <- (map_length type_of), gm_vars_types, !app_length, !repeat_length. cbn. lia. Qed.

(** ML_Lag and GM_Lag without regimes: right for every choice of lagged variables. *)
Theorem C94_ml_single : forall (e : R) kx sel lags,
  ml_types e kx (List.length sel) lags (List.length (ml_vars kx sel lags)) = Ok (map row_of (eqn e (ml_vars kx sel lags))).
Proof.
  intros e kx sel lags. unfold ml_types. apply column_iff. rewrite ml_vars_types, ml_vars_len.
  destruct (Nat.ltb_spec 0 lags) as [Hl|Hl]; [reflexivity|]. replace lags with 0 by lia. rewrite Nat.mul_0_r. cbn [repeat app].
  f_equal. f_equal. f_equal. lia.
Qed.

Theorem C94_gm_single : forall (e : R) kx sel lags ny,
  gm_types e kx (List.length sel) lags ny (List.length (gm_vars kx sel lags ny)) = Ok (map row_of (eqn e (gm_vars kx sel lags ny))).
Proof.
  intros e kx sel lags ny. unfold gm_types. apply column_iff. rewrite gm_vars_types, gm_vars_len.
  destruct (Nat.ltb_spec 0 lags) as [Hl|Hl]; [reflexivity|]. replace lags with 0 by lia. rewrite Nat.mul_0_r. cbn [repeat app].
  f_equal. f_equal. f_equal. lia.
Qed.

(** One equation per regime: a ValueError unless lags + 1 divides the number of columns of x ... *)
Theorem C94_ml_multi_accepts_iff : forall (e : R) kx sel lags, 1 <= lags ->
  (exists rows, ml_multi_types e lags (List.length (ml_vars kx sel lags)) = Ok rows) <->
  Nat.divide (lags + 1) (kx + List.length sel * lags).
Proof.
  intros e kx sel lags Hl. unfold ml_multi_types, column. rewrite ml_vars_len. destruct (Nat.ltb_spec 0 lags); [|lia].
  rewrite !app_length, !repeat_length. cbn [List.length]. set (s := kx + List.length sel * lags).
  replace (s + 2 - 1) with (1 + s) by lia. set (q := (1 + s) / (lags + 1)). split.
  - destruct (Nat.eqb_spec (1 + (q + (q * lags + 1))) (s + 2)) as [E|E]; [intros _; exists q; lia|intros (rows & H1); discriminate].
  - intros (d & Hd). assert (E : q = d).
    { unfold q. rewrite Hd, Nat.div_add by lia. rewrite Nat.div_small by lia. reflexivity. }
    destruct (Nat.eqb_spec (1 + (q + (q * lags + 1))) (s + 2)) as [E2|E2]; [eexists; reflexivity|]. subst q. nia.
Qed.

Theorem C94_gm_multi_accepts_iff : forall (e : R) kx sel lags ny, 1 <= lags ->
  (exists rows, gm_multi_types e lags (List.length (durbin_vars CMany kx sel lags)) ny = Ok rows) <->
  Nat.divide (lags + 1) (kx + List.length sel * lags).
Proof.
  intros e kx sel lags ny Hl. unfold gm_multi_types, column. rewrite durbin_length by discriminate. destruct (Nat.ltb_spec 0 lags); [|lia].
  rewrite !app_length, !repeat_length. cbn [List.length with_constant app]. set (s := List.length sel * lags).
  replace (1 + kx + s + (ny + 1) - (ny + 1) - 1) with (kx + s) by lia. set (q := (kx + s) / (lags + 1)). split.
  - destruct (Nat.eqb_spec (1 + (q + (q * lags + (ny + 1)))) (1 + kx + s + (ny + 1))) as [E|E]; [intros _; exists q; nia|intros (rows & H1); discriminate].
  - intros (d & Hd). assert (E : q = d) by (unfold q; rewrite Hd; apply Nat.div_mul; lia).
    destruct (Nat.eqb_spec (1 + (q + (q * lags + (ny + 1)))) (1 + kx + s + (ny + 1))) as [E2|E2]; [eexists; reflexivity|]. subst q. nia.
Qed.

(** ... and the types are right exactly when every variable is lagged. *)
Theorem C94_ml_multi_iff : forall (e : R) kx sel lags, 1 <= lags ->
  ml_multi_types e lags (List.length (ml_vars kx sel lags)) = Ok (map row_of (eqn e (ml_vars kx sel lags))) <-> List.length sel = kx.
Proof.
  intros e kx sel lags Hl. unfold ml_multi_types. rewrite column_iff, ml_vars_types, ml_vars_len. destruct (Nat.ltb_spec 0 lags); [|lia].
  set (s := List.length sel * lags). replace (kx + s + 2 - 1) with (1 + (kx + s)) by lia. split.
  - intros E. assert (Ek : (1 + (kx + s)) / (lags + 1) = kx).
    { apply (f_equal (fun l => List.length (filter (fun w => vtype_eqb w TX) l))) in E. cbn [app] in E. cbn [filter vtype_eqb] in E.
      rewrite !filter_app, !app_length, !rep_len in E. cbn [vtype_eqb List.length filter] in E. rewrite ?Nat.add_0_r in E. exact E. }
    apply (f_equal (@List.length _)) in E. rewrite !app_length, !repeat_length in E. cbn [List.length] in E. rewrite Ek in E. unfold s in E. nia.
  - intros E. assert (Ek : (1 + (kx + s)) / (lags + 1) = kx).
    { unfold s. rewrite E. replace (1 + (kx + kx * lags)) with (1 + kx * (lags + 1)) by lia. rewrite Nat.div_add by lia.
      rewrite Nat.div_small by lia. reflexivity. }
    rewrite Ek. unfold s. now rewrite E.
Qed.

Theorem C94_gm_multi_iff : forall (e : R) kx sel lags ny, 1 <= lags ->
  gm_multi_types e lags (List.length (durbin_vars CMany kx sel lags)) ny = Ok (map row_of (eqn e (gm_vars kx sel lags ny))) <-> List.length sel = kx.
Proof.
  intros e kx sel lags ny Hl. unfold gm_multi_types.
  replace (List.length (durbin_vars CMany kx sel lags) + (ny + 1)) with (List.length (gm_vars kx sel lags ny))
    by (rewrite gm_vars_len, durbin_length by discriminate; cbn [with_constant app List.length]; lia).
  rewrite column_iff, gm_vars_types, gm_vars_len. destruct (Nat.ltb_spec 0 lags); [|lia].
  set (s := List.length sel * lags). replace (kx + s + ny + 2 - (ny + 1) - 1) with (kx + s) by lia. split.
  - intros E. assert (Ek : (kx + s) / (lags + 1) = kx).
    { apply (f_equal (fun l => List.length (filter (fun w => vtype_eqb w TX) l))) in E. cbn [app] in E. cbn [filter vtype_eqb] in E.
      rewrite !filter_app, !app_length, !rep_len in E. cbn [vtype_eqb List.length filter] in E. rewrite ?Nat.add_0_r in E. exact E. }
    apply (f_equal (@List.length _)) in E. rewrite !app_length, !repeat_length in E. cbn [List.length] in E. rewrite Ek in E. unfold s in E. nia.
  - intros E. assert (Ek : (kx + s) / (lags + 1) = kx).
    { unfold s. rewrite E. replace (kx + kx * lags) with (kx * (lags + 1)) by lia. apply Nat.div_mul. lia. }
    rewrite Ek. unfold s. now rewrite E.
Qed.

(** The common factor test without regimes compares each variable with its own lag. *)
Theorem C94_comfac_single : forall (e : R) kx, exists x wx v,
  summary_comfac reqb 1 false (map row_of (eqn e (ml_vars kx (seq 0 kx) 1))) = Ok (Some (x, wx, v)) /\
  at_rows (eqn e (ml_vars kx (seq 0 kx) 1)) x = map Some (map (fun j => (Some e, VX j)) (seq 0 kx)) /\
  at_rows (eqn e (ml_vars kx (seq 0 kx) 1)) wx = map Some (map (fun j => (Some e, VWX 1 j)) (seq 0 kx)) /\
  at_rows (eqn e (ml_vars kx (seq 0 kx) 1)) v =
    map Some (map (fun j => (Some e, VX j)) (seq 0 kx) ++ map (fun j => (Some e, VWX 1 j)) (seq 0 kx) ++ [(Some e, VRho)]).
Proof.
  intros e kx. set (C := eqn e (ml_vars kx (seq 0 kx) 1)). pose proof (comfac_at C) as H. unfold summary_comfac. rewrite !existsb_row.
  destruct (comfac_idx reqb (map row_of C)) as ((x, wx), v). destruct H as (Hx & Hwx & Hv). rewrite Hx, Hwx in Hv.
  set (vars := ml_vars kx (seq 0 kx) 1) in *.
  assert (EV : vars = VO :: map VX (seq 0 kx) ++ map (VWX 1) (seq 0 kx) ++ [VRho]).
  { unfold vars, ml_vars, durbin_vars. cbn [seq flat_map]. rewrite app_nil_r. cbn [app]. now rewrite <- app_assoc. }
  assert (Rr : reqb e e = true) by now apply reqb_spec.
  assert (EF : forall t, filter (vt t) vars = filter (vt t) [VO] ++ (if vtype_eqb TX t then map VX (seq 0 kx) else []) ++
                 (if vtype_eqb TWX t then map (VWX 1) (seq 0 kx) else []) ++ filter (vt t) [VRho]).
  { intros t. rewrite EV, <- vt_X, <- (vt_WX t 1), <- !filter_app. reflexivity. }
  assert (EP : forall p : var -> bool, filter (fun d => (oreqb reqb (fst d) (Some e) && p (snd d))%bool) C = eqn e (filter p vars)).
  { intros p. unfold C, eqn. rewrite filter_map_pair. cbn [fst snd oreqb]. now rewrite Rr. }
  assert (EU : uniq (oreqb reqb) (map fst C) = [Some e]).
  { assert (EM : map fst C = repeat (Some e) (S (List.length (map VX (seq 0 kx) ++ map (VWX 1) (seq 0 kx) ++ [VRho])))).
    { unfold C, eqn. rewrite EV, map_map. cbn [fst map repeat]. f_equal. generalize (map VX (seq 0 kx) ++ map (VWX 1) (seq 0 kx) ++ [VRho]).
      intros l. induction l as [|u l IH]; cbn; congruence. }
    rewrite EM, <- (app_nil_r (repeat _ _)). rewrite (uniq_repeat (oreqb reqb) (oreqb_spec reqb reqb_spec)). reflexivity. }
  rewrite EU in Hx, Hv. cbn [flat_map] in Hx, Hv. rewrite app_nil_r in Hx, Hv. rewrite (EP (vt TX)), EF in Hx, Hv.
  assert (EW : filter (fun d : option R * var => (vt TWX (snd d) && negb (oreqb reqb (fst d) None))%bool) C = eqn e (filter (vt TWX) vars)).
  { unfold C, eqn. rewrite filter_map_pair. cbn [fst snd oreqb negb]. f_equal. apply filter_ext. intros u. apply andb_true_r. }
  rewrite EW, EF in Hwx, Hv.
  assert (ER : filter (fun d : option R * var => vt TRho (snd d)) C = eqn e (filter (vt TRho) vars)).
  { unfold C, eqn. now rewrite filter_map_pair. }
  rewrite ER, EF in Hv.
  cbn [filter vt type_of vtype_eqb app] in Hx, Hwx, Hv. rewrite !app_nil_r in Hx, Hv. rewrite app_nil_r in Hwx. rewrite ?app_nil_r in Hv.
  unfold eqn in Hx, Hwx, Hv. rewrite !map_map in Hx. rewrite !map_map in Hwx. cbn [map] in Hv.
  assert (E1 : existsb (fun d : option R * var => vt TRho (snd d)) C = true).
  { apply existsb_exists. exists (Some e, VRho). split; [|reflexivity]. unfold C, eqn. apply (in_map (fun v => (Some e, v))). rewrite EV.
    right. apply in_or_app. right. apply in_or_app. right. now left. }
  assert (E2 : existsb (fun d : option R * var => vt TYend (snd d)) C = false).
  { apply not_true_is_false. intros H. apply existsb_exists in H. destruct H as ((g, u) & Hu & Hty). cbn [snd] in Hty.
    unfold C, eqn in Hu. apply in_map_iff in Hu. destruct Hu as (u' & E & Hu). injection E as _ ->.
    assert (Hf : In u (filter (vt TYend) vars)) by (apply filter_In; auto). rewrite EF in Hf. exact Hf. }
  rewrite E1, E2. cbn [Nat.eqb negb andb].
  assert (L : List.length x = List.length wx).
  { apply (f_equal (@List.length _)) in Hx. apply (f_equal (@List.length _)) in Hwx. unfold at_rows in Hx, Hwx. rewrite !map_length in Hx. rewrite !map_length in Hwx. lia. }
  rewrite L, Nat.eqb_refl. exists x, wx, v. split; [reflexivity|]. rewrite !map_map. split; [exact Hx|]. split; [exact Hwx|].
  rewrite Hv, !map_app, !map_map. reflexivity.
Qed.

(** There is no test for models with more lag orders, nor with further endogenous variables. *)
Theorem C94_comfac_scope : forall (rows : list (@trow R)) lags b x, summary_comfac reqb lags b rows = Ok (Some x) ->
  lags = 1 /\ (forall r, In r rows -> t_type r <> TYend) /\ b = false.
Proof.
  intros rows lags b x H. unfold summary_comfac in H. destruct (existsb (fun r => vtype_eqb (t_type r) TRho) rows && Nat.eqb lags 1 &&
    negb (existsb (fun r => vtype_eqb (t_type r) TYend) rows) && negb b)%bool eqn:E; [|discriminate].
  rewrite !andb_true_iff, !negb_true_iff in E. destruct E as (((_ & E1) & E2) & E3). split; [now apply Nat.eqb_eq|]. split; [|exact E3].
  intros r Hr Ht. apply not_true_iff_false in E2. apply E2. apply existsb_exists. exists r. rewrite Ht. auto.
Qed.

(** Without regimes and with some variables lagged only, there is no test. *)
Theorem C94_comfac_single_mask : forall (rows : list (@trow R)) lags, summary_comfac reqb lags true rows = Ok None.
Proof. intros rows lags. unfold summary_comfac. now rewrite andb_false_r. Qed.
End Thm.

(** ** Refutations *)
(** Two regimes; x1 and x2 global, x3 varies; W_x1 and W_x2 vary, W_x3 global (cols2regi = [F,F,T,T,T,F]): four coefficients on
    each side, and global x1 is compared with W_x2 of regime 2, and so on: no error. *)
Theorem C94_wrong_pairs_refuted :
  let C := coefs (durbin_vars CMany 3 (seq 0 3) 1) (with_constant CMany [false; false; true; true; true; false]) [1; 2] ++ [(None, VRho)] in
  exists x wx v, summary_comfac Nat.eqb 1 false (ml_regimes_types Nat.eqb CMany [false; false; true; true; true; false] 3 [1; 2]) = Ok (Some (x, wx, v)) /\
    at_rows C x = map Some [(Some 1, VX 2); (Some 2, VX 2); (None, VX 0); (None, VX 1)] /\
    at_rows C wx = map Some [(Some 1, VWX 1 0); (Some 1, VWX 1 1); (Some 2, VWX 1 0); (Some 2, VWX 1 1)].
Proof. do 3 eexists. split; [vm_compute; reflexivity|]. split; vm_compute; reflexivity. Qed.

(** One equation per regime, three variables of which the first is lagged: x3 is taken for a lag, and the test compares x1 with x3
    and x2 with W_x1. *)
Theorem C94_multi_wrong_refuted :
  exists rows x wx v, ml_multi_types 1 1 (List.length (ml_vars 3 [0] 1)) = Ok rows /\ summary_comfac Nat.eqb 1 false rows = Ok (Some (x, wx, v)) /\
    at_rows (eqn 1 (ml_vars 3 [0] 1)) x = map Some [(Some 1, VX 0); (Some 1, VX 1)] /\
    at_rows (eqn 1 (ml_vars 3 [0] 1)) wx = map Some [(Some 1, VX 2); (Some 1, VWX 1 0)].
Proof. do 4 eexists. split; [vm_compute; reflexivity|]. split; [vm_compute; reflexivity|]. split; vm_compute; reflexivity. Qed.

(** GM_Lag_Regimes with constant_regi='one', two variables and their lags: one lag per regime is called a variable. *)
Theorem C94_gm_one_refuted :
  gm_regimes_types Nat.eqb COne [true; true; true; true] [false] 1 [1; 2] =
    map (fun '(t, g) => {| t_type := t; t_reg := g |})
      [(TX, Some 1); (TX, Some 1); (TX, Some 1); (TWX, Some 1); (TX, Some 2); (TX, Some 2); (TX, Some 2); (TWX, Some 2); (TO, None); (TRho, None)] /\
  summary_comfac Nat.eqb 1 false (gm_regimes_types Nat.eqb COne [true; true; true; true] [false] 1 [1; 2]) = Err "ValueError".
Proof. split; vm_compute; reflexivity. Qed.

(** A concrete case: ML_Lag_Regimes, two variables and their lags, two regimes *)
Example C94_witness :
  summary_comfac Nat.eqb 1 false (ml_regimes_types Nat.eqb CMany [true; true; true; true] 2 [1; 2]) =
  Ok (Some ([1; 2; 6; 7], [3; 4; 8; 9], [1; 2; 6; 7; 3; 4; 8; 9; 10])).
Proof. vm_compute. reflexivity. Qed.
