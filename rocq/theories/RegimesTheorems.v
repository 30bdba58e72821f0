(** Property theorems C07 (regime design), C08 (regime names), C09 (Chow restrictions), C11 (cols2regi),
    C55 (regimes_set).  spreg/regimes.py. *)
From Verif Require Import PyBase RegimesModel RegimesSpec RegimesProofs RegimesProofs2 RegimesProofs3.
From Coq Require Import Permutation Sorted Ring_theory Ring InitialRing.
Open Scope string_scope.
Open Scope list_scope.
Open Scope nat_scope.

(** Valid input of Regimes_Frame: n rows of k entries, one regime per row, a set of the regimes without repetition,
    one name per variable, cols2regi long enough. *)
Definition frame_input {F} (k : nat) (x : list (list F)) (regimes regimes_set names : list string)
    (constant : const_regi) (c : c2r) : Prop :=
  constant <> COther /\ 1 <= k /\ match c with C2All => True | C2List l => k <= List.length l end /\
  List.length names = k /\ NoDup regimes_set /\ regimes <> [] /\ (forall r, In r regimes <-> In r regimes_set) /\
  List.length x = List.length regimes /\ (forall row, In row x -> List.length row = k).

(** C07: every row of the design, column by column. *)
Theorem C07_design : forall F (f0 f1 : F) fadd fmul fsub fopp, ring_theory f0 f1 fadd fmul fsub fopp eq ->
  forall k x regimes regimes_set names constant c, frame_input k x regimes regimes_set names constant c ->
  exists fr, regimes_frame f0 f1 fadd k x regimes regimes_set constant c names = Ok fr /\
    List.length (fr_x fr) = List.length x /\
    forall i row r, nth_error x i = Some row -> nth_error regimes i = Some r ->
      nth_error (fr_x fr) i =
      Some (map (cell f0 string_dec (design_row f1 constant row) r) (layout regimes_set (design_mask k constant c))).
Proof.
  intros F f0 f1 fadd fmul fsub fopp Rth k x regimes regimes_set names constant c (H1 & H2 & H3 & H4 & H5 & H6 & H7 & H8 & H9).
  destruct (regimes_frame_spec Rth k x regimes regimes_set constant c names H1 H2 H3 H4 H5 H6 H7 H8 H9) as (fr & E & Ex & _).
  exists fr. split; auto. rewrite Ex, map_length, combine_length. split; [lia|].
  intros i row r Hi Hr. rewrite nth_error_map.
  assert (G : forall (a : list string) (b : list (list F)), nth_error a i = Some r -> nth_error b i = Some row ->
      nth_error (combine a b) i = Some (r, row)).
  { clear. revert i. induction i as [|i IH]; intros [|s a] [|t b] Ha Hb; cbn in *; try discriminate; [congruence|auto]. }
  rewrite (G _ _ Hr Hi). reflexivity.
Qed.

(** C07: the fitted value of an observation uses the coefficients of its own regime, and the global ones. *)
Theorem C07_fitted_value : forall F (f0 f1 : F) fadd fmul fsub fopp, ring_theory f0 f1 fadd fmul fsub fopp eq ->
  forall k x regimes regimes_set names constant c (beta : option string * nat -> F),
  frame_input k x regimes regimes_set names constant c ->
  exists fr, regimes_frame f0 f1 fadd k x regimes regimes_set constant c names = Ok fr /\
    forall i row r, nth_error x i = Some row -> nth_error regimes i = Some r ->
    exists xi, nth_error (fr_x fr) i = Some xi /\
      let mask := design_mask k constant c in
      let v := design_row f1 constant row in
      vdot f0 fadd fmul xi (map beta (layout regimes_set mask)) =
      fadd (vsum f0 fadd (map (fun j => fmul (nth j v f0) (beta (Some r, j))) (positions true mask)))
           (vsum f0 fadd (map (fun j => fmul (nth j v f0) (beta (None, j))) (positions false mask))).
Proof.
  intros F f0 f1 fadd fmul fsub fopp Rth k x regimes regimes_set names constant c beta Hin.
  destruct (C07_design F f0 f1 fadd fmul fsub fopp Rth _ _ _ _ _ _ _ Hin) as (fr & E & _ & H).
  exists fr. split; auto. intros i row r Hi Hr. eexists. split; [apply H; eauto|].
  cbv zeta. destruct Hin as (_ & _ & _ & _ & Hd & _ & Hset & _).
  apply (dot_layout Rth string_dec); auto. apply Hset. eapply nth_error_In; eauto.
Qed.

Example C07_witness :
  frame_input 2 [[10; 11]; [20; 21]; [30; 31]]%Z ["b"; "a"; "b"] ["a"; "b"] ["x1"; "x2"] COne (C2List [true; false]) /\
  match regimes_frame 0%Z 1%Z Z.add 2 [[10; 11]; [20; 21]; [30; 31]]%Z ["b"; "a"; "b"] ["a"; "b"] COne
     (C2List [true; false]) ["x1"; "x2"] with
  | Ok fr => (fr_x fr, fr_names fr) | Err _ => ([], []) end
  = ([[0; 10; 1; 11]; [20; 0; 1; 21]; [0; 30; 1; 31]]%Z, ["a_x1"; "b_x1"; "_Global_CONSTANT"; "_Global_x2"]).
Proof.
  split; [|reflexivity]. unfold frame_input.
  split; [discriminate|]. split; [lia|]. split; [cbn; lia|]. split; [reflexivity|].
  split; [repeat constructor; cbn; intuition discriminate|]. split; [discriminate|].
  split; [cbn; intuition|]. split; [reflexivity|].
  intros row [<-|[<-|[<-|[]]]]; reflexivity.
Qed.

(** C08: names and regime tags are those of the columns. *)
Theorem C08_names : forall F (f0 f1 : F) fadd fmul fsub fopp, ring_theory f0 f1 fadd fmul fsub fopp eq ->
  forall k x regimes regimes_set names constant c, frame_input k x regimes regimes_set names constant c ->
  exists fr, regimes_frame f0 f1 fadd k x regimes regimes_set constant c names = Ok fr /\
    let full := match constant with CNone => names | _ => "CONSTANT" :: names end in
    let cols := layout regimes_set (design_mask k constant c) in
    fr_names fr = map (regime_label full) cols /\ fr_rlist fr = map regime_tag cols /\
    (forall row, In row (fr_x fr) -> List.length row = List.length (fr_names fr)) /\
    List.length (fr_names fr) = fr_nr fr * fr_kr fr + fr_kf fr.
Proof.
  intros F f0 f1 fadd fmul fsub fopp Rth k x regimes regimes_set names constant c (H1 & H2 & H3 & H4 & H5 & H6 & H7 & H8 & H9).
  destruct (regimes_frame_spec Rth k x regimes regimes_set constant c names H1 H2 H3 H4 H5 H6 H7 H8 H9)
    as (fr & E & Ex & En & Er & Ekr & Ekf & Enr & _).
  exists fr. split; auto. cbv zeta. rewrite En, Er, Ekr, Ekf, Enr. split; [reflexivity|]. split; [reflexivity|]. split.
  - intros row Hr. rewrite Ex in Hr. apply in_map_iff in Hr. destruct Hr as (p & <- & _). now rewrite !map_length.
  - now rewrite map_length, layout_length.
Qed.

(** C09.  Coefficients of an instrumental-variables regimes model: exogenous design columns (xmask), then endogenous
    ones (ymask).  The v-th regime-varying coefficient in regime r. *)
Definition iv_betas {F} (bx by_ : option string * nat -> F) (rs : list string) (xmask ymask : list bool) : list F :=
  map bx (layout rs xmask) ++ map by_ (layout rs ymask).
Definition varying_coef {F} (bx by_ : option string * nat -> F) (xmask ymask : list bool) (v : nat) (r : string) : F :=
  let kx := List.length (positions true xmask) in
  if v <? kx then bx (Some r, nth v (positions true xmask) 0) else by_ (Some r, nth (v - kx) (positions true ymask) 0).
Definition same_in_all_regimes {F} (rs : list string) (b : string -> F) : Prop := forall r s, In r rs -> In s rs -> b r = b s.
Definition annihilates {F} (f0 : F) fadd fopp (R : list (list Z)) (beta : list F) : Prop :=
  forall row, In row R -> row_dot f0 fadd fopp row beta = f0.

Lemma iv_nth {F} (bx by_ : option string * nat -> F) d rs xmask ymask v p r :
  positions false xmask = [] \/ positions true ymask = [] ->
  v < List.length (positions true xmask) + List.length (positions true ymask) -> nth_error rs p = Some r ->
  nth (pos_of (List.length (positions true xmask)) (List.length (positions true ymask)) (List.length rs) p v)
      (iv_betas bx by_ rs xmask ymask) d = varying_coef bx by_ xmask ymask v r.
Proof.
  intros Hcase Hv Hp. unfold pos_of, iv_betas, varying_coef.
  set (kx := List.length (positions true xmask)) in *. set (ky := List.length (positions true ymask)) in *.
  assert (Hpl : p < List.length rs) by (apply nth_error_Some; congruence).
  destruct (Nat.ltb_spec v kx) as [Hx|Hx].
  - rewrite app_nth1 by (rewrite map_layout_length; fold kx; nia).
    apply nth_layout; auto. destruct (nth_error (positions true xmask) v) eqn:E.
    + f_equal. symmetry. now apply nth_error_nth.
    + apply nth_error_None in E. unfold kx in Hx. lia.
  - destruct Hcase as [Hf|Hy]; [|unfold ky in Hv; rewrite Hy in Hv; cbn in Hv; lia].
    rewrite app_nth2; rewrite map_layout_length, Hf; fold kx; [|cbn; nia].
    cbn [List.length]. replace (kx * List.length rs + p * ky + (v - kx) - (List.length rs * kx + 0)) with (p * ky + (v - kx)) by nia.
    apply nth_layout; auto. destruct (nth_error (positions true ymask) (v - kx)) eqn:E.
    + f_equal. symmetry. now apply nth_error_nth.
    + apply nth_error_None in E. unfold ky in Hv. lia.
Qed.

Lemma all_same_first {F} (rs : list string) (b : string -> F) (c : nat -> F) : rs <> [] ->
  (forall p r, nth_error rs p = Some r -> c p = b r) ->
  ((forall p, p < List.length rs -> c p = c 0) <-> same_in_all_regimes rs b).
Proof.
  intros Hne Hc. split.
  - intros H r s Hr Hs. apply In_nth_error in Hr, Hs. destruct Hr as [p Hp], Hs as [q Hq].
    assert (p < List.length rs) by (apply nth_error_Some; congruence).
    assert (q < List.length rs) by (apply nth_error_Some; congruence).
    rewrite <- (Hc _ _ Hp), <- (Hc _ _ Hq), (H p), (H q); auto.
  - intros H p Hp. destruct (nth_error rs p) as [r|] eqn:E; [|apply nth_error_None in E; lia].
    destruct rs as [|r0 rs]; [congruence|]. rewrite (Hc p r E), (Hc 0 r0 eq_refl). apply H; [|cbn; auto].
    eapply nth_error_In; eauto.
Qed.

(** Full statement: for every xmask and ymask.  Proved: when no exogenous variable (the constant included) is global, or
    no endogenous variable varies.  Missing: the remaining case, which is false (C09_chow_refuted). *)
Theorem C09_chow_one_partial : forall F (f0 f1 : F) fadd fmul fsub fopp, ring_theory f0 f1 fadd fmul fsub fopp eq ->
  forall (bx by_ : option string * nat -> F) rs xmask ymask v,
  rs <> [] ->
  positions false xmask = [] \/ positions true ymask = [] ->
  let kx := List.length (positions true xmask) in
  let ky := List.length (positions true ymask) in
  let kf := List.length (positions false xmask) + List.length (positions false ymask) in
  v < kx + ky ->
  exists R, buildR1var v (kx + ky) kf ky (List.length rs) = Ok R /\
    List.length R = List.length rs - 1 /\
    (annihilates f0 fadd fopp R (iv_betas bx by_ rs xmask ymask) <->
     same_in_all_regimes rs (varying_coef bx by_ xmask ymask v)).
Proof.
  intros F f0 f1 fadd fmul fsub fopp Rth bx by_ rs xmask ymask v Hne Hcase kx ky kf Hv.
  assert (Hn : 1 <= List.length rs) by (destruct rs; [congruence|cbn; lia]).
  assert (Hl : List.length (iv_betas bx by_ rs xmask ymask) = (kx + ky) * List.length rs + kf).
  { unfold iv_betas. rewrite app_length, !map_layout_length. unfold kx, ky, kf. nia. }
  destruct (buildR1var_spec Rth v (kx + ky) kf ky (List.length rs) (iv_betas bx by_ rs xmask ymask)) as (R & E & HRl & HR); auto; [lia|].
  exists R. split; auto. split.
  { apply (f_equal (@List.length _)) in HR. rewrite !map_length, seq_length in HR. exact HR. }
  unfold annihilates. rewrite (buildR1var_iff Rth v (kx + ky) kf ky (List.length rs) _ R); auto; [|lia].
  replace (kx + ky - ky) with kx by lia.
  apply (all_same_first rs (varying_coef bx by_ xmask ymask v)
    (fun p => nth (pos_of kx ky (List.length rs) p v) (iv_betas bx by_ rs xmask ymask) f0)); auto.
  intros p r Hp. apply iv_nth; auto.
Qed.

(** The joint test is the conjunction over all regime-varying coefficients. *)
Theorem C09_chow_joint_partial : forall F (f0 f1 : F) fadd fmul fsub fopp, ring_theory f0 f1 fadd fmul fsub fopp eq ->
  forall (bx by_ : option string * nat -> F) rs xmask ymask,
  rs <> [] ->
  positions false xmask = [] \/ positions true ymask = [] ->
  let kx := List.length (positions true xmask) in
  let ky := List.length (positions true ymask) in
  let kf := List.length (positions false xmask) + List.length (positions false ymask) in
  1 <= kx + ky ->
  exists R, chow_global (kx + ky) kf ky (List.length rs) = Ok R /\
    (annihilates f0 fadd fopp R (iv_betas bx by_ rs xmask ymask) <->
     forall v, v < kx + ky -> same_in_all_regimes rs (varying_coef bx by_ xmask ymask v)).
Proof.
  intros F f0 f1 fadd fmul fsub fopp Rth bx by_ rs xmask ymask Hne Hcase kx ky kf Hk.
  pose proof (C09_chow_one_partial F f0 f1 fadd fmul fsub fopp Rth bx by_ rs xmask ymask) as H1.
  cbv zeta in H1. fold kx ky kf in H1.
  assert (Hok : exists out, mapM (fun v => buildR1var v (kx + ky) kf ky (List.length rs)) (seq 0 (kx + ky)) = Ok out).
  { apply mapM_ok. intros v Hv. apply in_seq in Hv. destruct (H1 v Hne Hcase ltac:(lia)) as (R & E & _). eauto. }
  destruct Hok as (out & Eo). unfold chow_global. destruct (kx + ky) as [|m] eqn:Ek; [lia|]. rewrite <- Ek in *.
  rewrite Eo. cbn [bind]. eexists. split; [reflexivity|]. unfold annihilates. split.
  - intros H v Hv. destruct (H1 v Hne Hcase Hv) as (R & E & _ & Hiff). apply Hiff. intros row Hr. apply H.
    apply in_concat. exists R. split; auto. apply (mapM_In _ _ _ R Eo). exists v. split; auto. apply in_seq. lia.
  - intros H row Hr. apply in_concat in Hr. destruct Hr as (R & HR & Hr). apply (mapM_In _ _ _ R Eo) in HR.
    destruct HR as (v & Hv & E). apply in_seq in Hv. destruct (H1 v Hne Hcase ltac:(lia)) as (R' & E' & _ & Hiff).
    rewrite E in E'. injection E' as <-. apply Hiff; auto. apply H. lia.
Qed.

(** Models without endogenous variables (OLS_Regimes, ML_*_Regimes exogenous part): no restriction on the mask. *)
Theorem C09_chow_exogenous : forall F (f0 f1 : F) fadd fmul fsub fopp, ring_theory f0 f1 fadd fmul fsub fopp eq ->
  forall (b : option string * nat -> F) rs mask v, rs <> [] -> v < List.length (positions true mask) ->
  exists R, buildR1var v (List.length (positions true mask)) (List.length (positions false mask)) 0 (List.length rs) = Ok R /\
    (annihilates f0 fadd fopp R (map b (layout rs mask)) <->
     same_in_all_regimes rs (fun r => b (Some r, nth v (positions true mask) 0))).
Proof.
  intros F f0 f1 fadd fmul fsub fopp Rth b rs mask v Hne Hv.
  destruct (C09_chow_one_partial F f0 f1 fadd fmul fsub fopp Rth b b rs mask [] v Hne (or_intror eq_refl)) as (R & E & _ & H).
  { cbn. lia. }
  cbn [positions filter seq List.length] in E, H. change (positions true []) with (@nil nat) in *.
  change (positions false []) with (@nil nat) in *. cbn [List.length] in E.
  rewrite !Nat.add_0_r in E. exists R. split; auto. unfold iv_betas in H.
  assert (El : layout rs [] = []).
  { unfold layout. change (positions true []) with (@nil nat). change (positions false []) with (@nil nat). cbn [map].
    rewrite app_nil_r. clear. induction rs; auto. }
  rewrite El in H. cbn [map] in H. rewrite app_nil_r in H. rewrite H.
  unfold same_in_all_regimes, varying_coef. apply Nat.ltb_lt in Hv. rewrite Hv. reflexivity.
Qed.

(** With the constant global (constant_regi='one') and a regime-varying endogenous variable the matrix built for that
    variable is annihilated by coefficients that differ between the two regimes. *)
Theorem C09_chow_refuted : exists (bx by_ : option string * nat -> Z) rs xmask ymask R,
  buildR1var 1 2 1 1 (List.length rs) = Ok R /\
  List.length (positions true xmask) = 1 /\ List.length (positions false xmask) = 1 /\
  List.length (positions true ymask) = 1 /\ List.length (positions false ymask) = 0 /\
  annihilates 0%Z Z.add Z.opp R (iv_betas bx by_ rs xmask ymask) /\
  ~ same_in_all_regimes rs (varying_coef bx by_ xmask ymask 1).
Proof.
  exists (fun d => 5%Z), (fun d => match fst d with Some "a" => 5%Z | _ => 7%Z end), ["a"; "b"], [false; true], [true],
    [[0; 0; 1; -1; 0]%Z].
  split; [reflexivity|]. split; [reflexivity|]. split; [reflexivity|]. split; [reflexivity|]. split; [reflexivity|]. split.
  - intros row [<-|[]]. reflexivity.
  - intros H. specialize (H "a" "b" ltac:(cbn; auto) ltac:(cbn; auto)). vm_compute in H. discriminate.
Qed.

(** regime_err_sep models append one coefficient (lambda) to each regime's block; it is dropped and every other
    coefficient keeps its position. *)
Theorem C09_chow_drops_extra : forall F (d : F) kr nr betas, 1 <= nr -> List.length betas = nr * (kr + 1) ->
  exists b, chow_betas kr 0 nr (nr * kr) betas = Ok (b, 0) /\ List.length b = nr * kr /\
    (forall p v, p < nr -> v < kr -> nth (p * kr + v) b d = nth (p * (kr + 1) + v) betas d).
Proof. intros F d kr nr betas. apply chow_betas_multi. Qed.

Example C09_witness : buildR1var 2 3 0 1 3 = Ok [[0; 0; 0; 0; 0; 0; 1; -1; 0]%Z; [0; 0; 0; 0; 0; 0; 1; 0; -1]%Z] /\
  positions false [true; true] = [] /\ 2 < List.length (positions true [true; true]) + List.length (positions true [true]) /\
  chow_betas 2 0 2 4 [1; 2; 9; 3; 4; 8] = Ok ([1; 2; 3; 4], 0).
Proof. repeat split; cbn; lia. Qed.

(** C11 *)
Theorem C11_check_cols2regi : forall constant c kx kyend add_cons m,
  check_cols2regi constant c kx kyend add_cons = Ok m <->
  exists cons body,
    m = cons ++ body /\
    (add_cons = false /\ cons = [] \/ add_cons = true /\ constant = CMany /\ cons = [true] \/
     add_cons = true /\ constant = COne /\ cons = [false]) /\
    (c = C2All /\ body = repeat true (kx + match kyend with Some k => k | None => 0 end) \/ c = C2List body) /\
    List.length body = kx + match kyend with Some k => k | None => 0 end.
Proof.
  intros constant c kx kyend add_cons m. unfold check_cols2regi.
  set (K := kx + match kyend with Some k => k | None => 0 end).
  assert (EK : match kyend with Some k => kx + k | None => kx end = K) by (unfold K; destruct kyend; lia).
  rewrite EK.
  assert (G : forall cons, List.length cons = (if add_cons then 1 else 0) ->
     ((let c0 := match c with C2All => cons ++ repeat true K | C2List l => cons ++ l end in
       if Nat.eqb (List.length c0 - (if add_cons then 1 else 0)) K then Ok c0 else Err "Exception") = Ok m <->
      exists body, m = cons ++ body /\ (c = C2All /\ body = repeat true K \/ c = C2List body) /\ List.length body = K)).
  { intros cons Hc. cbv zeta. destruct c as [|l].
    - rewrite app_length, Hc, repeat_length. replace ((if add_cons then 1 else 0) + K - (if add_cons then 1 else 0)) with K by lia.
      rewrite Nat.eqb_refl. split.
      + intros [= <-]. exists (repeat true K). rewrite repeat_length. auto.
      + intros (body & -> & [[_ ->]|H] & _); [reflexivity|discriminate].
    - rewrite app_length, Hc. replace ((if add_cons then 1 else 0) + List.length l - (if add_cons then 1 else 0)) with (List.length l) by lia.
      destruct (Nat.eqb_spec (List.length l) K) as [E|E]; split.
      + intros [= <-]. exists l. auto.
      + intros (body & -> & [[H _]|[= ->]] & _); [discriminate|reflexivity].
      + discriminate.
      + intros (body & -> & [[H _]|[= ->]] & Hl); [discriminate|contradiction]. }
  destruct add_cons.
  - destruct constant; cbn [bind]; try (split; [discriminate|]; intros (cons & body & _ & [[H _]|[(_ & H & _)|(_ & H & _)]] & _); discriminate).
    + rewrite (G [false]) by reflexivity. split.
      * intros (body & H). exists [false], body. intuition.
      * intros (cons & body & -> & [[H _]|[(_ & H & _)|(_ & _ & ->)]] & H2); try discriminate. exists body. auto.
    + rewrite (G [true]) by reflexivity. split.
      * intros (body & H). exists [true], body. intuition.
      * intros (cons & body & -> & [[H _]|[(_ & _ & ->)|(_ & H & _)]] & H2); try discriminate. exists body. auto.
  - cbn [bind]. rewrite (G []) by reflexivity. split.
    + intros (body & H). exists [], body. intuition.
    + intros (cons & body & -> & [[_ ->]|[(H & _)|(H & _)]] & H2); try discriminate. exists body. auto.
Qed.

(** constant_regi=False (no constant) with the constant requested: Python's UnboundLocalError, not a message. *)
Theorem C11_no_constant_error : forall c kx ky, check_cols2regi CNone c kx ky true = Err "UnboundLocalError".
Proof. reflexivity. Qed.

Example C11_witness : check_cols2regi CMany (C2List [true; false; true]) 2 (Some 1) true = Ok [true; true; false; true] /\
  check_cols2regi COne C2All 2 None true = Ok [false; true; true] /\
  check_cols2regi CMany (C2List [true]) 2 None true = Err "Exception".
Proof. repeat split. Qed.

(** C55, identifiers that are not floats: [leb] is Python's order on them. *)
Theorem C55_regimes_set : forall A (leb : A -> A -> bool) dec regimes,
  (forall a b, leb a b = true \/ leb b a = true) ->
  let rs := get_regimes_set leb dec regimes in
  NoDup rs /\ (forall r, In r rs <-> In r regimes) /\ Sorted (fun a b => leb a b = true) rs.
Proof.
  intros A leb dec regimes Htot. cbv zeta. unfold get_regimes_set. repeat split.
  - eapply Permutation_NoDup; [symmetry; apply sort_perm|]. apply NoDup_nodup.
  - intros H. apply (nodup_In dec). eapply Permutation_in; [apply sort_perm|exact H].
  - intros H. eapply Permutation_in; [symmetry; apply sort_perm|]. now apply nodup_In.
  - now apply sort_sorted.
Qed.

(** Floats z/D.  Full statement: the returned identifiers are the distinct values.  Proved: when every value is integral,
    or when two distinct values have the same integer part.  Missing: the other case, which is false. *)
Theorem C55_regimes_set_float_partial : forall D regimes, (0 < D)%Z ->
  (forall z, In z regimes -> (Z.quot z D * D)%Z = z) \/
  (exists a b, In a regimes /\ In b regimes /\ a <> b /\ Z.quot a D = Z.quot b D) ->
  let rs := get_regimes_set_float D regimes in
  NoDup rs /\ (forall r, In r rs <-> In r regimes) /\ Sorted (fun a b => Z.leb a b = true) rs.
Proof.
  intros D regimes HD Hc. cbv zeta.
  assert (E : get_regimes_set_float D regimes = get_regimes_set Z.leb Z.eq_dec regimes).
  { unfold get_regimes_set_float, get_regimes_set. set (s := nodup Z.eq_dec regimes).
    destruct Hc as [Hi|(a & b & Ha & Hb & Hab & Hq)].
    - assert (Em : map (trunc_den D) s = s).
      { rewrite <- (map_id s) at 2. apply map_ext_in. intros z Hz. apply Hi. now apply (nodup_In Z.eq_dec). }
      rewrite Em. rewrite (nodup_fixed_point Z.eq_dec) by apply NoDup_nodup. now rewrite Nat.eqb_refl.
    - destruct (Nat.eqb_spec (List.length (nodup Z.eq_dec (map (trunc_den D) s))) (List.length s)) as [El|]; auto.
      exfalso. assert (Hnd : NoDup (map (trunc_den D) s)).
      { apply NoDup_incl_NoDup with (l := nodup Z.eq_dec (map (trunc_den D) s)); [apply NoDup_nodup|rewrite map_length; lia|].
        intros z Hz. now apply (nodup_In Z.eq_dec). }
      assert (G : forall l, NoDup (map (trunc_den D) l) -> In a l -> In b l -> False).
      { intros l; induction l as [|c l IH]; cbn; intros Hd Hia Hib; [contradiction|]. inversion Hd as [|? ? Hn Hd']; subst.
        assert (Et : trunc_den D a = trunc_den D b) by (unfold trunc_den; congruence).
        destruct Hia as [->|Hia], Hib as [->|Hib]; [congruence| | |eauto].
        - apply Hn. rewrite Et. now apply in_map.
        - apply Hn. rewrite <- Et. now apply in_map. }
      apply (G s Hnd); now apply nodup_In. }
  rewrite E. apply C55_regimes_set. intros a b. rewrite !Z.leb_le. lia.
Qed.

(** [1.5, 2.5] gives [1, 2]: no observation belongs to a returned regime, and the design construction raises KeyError. *)
Theorem C55_regimes_set_float_refuted : exists D regimes, (0 < D)%Z /\
  (forall r, In r regimes -> ~ In r (get_regimes_set_float D regimes)) /\
  x2xsp 0%Z Z.add Z.eq_dec 1 [[1]; [1]]%Z regimes (get_regimes_set_float D regimes) = Err "KeyError".
Proof.
  exists 2%Z, [3; 5]%Z. split; [lia|]. split; [|reflexivity].
  intros r Hr H. cbn in Hr. vm_compute in H. destruct Hr as [<-|[<-|[]]]; destruct H as [H|[H|[]]]; discriminate H.
Qed.

Example C55_witness : get_regimes_set Z.leb Z.eq_dec [3; 1; 2; 3; 1]%Z = [1; 2; 3]%Z /\
  get_regimes_set_float 2 [6; 2; 4; 2]%Z = [2; 4; 6]%Z /\ get_regimes_set_float 2 [3; 2]%Z = [2; 3]%Z.
Proof. repeat split. Qed.

Print Assumptions C07_design.
Print Assumptions C07_fitted_value.
Print Assumptions C08_names.
Print Assumptions C09_chow_one_partial.
Print Assumptions C09_chow_joint_partial.
Print Assumptions C09_chow_exogenous.
Print Assumptions C09_chow_refuted.
Print Assumptions C09_chow_drops_extra.
Print Assumptions C11_check_cols2regi.
Print Assumptions C11_no_constant_error.
Print Assumptions C55_regimes_set.
Print Assumptions C55_regimes_set_float_partial.
Print Assumptions C55_regimes_set_float_refuted.
