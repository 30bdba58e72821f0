From Verif Require Import PyBase RegimesModel RegimesSpec RegimesProofs.
From Coq Require Import Permutation Sorted Ring_theory Ring.
Open Scope string_scope.
Open Scope list_scope.
Open Scope nat_scope.

(** names *)
Definition full_names (name_x : list string) (constant : const_regi) : list string :=
  match constant with CNone => name_x | _ => "CONSTANT" :: name_x end.

Lemma set_name_x_regimes_spec name_x constant mask regimes_set :
  name_x <> [] -> List.length mask = List.length (full_names name_x constant) ->
  set_name_x_regimes name_x constant mask regimes_set =
  Ok (map (regime_label (full_names name_x constant)) (layout regimes_set mask),
      map regime_tag (layout regimes_set mask)).
Proof.
  intros Hne Hl. unfold set_name_x_regimes.
  assert (En : forall k, match name_x with [] => map (fun i => ("var_" ++ py_str (i + 1))%string) (seq 0 k) | l => l end = name_x)
    by (intros k; destruct name_x; [congruence|reflexivity]).
  rewrite En.
  assert (Ef : (if match constant with CNone => false | _ => true end then "CONSTANT" :: name_x else name_x) = full_names name_x constant)
    by (destruct constant; reflexivity).
  rewrite Ef. set (N := full_names name_x constant) in *.
  rewrite !(take_idx_map N _ "").
  2:{ intros i Hi. rewrite <- pos_false in Hi. apply positions_bound in Hi. lia. }
  2:{ intros i Hi. rewrite <- pos_true in Hi. apply positions_bound in Hi. lia. }
  cbn [bind]. rewrite <- pos_true, <- pos_false. unfold layout. f_equal. f_equal; rewrite !map_app, !map_map; f_equal.
  - induction regimes_set as [|r rs IH]; [reflexivity|]. cbn [flat_map]. rewrite map_app, IH, !map_map. reflexivity.
  - induction regimes_set as [|r rs IH]; [reflexivity|]. cbn [flat_map]. rewrite map_app, IH, !map_map. reflexivity.
Qed.

Lemma set_name_x_regimes_default constant mask regimes_set :
  set_name_x_regimes [] constant mask regimes_set =
  match map (fun i => ("var_" ++ py_str (i + 1))%string)
            (seq 0 (List.length mask - match constant with CNone => 0 | _ => 1 end)) with
  | [] => set_name_x_regimes [] constant mask regimes_set
  | l => set_name_x_regimes l constant mask regimes_set
  end.
Proof.
  unfold set_name_x_regimes at 1.
  assert (E : List.length mask - (if match constant with CNone => false | _ => true end then 1 else 0) =
              List.length mask - match constant with CNone => 0 | _ => 1 end) by (destruct constant; auto).
  rewrite E. destruct (map _ (seq 0 (List.length mask - match constant with CNone => 0 | _ => 1 end))) eqn:En.
  - unfold set_name_x_regimes. rewrite E, En. reflexivity.
  - reflexivity.
Qed.

Lemma layout_length {ID} (rs : list ID) mask :
  List.length (layout rs mask) = List.length rs * List.length (positions true mask) + List.length (positions false mask).
Proof.
  unfold layout. rewrite app_length, map_length. f_equal.
  induction rs as [|r rs IH]; cbn; auto. rewrite app_length, map_length, IH. lia.
Qed.

(** ---- Chow ---- *)
Section Chow.
Context {F : Type} {f0 f1 : F} {fadd fmul fsub : F -> F -> F} {fopp : F -> F}.
Context (Rth : ring_theory f0 f1 fadd fmul fsub fopp eq).
Add Ring FR2 : Rth.
Notation row_dot := (row_dot f0 fadd fopp).
Notation zscale := (zscale f0 fadd fopp).
Notation sum := (fold_right fadd f0).

Lemma sum_delta a o n l : List.length l = n ->
  sum (map (fun p => if Nat.eqb (fst p) a then snd p else f0) (combine (seq o n) l)) =
  if (o <=? a) && (a <? o + n) then nth (a - o) l f0 else f0.
Proof.
  revert o n; induction l as [|b l IH]; intros o n <-; cbn [List.length seq combine map fold_right fst snd].
  - destruct (Nat.leb_spec o a), (Nat.ltb_spec a (o + 0)); cbn; auto; lia.
  - rewrite IH by auto. destruct (Nat.eqb_spec o a) as [<-|Hne].
    + rewrite Nat.leb_refl, Nat.sub_diag. destruct (Nat.leb_spec (S o) o); [lia|].
      destruct (Nat.ltb_spec o (o + S (List.length l))); [|lia]. cbn. ring.
    + destruct (Nat.leb_spec (S o) a), (Nat.leb_spec o a), (Nat.ltb_spec a (S o + List.length l)),
        (Nat.ltb_spec a (o + S (List.length l))); cbn [andb]; try lia; try ring.
      replace (a - o) with (S (a - S o)) by lia. cbn [nth]. ring.
Qed.

Lemma sum_sub (A : Type) (u v : A -> F) l : sum (map (fun p => fsub (u p) (v p)) l) = fsub (sum (map u l)) (sum (map v l)).
Proof. induction l as [|a l IH]; cbn; [ring|]. rewrite IH. ring. Qed.

Lemma row_dot_app r1 r2 b1 b2 : List.length r1 = List.length b1 ->
  row_dot (r1 ++ r2) (b1 ++ b2) = fadd (row_dot r1 b1) (row_dot r2 b2).
Proof.
  unfold RegimesModel.row_dot. revert b1; induction r1 as [|z r1 IH]; intros [|b b1] H; cbn in *; try discriminate; [ring|].
  rewrite IH by lia. ring.
Qed.

Lemma row_dot_zeros n b : row_dot (repeat 0%Z n) b = f0.
Proof.
  unfold RegimesModel.row_dot. revert b; induction n as [|n IH]; intros [|x b]; cbn; auto. rewrite IH. ring.
Qed.

Lemma row_dot_contrast cneg cbeg n kf beta : cneg < n -> cbeg < n -> cneg <> cbeg -> List.length beta = n + kf ->
  row_dot (map (fun c => if Nat.eqb c cneg then (-1)%Z else if Nat.eqb c cbeg then 1%Z else 0%Z) (seq 0 n) ++ repeat 0%Z kf) beta
  = fsub (nth cbeg beta f0) (nth cneg beta f0).
Proof.
  intros H1 H2 Hne Hl. rewrite <- (firstn_skipn n beta).
  assert (Hf : List.length (firstn n beta) = n) by (rewrite firstn_length; lia).
  rewrite row_dot_app by (rewrite map_length, seq_length; auto). rewrite row_dot_zeros.
  assert (E : row_dot (map (fun c => if Nat.eqb c cneg then (-1)%Z else if Nat.eqb c cbeg then 1%Z else 0%Z) (seq 0 n)) (firstn n beta)
    = fsub (nth cbeg (firstn n beta) f0) (nth cneg (firstn n beta) f0)).
  { unfold RegimesModel.row_dot.
    assert (Ec : forall (g : nat -> Z) s (b : list F), map (fun p => zscale (fst p) (snd p)) (combine (map g s) b)
                 = map (fun p => zscale (g (fst p)) (snd p)) (combine s b)).
    { intros g s; induction s as [|a s IH]; intros [|x b]; cbn; auto. now rewrite IH. }
    rewrite Ec.
    rewrite (map_ext _ (fun p => fsub (if Nat.eqb (fst p) cbeg then snd p else f0) (if Nat.eqb (fst p) cneg then snd p else f0))).
    - rewrite sum_sub, !sum_delta by auto. cbn [Nat.leb andb Nat.add].
      rewrite (proj2 (Nat.ltb_lt _ _) H1), (proj2 (Nat.ltb_lt _ _) H2), !Nat.sub_0_r. reflexivity.
    - intros [c b]; cbn [fst snd]. destruct (Nat.eqb_spec c cneg) as [->|].
      + destruct (Nat.eqb_spec cneg cbeg); [congruence|]. cbn. ring.
      + destruct (Nat.eqb c cbeg); cbn; ring. }
  rewrite E. rewrite !app_nth1 by lia. ring.
Qed.

(** position of the coefficient of regime-varying variable v in regime p, exogenous block first *)
Definition pos_of (krexog kryd nr p v : nat) : nat :=
  if v <? krexog then p * krexog + v else krexog * nr + p * kryd + (v - krexog).

Lemma buildR1var_spec vari kr kf kryd nr (beta : list F) :
  vari < kr -> kryd <= kr -> 1 <= nr -> List.length beta = kr * nr + kf ->
  exists R, buildR1var vari kr kf kryd nr = Ok R /\
    (forall row, In row R -> List.length row = kr * nr + kf) /\
    map (fun row => row_dot row beta) R =
    map (fun j => fsub (nth (pos_of (kr - kryd) kryd nr 0 vari) beta f0) (nth (pos_of (kr - kryd) kryd nr (S j) vari) beta f0))
        (seq 0 (nr - 1)).
Proof.
  intros Hv Hk Hn Hl. unfold buildR1var, pos_of.
  set (kx := kr - kryd). assert (Hkr : kr = kx + kryd) by (unfold kx; lia).
  destruct (Nat.ltb_spec vari kx) as [Hx|Hx].
  - assert (Hc : vari < kr * nr) by nia.
    rewrite (proj2 (Nat.ltb_lt _ _) Hc). cbn [orb].
    rewrite (mapM_map _ (fun j => map (fun c => if Nat.eqb c (kx + vari + j * kx) then (-1)%Z else if Nat.eqb c vari then 1%Z else 0%Z)
                                      (seq 0 (kr * nr)) ++ repeat 0%Z kf)).
    2:{ intros j Hj. apply in_seq in Hj. assert (Hb : kx + vari + j * kx < kr * nr) by nia.
        rewrite (proj2 (Nat.ltb_lt _ _) Hb). reflexivity. }
    cbn [bind]. eexists. split; [reflexivity|]. split.
    + intros row Hr. apply in_map_iff in Hr. destruct Hr as (j & <- & _).
      now rewrite app_length, map_length, seq_length, repeat_length.
    + rewrite map_map. apply map_ext_in. intros j Hj. apply in_seq in Hj.
      rewrite row_dot_contrast; auto; try nia. f_equal; f_equal; lia.
  - assert (Hc : kx * (nr - 1) + vari < kr * nr) by nia.
    rewrite (proj2 (Nat.ltb_lt _ _) Hc). cbn [orb].
    rewrite (mapM_map _ (fun j => map (fun c => if Nat.eqb c (kryd + (kx * (nr - 1) + vari) + j * kryd) then (-1)%Z
                                                 else if Nat.eqb c (kx * (nr - 1) + vari) then 1%Z else 0%Z)
                                      (seq 0 (kr * nr)) ++ repeat 0%Z kf)).
    2:{ intros j Hj. apply in_seq in Hj. assert (Hb : kryd + (kx * (nr - 1) + vari) + j * kryd < kr * nr) by nia.
        rewrite (proj2 (Nat.ltb_lt _ _) Hb). reflexivity. }
    cbn [bind]. eexists. split; [reflexivity|]. split.
    + intros row Hr. apply in_map_iff in Hr. destruct Hr as (j & <- & _).
      now rewrite app_length, map_length, seq_length, repeat_length.
    + rewrite map_map. apply map_ext_in. intros j Hj. apply in_seq in Hj.
      rewrite row_dot_contrast; auto; try nia. f_equal; f_equal; nia.
Qed.

Lemma buildR1var_iff vari kr kf kryd nr (beta : list F) R :
  vari < kr -> kryd <= kr -> 1 <= nr -> List.length beta = kr * nr + kf ->
  buildR1var vari kr kf kryd nr = Ok R ->
  ((forall row, In row R -> row_dot row beta = f0) <->
   (forall p, p < nr -> nth (pos_of (kr - kryd) kryd nr p vari) beta f0 = nth (pos_of (kr - kryd) kryd nr 0 vari) beta f0)).
Proof.
  intros Hv Hk Hn Hl HR. destruct (buildR1var_spec vari kr kf kryd nr beta Hv Hk Hn Hl) as (R' & E & _ & Hm).
  rewrite HR in E. injection E as <-.
  set (c := fun p => nth (pos_of (kr - kryd) kryd nr p vari) beta f0) in *.
  change (map (fun row => row_dot row beta) R = map (fun j => fsub (c 0) (c (S j))) (seq 0 (nr - 1))) in Hm.
  split.
  - intros H p Hp. destruct p as [|p]; auto. change (c (S p) = c 0).
    assert (Hin : In (fsub (c 0) (c (S p))) (map (fun row => row_dot row beta) R)).
    { rewrite Hm. apply in_map_iff. exists p. split; auto. apply in_seq. lia. }
    apply in_map_iff in Hin. destruct Hin as (row & E & Hr). rewrite H in E by auto.
    assert (E2 : c (S p) = fsub (c 0) (fsub (c 0) (c (S p)))) by ring. rewrite E2, <- E. ring.
  - intros H row Hr. assert (Hin : In (row_dot row beta) (map (fun row => row_dot row beta) R)) by (apply in_map_iff; exists row; auto).
    rewrite Hm in Hin. apply in_map_iff in Hin. destruct Hin as (j & <- & Hj). apply in_seq in Hj.
    specialize (H (S j) ltac:(lia)). fold c in H. change (c (S j) = c 0) in H. rewrite H. ring.
Qed.
End Chow.

Lemma mapM_In {A B} (f : A -> res B) l out b : mapM f l = Ok out -> (In b out <-> exists a, In a l /\ f a = Ok b).
Proof.
  revert out; induction l as [|a l IH]; cbn; intros out H.
  - injection H as <-. cbn. split; [tauto|]. intros (x & [] & _).
  - destruct (f a) as [c|] eqn:E; [|discriminate]. cbn in H. destruct (mapM f l) as [cs|]; [|discriminate].
    cbn in H. injection H as <-. cbn. rewrite (IH cs eq_refl). split.
    + intros [<-|(x & Hx & Ex)]; eauto.
    + intros (x & [<-|Hx] & Ex); [left; congruence|eauto].
Qed.

Lemma mapM_ok {A B} (f : A -> res B) l : (forall a, In a l -> exists b, f a = Ok b) -> exists out, mapM f l = Ok out.
Proof.
  induction l as [|a l IH]; intros H; cbn; [eauto|]. destruct (H a) as (b & ->); [cbn; auto|]. cbn.
  destruct IH as (out & ->); [intros; apply H; cbn; auto|]. cbn; eauto.
Qed.

(** chow_betas: dropping the per-regime extra coefficient *)
Lemma chow_betas_multi {F} (d : F) kr nr (betas : list F) : 1 <= nr ->
  List.length betas = nr * (kr + 1) ->
  exists b, chow_betas kr 0 nr (nr * kr) betas = Ok (b, 0) /\ List.length b = nr * kr /\
    (forall p v, p < nr -> v < kr -> nth (p * kr + v) b d = nth (p * (kr + 1) + v) betas d).
Proof.
  intros Hn Hl. unfold chow_betas.
  destruct (Nat.eqb_spec (List.length betas) (nr * kr)) as [E|E]; [exfalso; nia|]. change (0 <? 0) with false. cbn iota.
  rewrite (take_idx_map betas _ d).
  2:{ intros i Hi. apply in_flat_map in Hi. destruct Hi as (p & Hp & Hi). apply in_seq in Hp, Hi. nia. }
  cbn [bind]. eexists. split; [reflexivity|].
  assert (G : forall n o, List.length (flat_map (fun i => seq (i * (kr + 1)) kr) (seq o n)) = n * kr /\
     forall p v, p < n -> v < kr -> nth (p * kr + v) (flat_map (fun i => seq (i * (kr + 1)) kr) (seq o n)) 0 = (o + p) * (kr + 1) + v).
  { intros m; induction m as [|m IH]; intros o; [split; [reflexivity|intros; lia]|]. cbn [seq flat_map].
    destruct (IH (S o)) as [I1 I2]. split.
    - rewrite app_length, seq_length, I1. lia.
    - intros p v Hp Hv. destruct p as [|p].
      + rewrite app_nth1 by (rewrite seq_length; lia). rewrite seq_nth by lia. lia.
      + rewrite app_nth2; rewrite seq_length; [|lia]. replace (S p * kr + v - kr) with (p * kr + v) by lia.
        rewrite I2 by lia. lia. }
  destruct (G nr 0) as [G1 G2]. split; [now rewrite map_length|].
  intros p v Hp Hv.
  assert (Hb : p * kr + v < List.length (flat_map (fun i => seq (i * (kr + 1)) kr) (seq 0 nr))) by (rewrite G1; nia).
  rewrite (nth_indep _ d (nth 0 betas d)) by (rewrite map_length; exact Hb).
  rewrite (map_nth (fun i => nth i betas d) _ 0). rewrite G2 by auto. reflexivity.
Qed.

(** regimes_set *)
Section SortP.
Context {A : Type} (leb : A -> A -> bool).
Context (Htot : forall a b, leb a b = true \/ leb b a = true).
Lemma insert_perm a l : Permutation (insert leb a l) (a :: l).
Proof.
  induction l as [|b l IH]; cbn; auto. destruct (leb a b); auto.
  etransitivity; [apply perm_skip, IH|]. apply perm_swap.
Qed.
Lemma sort_perm l : Permutation (isort leb l) l.
Proof. induction l as [|a l IH]; cbn; auto. etransitivity; [apply insert_perm|]. auto. Qed.
Lemma insert_sorted a l : Sorted (fun x y => leb x y = true) l -> Sorted (fun x y => leb x y = true) (insert leb a l).
Proof.
  induction l as [|b l IH]; cbn; intros H; [auto|]. destruct (leb a b) eqn:E; [auto|].
  inversion H as [|? ? H1 H2]; subst. constructor; auto.
  assert (Hba : leb b a = true) by (destruct (Htot a b); congruence).
  destruct l as [|c l]; cbn; [auto|]. destruct (leb a c); [auto|]. inversion H2; auto.
Qed.
Lemma sort_sorted l : Sorted (fun x y => leb x y = true) (isort leb l).
Proof. induction l; cbn; auto. now apply insert_sorted. Qed.
End SortP.
