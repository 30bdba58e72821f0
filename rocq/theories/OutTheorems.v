(** C92: the coefficient table.  spreg/output.py output, output_start, out_part_middle. *)
From Verif Require Import PyBase RegimesModel RegimesProofs RegimesProofs2 OutModel OutProofs.
From Coq Require Import Permutation Sorted.
Open Scope string_scope.
Open Scope list_scope.
Open Scope nat_scope.

(** ** Specification *)
Section Spec.
Context {F R : Type}.

(** The printed row [l] shows the variable [nm], which is number i of the model f: its coefficient, and its standard error,
    statistic and probability when the model has them. *)
Definition shows (nm : string) (f : @fit F) (i : nat) (l : line) : Prop :=
  exists c, nth_error (f_betas f) i = Some c /\
    match nth_error (f_se f) i, nth_error (f_zt f) i with
    | Some s, Some (z, p) => l = LFull nm c s z p
    | _, _ => l = LCoef nm c
    end.

(** Row i comes before row j: smaller regime, or the same regime and an earlier position. *)
Definition before (leb : R -> R -> bool) (regs : list R) (i j : nat) : Prop :=
  forall a b, nth_error regs i = Some a -> nth_error regs j = Some b -> leb a b = true /\ (leb b a = true -> i <= j).

(** One coefficient per variable, and at most as many statistics. *)
Definition fits (f : @fit F) (k : nat) : Prop := List.length (f_betas f) = k /\ List.length (f_zt f) <= k.

(** The row [r] of a data frame: [names], [betas] are those of all the rows, in the order of the estimates *)
Definition frame_row (names : list string) (betas : list F) (r : @orow F R) : Prop :=
  nth_error names (r_lab r) = Some (r_name r) /\ nth_error betas (r_lab r) = r_coef r /\ r_coef r <> None.

Definition eq_order (leb : R -> R -> bool) (a b : @orow F R) : Prop :=
  leb (r_eq a) (r_eq b) = true /\ (leb (r_eq b) (r_eq a) = true -> leb (r_regime a) (r_regime b) = true /\
    (leb (r_regime b) (r_regime a) = true -> r_lab a <= r_lab b)).
End Spec.

Section T.
Context {F R : Type} (leb eqb : R -> R -> bool).
Hypothesis eqb_spec : forall a b, eqb a b = true <-> a = b.
Hypothesis leb_total : forall a b, leb a b = true \/ leb b a = true.
Notation orow := (@orow F R).

Lemma row_le_total (a b : orow) : row_le leb a b = true \/ row_le leb b a = true.
Proof.
  unfold row_le. destruct (leb (r_regime a) (r_regime b)) eqn:E1, (leb (r_regime b) (r_regime a)) eqn:E2; auto.
  - destruct (Nat.leb (r_lab a) (r_lab b)) eqn:E; [now left|right]. apply Nat.leb_le. apply Nat.leb_nle in E. lia.
  - exfalso. destruct (leb_total (r_regime a) (r_regime b)); congruence.
Qed.

Lemma final_le_total (a b : orow) : final_le leb a b = true \/ final_le leb b a = true.
Proof.
  unfold final_le. destruct (leb (r_eq a) (r_eq b)) eqn:E1, (leb (r_eq b) (r_eq a)) eqn:E2; auto.
  exfalso. destruct (leb_total (r_eq a) (r_eq b)); congruence.
Qed.

Definition row1 (e : R) (names types : list string) (regs : list R) (i : nat) : orow :=
  {| r_lab := i; r_name := nth i names ""; r_type := nth i types ""; r_regime := nth i regs e; r_eq := e;
     r_coef := None; r_se := None; r_zt := None |}.

Lemma combine_nth_map {A B} (la : list A) (lb : list B) da db n : List.length la = n -> List.length lb = n ->
  combine la lb = map (fun i => (nth i la da, nth i lb db)) (seq 0 n).
Proof.
  intros Ha Hb. subst n. rewrite <- combine_map2. rewrite map_nth_seq. rewrite <- Hb. now rewrite map_nth_seq.
Qed.

Lemma frame1_map e names types regs k : List.length names = k -> List.length types = k -> List.length regs = k ->
  frame1 e names types regs = map (row1 e names types regs) (seq 0 k).
Proof.
  intros H1 H2 H3. unfold frame1.
  rewrite (combine_nth_map types regs "" e k) by assumption.
  rewrite (combine_nth_map names (map _ (seq 0 k)) "" ("", e) k) by (rewrite ?map_length, ?seq_length; auto).
  rewrite H1. rewrite (combine_nth_map (seq 0 k) (map _ (seq 0 k)) 0 ("", ("", e)) k) by (rewrite ?map_length, ?seq_length; reflexivity).
  rewrite map_map. apply map_ext_in. intros i Hi. apply in_seq in Hi. rewrite seq_nth by lia.
  rewrite (nth_indep _ ("", ("", e)) ((fun i => (nth i names "", nth i (map (fun i0 => (nth i0 types "", nth i0 regs e)) (seq 0 k)) ("", e))) 0))
    by (rewrite map_length, seq_length; lia).
  rewrite (map_nth (fun i => (nth i names "", nth i (map (fun i0 => (nth i0 types "", nth i0 regs e)) (seq 0 k)) ("", e)))), seq_nth by lia.
  cbv beta.
  rewrite (nth_indep _ ("", e) ((fun i0 => (nth i0 types "", nth i0 regs e)) 0)) by (rewrite map_length, seq_length; lia).
  rewrite (map_nth (fun i0 => (nth i0 types "", nth i0 regs e))), seq_nth by lia. reflexivity.
Qed.

Lemma uniq_const (l : list R) e : l <> [] -> (forall a, In a l -> a = e) -> uniq eqb l = [e].
Proof.
  destruct l as [|a l]; intros Hn H; [contradiction|]. rewrite (H a) by now left. cbn [uniq]. f_equal.
  apply filter_none. intros b Hb.
  assert (Hin : forall l b, In b (uniq eqb l) -> In b l).
  { clear. intros l. induction l as [|a l IH]; intros b Hb; [exact Hb|]. cbn [uniq] in Hb. destruct Hb as [Hb|Hb]; [now left|].
    apply filter_In in Hb. right. apply IH, Hb. }
  apply Hin in Hb. rewrite (H b) by now right.
  assert (E : eqb e e = true) by now apply eqb_spec. now rewrite E.
Qed.

Lemma single_unfold e names types regs (f : @fit F) k : List.length names = k -> List.length types = k -> List.length regs = k -> 1 <= k ->
  output leb eqb (frame1 e names types regs) (fun _ => None) f =
  bind (out_part_middle leb eqb (frame1 e names types regs) e f) (fun '(rows', ls) => Ok ([ls], isort (final_le leb) rows')).
Proof.
  intros H1 H2 H3 Hk. unfold output.
  assert (Eu : uniq eqb (map r_eq (@frame1 F R e names types regs)) = [e]).
  { rewrite (frame1_map _ _ _ _ k) by assumption. apply uniq_const.
    - destruct k; [lia|discriminate].
    - intros a Ha. rewrite map_map in Ha. apply in_map_iff in Ha. now destruct Ha as (i & <- & _). }
  rewrite Eu. cbn [fold_left nth_error]. unfold out_step at 1. cbn [bind].
  destruct (out_part_middle leb eqb (frame1 e names types regs) e f) as [[rows' ls]|]; reflexivity.
Qed.

Lemma middle1 e names types regs (f : @fit F) k d : List.length names = k -> List.length types = k -> List.length regs = k -> fits f k ->
  out_part_middle leb eqb (frame1 e names types regs) e f =
  Ok (map (fun i => set_row (row1 e names types regs i) f i) (seq 0 k),
      map (the_line (row1 e names types regs) f d) (isort (fun i j => row_le leb (row1 e names types regs i) (row1 e names types regs j)) (seq 0 k))).
Proof.
  intros H1 H2 H3 (Hb & Hz). rewrite (frame1_map _ _ _ _ k) by assumption.
  pose proof (middle_block leb eqb eqb_spec [] [] (row1 e names types regs) 0 k e) as M.
  cbn [app] in M. specialize (M (fun r H => match H with end)).
  assert (Hmk : forall i, i < k -> r_eq (row1 e names types regs i) = e /\ r_lab (row1 e names types regs i) = 0 + i /\
     r_coef (row1 e names types regs i) = None /\ r_se (row1 e names types regs i) = None /\ r_zt (row1 e names types regs i) = None)
    by (intros; repeat split).
  specialize (M Hmk f d Hb Hz). rewrite !app_nil_r in M. exact M.
Qed.

Lemma the_line_shows (mk : nat -> orow) f d i nm : i < List.length (f_betas f) -> r_name (mk i) = nm -> shows nm f i (the_line mk f d i).
Proof.
  intros Hi <-. exists (nth i (f_betas f) d). split; [apply nth_error_nth'; exact Hi|]. unfold the_line.
  destruct (nth_error (f_se f) i); [|reflexivity]. destruct (nth_error (f_zt f) i) as [[z p]|]; reflexivity.
Qed.

(** One model, one table: every variable has exactly one row, which shows its own estimates; the rows are ordered by regime,
    and inside a regime as the estimates; the frame left in reg.output has the same pairs, indexed by position in betas. *)
Theorem C92_single : forall e names types regs (f : @fit F) k,
  List.length names = k -> List.length types = k -> List.length regs = k -> 1 <= k -> fits f k ->
  exists order ls rows,
    output leb eqb (frame1 e names types regs) (fun _ => None) f = Ok ([ls], rows) /\
    Permutation order (seq 0 k) /\ Sorted (before leb regs) order /\
    Forall2 (fun i l => exists nm, nth_error names i = Some nm /\ shows nm f i l) order ls /\
    Permutation (map r_lab rows) (seq 0 k) /\ Forall (frame_row names (f_betas f)) rows /\
    Forall (fun r => nth_error (f_se f) (r_lab r) = r_se r /\ nth_error (f_zt f) (r_lab r) = r_zt r) rows.
Proof.
  intros e names types regs f k H1 H2 H3 Hk Hf.
  assert (Hb : List.length (f_betas f) = k) by apply Hf.
  destruct (f_betas f) as [|d bs] eqn:Eb; [cbn in Hb; lia|]. rewrite <- Eb in *.
  set (mk := row1 e names types regs). set (le := fun i j => row_le leb (mk i) (mk j)).
  exists (isort le (seq 0 k)), (map (the_line mk f d) (isort le (seq 0 k))),
    (isort (final_le leb) (map (fun i => set_row (mk i) f i) (seq 0 k))).
  assert (Hp : Permutation (isort le (seq 0 k)) (seq 0 k)) by apply sort_perm.
  split. { rewrite (single_unfold _ _ _ _ _ k) by assumption. rewrite (middle1 _ _ _ _ _ k d) by assumption. reflexivity. }
  split; [exact Hp|]. split.
  { assert (Hs : Sorted (fun i j => le i j = true) (isort le (seq 0 k))).
    { apply sort_sorted. intros a b. apply row_le_total. }
    clear Hp. revert Hs. generalize (isort le (seq 0 k)). intros l0 Hs.
    induction Hs as [|u l Hs IHs Hd]; constructor; [exact IHs|]. destruct Hd as [|v l Hle]; constructor.
    intros x y Hx Hy. revert Hle. unfold le, row_le, mk. cbn [r_regime r_lab row1].
    rewrite (nth_error_nth regs _ e Hx), (nth_error_nth regs _ e Hy).
    destruct (leb x y); [|discriminate]. destruct (leb y x); intros Hle; split; auto; intros Hc; try discriminate.
    now apply Nat.leb_le. }
  split.
  { assert (Hb' : forall i, In i (isort le (seq 0 k)) -> i < k).
    { intros i Hi. apply (Permutation_in _ Hp) in Hi. apply in_seq in Hi. lia. }
    revert Hb'. generalize (isort le (seq 0 k)). intros l. induction l as [|i l IH]; intros Hb'; [constructor|].
    constructor; [|apply IH; intros; apply Hb'; now right]. specialize (Hb' i (or_introl eq_refl)).
    exists (nth i names ""). split; [apply nth_error_nth'; lia|]. apply the_line_shows; [lia|reflexivity]. }
  assert (Hp2 : Permutation (isort (final_le leb) (map (fun i => set_row (mk i) f i) (seq 0 k))) (map (fun i => set_row (mk i) f i) (seq 0 k)))
    by apply sort_perm.
  split.
  { eapply Permutation_trans; [apply Permutation_map, Hp2|]. rewrite map_map. cbn [set_row r_lab mk row1].
    now rewrite map_id. }
  split.
  { eapply Permutation_Forall; [apply Permutation_sym, Hp2|]. apply Forall_forall. intros r Hr. apply in_map_iff in Hr.
    destruct Hr as (i & <- & Hi). apply in_seq in Hi. unfold frame_row, set_row. cbn [r_lab r_name r_coef mk row1].
    split; [apply nth_error_nth'; lia|]. split; [reflexivity|]. apply nth_error_Some. lia. }
  eapply Permutation_Forall; [apply Permutation_sym, Hp2|]. apply Forall_forall. intros r Hr. apply in_map_iff in Hr.
  destruct Hr as (i & <- & Hi). split; reflexivity.
Qed.

Lemma mapM_err {A B} (g : A -> res B) l a exc : In a l -> g a = Err exc -> is_ok (mapM g l) = false.
Proof.
  induction l as [|b l IH]; intros Hin E; [contradiction|]. cbn [mapM]. destruct Hin as [->|Hi].
  - now rewrite E.
  - destruct (g b); [|reflexivity]. cbn [bind]. specialize (IH Hi E). destruct (mapM g l); [discriminate|reflexivity].
Qed.

(** No table with shifted or missing coefficients: the summary is written exactly when there is one coefficient per row (and no
    statistic too many); otherwise an exception. *)
Theorem C92_single_iff : forall e names types regs (f : @fit F) k,
  List.length names = k -> List.length types = k -> List.length regs = k -> 1 <= k ->
  is_ok (output leb eqb (frame1 e names types regs) (fun _ => None) f) = true <-> fits f k.
Proof.
  intros e names types regs f k H1 H2 H3 Hk. split.
  2:{ intros Hf. destruct (C92_single e names types regs f k H1 H2 H3 Hk Hf) as (o & ls & rows & E & _). now rewrite E. }
  rewrite (single_unfold _ _ _ _ _ k) by assumption. unfold out_part_middle, fill.
  rewrite (frame1_map _ _ _ _ k) by assumption.
  assert (Ef : filter (fun r : orow => eqb (r_eq r) e) (map (row1 e names types regs) (seq 0 k)) = map (row1 e names types regs) (seq 0 k)).
  { apply filter_all. intros r Hr. apply in_map_iff in Hr. destruct Hr as (i & <- & _). now apply eqb_spec. }
  rewrite Ef, !map_length, seq_length.
  destruct (Nat.eqb k (Nat.max (List.length (f_betas f)) (List.length (f_zt f)))) eqn:Em; [|discriminate].
  apply Nat.eqb_eq in Em. cbn [bind]. intros Hok.
  destruct (Nat.eq_dec (List.length (f_betas f)) k) as [Eb|Nb]; [split; lia|]. exfalso.
  assert (Hlt : List.length (f_betas f) < k) by lia.
  rewrite map_map in Hok. revert Hok.
  match goal with |- context [mapM ?g ?l] => set (g' := g); set (l' := l) end. intros Hok.
  assert (He : is_ok (mapM g' l') = false).
  { set (b := List.length (f_betas f)) in *.
    set (r := {| r_lab := b; r_name := nth b names ""; r_type := nth b types ""; r_regime := nth b regs e; r_eq := e;
                 r_coef := None; r_se := None; r_zt := nth_error (f_zt f) b |} : orow).
    apply (mapM_err _ _ r "TypeError"); [|reflexivity]. unfold l'.
    eapply Permutation_in; [apply Permutation_sym, sort_perm|]. apply filter_In. split; [|now apply eqb_spec].
    apply in_map_iff. exists b. split; [|apply in_seq; lia].
    cbn [row1 r_lab]. rewrite map_map. cbn [row1 r_lab].
    pose proof (index_of_seq 0 k b Hlt) as Hi. cbn [plus] in Hi. rewrite Hi. cbn [r_coef r_se r_zt row1 r_name r_type r_regime r_eq].
    unfold r. f_equal.
    - assert (En : nth_error (f_betas f) b = None) by (apply nth_error_None; lia). now rewrite En.
    - fold b. now rewrite Nat.ltb_irrefl.
    - now destruct (nth_error (f_zt f) b). }
  destruct (mapM g' l'); [discriminate|]. cbn in Hok. discriminate.
Qed.

(** ** One model per regime *)
Definition rowm (o : nat) (r : R) (vs : list (string * string)) (i : nat) : orow :=
  {| r_lab := o + i; r_name := fst (nth i vs ("", "")); r_type := snd (nth i vs ("", "")); r_regime := r; r_eq := r;
     r_coef := None; r_se := None; r_zt := None |}.

Fixpoint rows_from (o : nat) (blocks : list (R * list (string * string))) : list orow :=
  match blocks with
  | [] => []
  | (r, vs) :: t => map (rowm o r vs) (seq 0 (List.length vs)) ++ rows_from (o + List.length vs) t
  end.

Lemma combine_app {A B} (a1 a2 : list A) (b1 b2 : list B) : List.length a1 = List.length b1 ->
  combine (a1 ++ a2) (b1 ++ b2) = combine a1 b1 ++ combine a2 b2.
Proof.
  revert b1. induction a1 as [|a a1 IH]; intros [|b b1] H; try discriminate; [reflexivity|].
  cbn in *. f_equal. apply IH. lia.
Qed.

Lemma frame_multi_rows blocks : frame_multi blocks = rows_from 0 blocks.
Proof.
  unfold frame_multi.
  enough (G : forall o, map (fun '(i, (r, (nm, ty))) => {| r_lab := i; r_name := nm; r_type := ty; r_regime := r; r_eq := r;
                                     r_coef := None; r_se := None; r_zt := None |})
      (combine (seq o (List.length (flat_map snd blocks)))
               (flat_map (fun b => map (fun v => (fst b, v)) (snd b)) blocks)) = rows_from o blocks) by apply (G 0).
  induction blocks as [|(r, vs) t IH]; intros o; [reflexivity|]. cbn [flat_map fst snd rows_from].
  rewrite app_length, seq_app, combine_app by (now rewrite seq_length, map_length). rewrite map_app, IH. f_equal.
  rewrite (combine_nth_map (seq o (List.length vs)) (map (fun v => (r, v)) vs) 0 (r, ("", "")) (List.length vs))
    by (now rewrite ?seq_length, ?map_length).
  rewrite map_map. apply map_ext_in. intros i Hi. apply in_seq in Hi. rewrite seq_nth by lia.
  pose proof (map_nth (fun v : string * string => (r, v)) vs ("", "") i) as E. cbv beta in E. rewrite E. unfold rowm. destruct (nth i vs ("", "")) as (nm, ty). reflexivity.
Qed.

Lemma rows_from_In o blocks r : In r (rows_from o blocks) ->
  In (r_eq r) (map fst blocks) /\ o <= r_lab r.
Proof.
  revert o. induction blocks as [|(a, vs) t IH]; intros o H; [contradiction|]. cbn [rows_from] in H. apply in_app_or in H.
  destruct H as [H|H].
  - apply in_map_iff in H. destruct H as (i & <- & Hi). cbn. split; [now left|lia].
  - apply IH in H. cbn [map fst]. destruct H. split; [now right|lia].
Qed.

Variable multi : R -> option (@fit F).
Definition fit_of (self : fit) (r : R) : fit := match multi r with Some f => f | None => self end.

Fixpoint done_from (self : fit) (o : nat) (blocks : list (R * list (string * string))) : list orow :=
  match blocks with
  | [] => []
  | (r, vs) :: t => map (fun i => set_row (rowm o r vs i) (fit_of self r) i) (seq 0 (List.length vs)) ++
                    done_from self (o + List.length vs) t
  end.

Definition good (blocks : list (R * list (string * string))) : Prop :=
  NoDup (map fst blocks) /\
  forall b, In b blocks -> snd b <> [] /\ exists f, multi (fst b) = Some f /\ fits f (List.length (snd b)).

Lemma isort_rowm o r vs k : isort (fun i j => row_le leb (rowm o r vs i) (rowm o r vs j)) (seq 0 k) = seq 0 k.
Proof.
  rewrite (isort_ext _ Nat.leb). { apply isort_id. }
  intros a b _ _. unfold row_le. cbn [rowm r_regime r_lab].
  assert (E : leb r r = true) by (destruct (leb_total r r); assumption). rewrite E.
  destruct (Nat.leb a b) eqn:H; [apply Nat.leb_le; apply Nat.leb_le in H; lia|apply Nat.leb_gt; apply Nat.leb_gt in H; lia].
Qed.

Lemma loop_multi self first d blocks : good blocks -> forall o done txt,
  (forall r, In r done -> ~ In (r_eq r) (map fst blocks) /\ r_lab r < o) ->
  fold_left (out_step leb eqb first multi self) (map fst blocks) (Ok (done ++ rows_from o blocks, txt)) =
  Ok (done ++ done_from self o blocks,
      txt ++ map (fun b => map (the_line (rowm 0 (fst b) (snd b)) (fit_of self (fst b)) d) (seq 0 (List.length (snd b)))) blocks).
Proof.
  induction blocks as [|(r, vs) t IH]; intros (Hnd & Hg) o done txt Hd.
  { cbn. now rewrite !app_nil_r. }
  cbn [map fst fold_left rows_from done_from]. unfold out_step at 2. cbn [bind].
  destruct (Hg (r, vs) (or_introl eq_refl)) as (_ & f & Ef & Hb & Hz). cbn [fst snd] in Ef, Hb, Hz.
  cbn [map fst] in Hnd. inversion Hnd as [|? ? Hr Hnd']; subst.
  rewrite Ef.
  rewrite (middle_block leb eqb eqb_spec done (rows_from (o + List.length vs) t) (rowm o r vs) o (List.length vs) r) with (d := d);
    [| | | assumption | assumption].
  - cbn [bind].
    replace (done ++ map (fun i => set_row (rowm o r vs i) f i) (seq 0 (List.length vs)) ++ rows_from (o + List.length vs) t)
      with ((done ++ map (fun i => set_row (rowm o r vs i) f i) (seq 0 (List.length vs))) ++ rows_from (o + List.length vs) t)
      by (now rewrite app_assoc).
    rewrite (IH (conj Hnd' (fun b H => Hg b (or_intror H))) (o + List.length vs)).
    + assert (Eff : fit_of self r = f) by (unfold fit_of; now rewrite Ef). cbn [fst snd]. rewrite Eff. rewrite isort_rowm.
      rewrite <- !app_assoc. reflexivity.
    + intros x Hx. apply in_app_or in Hx. destruct Hx as [Hx|Hx].
      * destruct (Hd x Hx) as (H1 & H2). split; [|lia]. intros Hc. apply H1. now right.
      * apply in_map_iff in Hx. destruct Hx as (i & <- & Hi). apply in_seq in Hi. cbn. split; [exact Hr|lia].
  - intros x Hx. apply in_app_or in Hx. destruct Hx as [Hx|Hx].
    + destruct (Hd x Hx) as (H1 & H2). split; [|now left]. intros E. apply H1. left. cbn. now symmetry.
    + apply rows_from_In in Hx. destruct Hx as (H1 & H2). split; [|right; lia]. intros E. apply Hr. now rewrite <- E.
  - intros i Hi. repeat split.
Qed.

Lemma uniq_app_const (r : R) n l : ~ In r l -> uniq eqb (repeat r (S n) ++ l) = r :: uniq eqb l.
Proof.
  intros Hr. assert (Hin : forall l b, In b (uniq eqb l) -> In b l).
  { clear. intros l. induction l as [|a l IH]; intros b Hb; [exact Hb|]. cbn [uniq] in Hb. destruct Hb as [Hb|Hb]; [now left|].
    apply filter_In in Hb. right. apply IH, Hb. }
  assert (Ef : filter (fun b => negb (eqb r b)) (uniq eqb l) = uniq eqb l).
  { apply filter_all. intros b Hb. apply Hin in Hb. destruct (eqb r b) eqn:E; [|reflexivity].
    apply eqb_spec in E. subst. contradiction. }
  assert (Er : eqb r r = true) by now apply eqb_spec.
  induction n as [|n IH].
  - cbn [repeat app uniq]. now rewrite Ef.
  - change (repeat r (S (S n)) ++ l) with (r :: (repeat r (S n) ++ l)). cbn [uniq]. rewrite IH. cbn [filter]. rewrite Er. cbn [negb].
    now rewrite Ef.
Qed.

Lemma uniq_multi blocks o : good blocks -> uniq eqb (map r_eq (rows_from o blocks)) = map fst blocks.
Proof.
  revert o. induction blocks as [|(r, vs) t IH]; intros o (Hnd & Hg); [reflexivity|]. cbn [rows_from map fst].
  destruct (Hg (r, vs) (or_introl eq_refl)) as (Hne & _). cbn [snd] in Hne.
  rewrite map_app, map_map. cbn [rowm r_eq]. rewrite map_const_repeat with (c := r) by reflexivity. rewrite seq_length.
  cbn [map fst] in Hnd. inversion Hnd; subst.
  destruct vs as [|v vs]; [contradiction|]. cbn [List.length]. rewrite uniq_app_const.
  - f_equal. apply IH. split; [assumption|]. intros b Hb. apply Hg. now right.
  - intros Hc. apply in_map_iff in Hc. destruct Hc as (x & <- & Hx). apply rows_from_In in Hx. tauto.
Qed.

Lemma done_labels self o blocks : map r_lab (done_from self o blocks) = seq o (List.length (flat_map snd blocks)).
Proof.
  revert o. induction blocks as [|(r, vs) t IH]; intros o; [reflexivity|]. cbn [done_from flat_map snd].
  rewrite map_app, map_map, IH, app_length, seq_app. f_equal. cbn [set_row r_lab rowm].
  generalize (List.length vs). intros n.
  clear. enough (G : forall s, map (fun x => o + x) (seq s n) = seq (o + s) n) by (rewrite (G 0); f_equal; lia).
  induction n as [|n IH]; intros s; [reflexivity|]. cbn. f_equal. rewrite IH. f_equal. lia.
Qed.

Lemma done_rows self o blocks : good blocks ->
  forall r, In r (done_from self o blocks) ->
    nth_error (flat_map (fun b => map fst (snd b)) blocks) (r_lab r - o) = Some (r_name r) /\
    nth_error (flat_map (fun b => f_betas (fit_of self (fst b))) blocks) (r_lab r - o) = r_coef r /\ r_coef r <> None /\
    o <= r_lab r.
Proof.
  revert o. induction blocks as [|(a, vs) t IH]; intros o (Hnd & Hg) r Hr; [contradiction|].
  cbn [done_from] in Hr. cbn [flat_map fst snd].
  destruct (Hg (a, vs) (or_introl eq_refl)) as (_ & f & Ef & Hb & Hz). cbn [fst snd] in Ef, Hb, Hz.
  assert (Eff : fit_of self a = f) by (unfold fit_of; now rewrite Ef). rewrite Eff in *.
  apply in_app_or in Hr. destruct Hr as [Hr|Hr].
  - apply in_map_iff in Hr. destruct Hr as (i & <- & Hi). apply in_seq in Hi. cbn [set_row r_lab rowm r_name r_coef].
    replace (o + i - o) with i by lia.
    rewrite !nth_error_app1 by (rewrite ?map_length; lia).
    split; [|split; [reflexivity|split; [apply nth_error_Some; lia|lia]]].
    rewrite nth_error_map, (nth_error_nth' vs ("", "")) by lia. reflexivity.
  - cbn [map fst] in Hnd. inversion Hnd; subst.
    specialize (IH (o + List.length vs) (conj H2 (fun b H => Hg b (or_intror H))) r Hr).
    destruct IH as (I1 & I2 & I3 & I4).
    rewrite !nth_error_app2 by (rewrite ?map_length; lia). rewrite map_length, Hb.
    replace (r_lab r - o - List.length vs) with (r_lab r - (o + List.length vs)) by lia. repeat split; auto. lia.
Qed.

(** One table per regime, each with the estimates of its own model, in the order of the variables; no estimate of another
    regime.  The frame left in reg.output is ordered by equation; its labels are positions in the stacked betas. *)
Theorem C92_multi : forall self blocks, good blocks -> blocks <> [] ->
  exists txt rows,
    output leb eqb (frame_multi blocks) multi self = Ok (txt, rows) /\
    Forall2 (fun b ls => exists f, multi (fst b) = Some f /\
       Forall2 (fun i l => exists v, nth_error (snd b) i = Some v /\ shows (fst v) f i l) (seq 0 (List.length (snd b))) ls)
      blocks txt /\
    Permutation (map r_lab rows) (seq 0 (List.length (flat_map snd blocks))) /\
    Forall (frame_row (flat_map (fun b => map fst (snd b)) blocks)
              (flat_map (fun b => match multi (fst b) with Some f => f_betas f | None => [] end) blocks)) rows /\
    Sorted (eq_order leb) rows.
Proof.
  intros self blocks Hg Hne.
  assert (Hd : exists d : F, True).
  { destruct blocks as [|(r, vs) t]; [contradiction|]. destruct Hg as (_ & Hg).
    destruct (Hg (r, vs) (or_introl eq_refl)) as (Hv & f & _ & Hb & _). cbn [snd] in Hv, Hb.
    destruct (f_betas f) as [|d ?]; [destruct vs; [contradiction|discriminate]|]. now exists d. }
  destruct Hd as (d & _).
  eexists. exists (isort (final_le leb) (done_from self 0 blocks)).
  assert (Hp : Permutation (isort (final_le leb) (done_from self 0 blocks)) (done_from self 0 blocks)) by apply sort_perm.
  split.
  { unfold output. rewrite frame_multi_rows, uniq_multi by exact Hg.
    pose proof (loop_multi self (nth_error (map fst blocks) 0) d blocks Hg 0 [] []) as L. cbn [app] in L.
    rewrite L by contradiction. reflexivity. }
  split.
  { assert (Hin : forall b, In b blocks -> exists f, multi (fst b) = Some f /\ fits f (List.length (snd b))) by (intros b Hb; apply Hg, Hb).
    clear Hg Hne Hp. induction blocks as [|b t IH]; [constructor|]. cbn [map]. constructor; [|apply IH; intros; apply Hin; now right].
    destruct (Hin b (or_introl eq_refl)) as (f & Ef & Hb & Hz). exists f. split; [exact Ef|].
    unfold fit_of. rewrite Ef.
    assert (G : forall l, (forall i, In i l -> i < List.length (snd b)) ->
      Forall2 (fun i l => exists v, nth_error (snd b) i = Some v /\ shows (fst v) f i l) l
        (map (the_line (rowm 0 (fst b) (snd b)) f d) l)).
    { intros l. induction l as [|i l IHl]; intros Hl; [constructor|]. cbn [map]. constructor; [|apply IHl; intros; apply Hl; now right].
      specialize (Hl i (or_introl eq_refl)). exists (nth i (snd b) ("", "")). split; [apply nth_error_nth'; exact Hl|].
      apply the_line_shows; [lia|reflexivity]. }
    apply G. intros i Hi. apply in_seq in Hi. lia. }
  split.
  { eapply Permutation_trans; [apply Permutation_map, Hp|]. now rewrite done_labels. }
  split.
  { eapply Permutation_Forall; [apply Permutation_sym, Hp|]. apply Forall_forall. intros r Hr.
    destruct (done_rows self 0 blocks Hg r Hr) as (H1 & H2 & H3 & _). rewrite Nat.sub_0_r in H1, H2.
    split; [exact H1|]. split; [|exact H3]. rewrite <- H2. f_equal.
    destruct Hg as (_ & Hg). clear - Hg. induction blocks as [|b t IH]; [reflexivity|]. cbn [flat_map].
    destruct (Hg b (or_introl eq_refl)) as (_ & f & Ef & _). unfold fit_of at 1. rewrite Ef. f_equal.
    apply IH. intros; apply Hg; now right. }
  assert (Hs : StronglySorted (fun x y : orow => Nat.leb (r_lab x) (r_lab y) = true) (done_from self 0 blocks)).
  { assert (Hl := done_labels self 0 blocks). revert Hl. generalize (done_from self 0 blocks).
    generalize (List.length (flat_map snd blocks)) 0. clear. intros n o l. revert n o.
    induction l as [|a l IH]; intros n o Hl; [constructor|].
    destruct n as [|n]; [discriminate|]. cbn in Hl. injection Hl as Ha Hl. constructor; [eapply IH; exact Hl|].
    apply Forall_forall. intros b Hb. apply Nat.leb_le. apply (in_map r_lab) in Hb. rewrite Hl in Hb. apply in_seq in Hb. lia. }
  pose proof (isort_stable (final_le leb) (fun x y : orow => Nat.leb (r_lab x) (r_lab y)) _ final_le_total Hs) as S.
  clear Hs Hp. revert S. generalize (isort (final_le leb) (done_from self 0 blocks)). intros l0 S.
  induction S as [|u l S IHs Hd]; constructor; [exact IHs|]. destruct Hd as [|v l (Ha & Hb)]; constructor.
  revert Ha Hb. unfold final_le, eq_order.
  destruct (leb (r_eq u) (r_eq v)); [|discriminate]; destruct (leb (r_eq v) (r_eq u)).
  - intros Ha Hb. split; [reflexivity|]. intros _. split; [exact Ha|]. intros Hc. apply Nat.leb_le. now apply Hb.
  - intros _ _. split; [reflexivity|discriminate].
Qed.
End T.

Arguments good {F R}.

(** Regimes are ordered as texts: "10" is printed before "2", and the global coefficients before the regimes whose names
    start with a lower-case letter. *)
Theorem C92_regime_text_order : String.leb "10" "2" = true /\ String.leb "2" "10" = false /\
  String.leb "_Global" "north" = true /\ String.leb "0" "_Global" = true.
Proof. repeat split. Qed.

(** Two regimes, one global variable and a spatial parameter without inference *)
Example C92_witness :
  let names := ["0_CONSTANT"; "0_x"; "1_CONSTANT"; "1_x"; "_Global_z"; "lambda"] in
  let regs := ["0"; "0"; "1"; "1"; "_Global"; "_Global"] in
  let f := {| f_betas := [10; 11; 20; 21; 30; 40]; f_se := [1; 2; 3; 4; 5]; f_zt := [(1, 2); (3, 4); (5, 6); (7, 8); (9, 10)] |} in
  fits f 6 /\
  match output String.leb String.eqb (frame1 "0" names (repeat "x" 6) regs) (fun _ => None) f with
  | Ok (txt, rows) => (txt, map (fun r => (r_lab r, r_coef r)) rows)
  | Err _ => ([], [])
  end =
  ([[LFull "0_CONSTANT" 10 1 1 2; LFull "0_x" 11 2 3 4; LFull "1_CONSTANT" 20 3 5 6; LFull "1_x" 21 4 7 8;
     LFull "_Global_z" 30 5 9 10; LCoef "lambda" 40]],
   [(0, Some 10); (1, Some 11); (2, Some 20); (3, Some 21); (4, Some 30); (5, Some 40)]).
Proof. cbv zeta. split; [split; cbn; lia|]. vm_compute. reflexivity. Qed.

Example C92_witness_multi :
  let blocks := [("b", [("b_CONSTANT", "o"); ("b_x", "x")]); ("a", [("a_CONSTANT", "o"); ("a_x", "x")])] in
  let multi r := if String.eqb r "b" then Some {| f_betas := [1; 2]; f_se := [3; 4]; f_zt := [(5, 6); (7, 8)] |}
                 else Some {| f_betas := [11; 12]; f_se := [13; 14]; f_zt := [(15, 16); (17, 18)] |} in
  good multi blocks /\
  match output String.leb String.eqb (frame_multi blocks) multi {| f_betas := []; f_se := []; f_zt := [] |} with
  | Ok (txt, rows) => (txt, map (fun r => (r_lab r, r_name r, r_coef r)) rows)
  | Err _ => ([], [])
  end =
  ([[LFull "b_CONSTANT" 1 3 5 6; LFull "b_x" 2 4 7 8]; [LFull "a_CONSTANT" 11 13 15 16; LFull "a_x" 12 14 17 18]],
   [(2, "a_CONSTANT", Some 11); (3, "a_x", Some 12); (0, "b_CONSTANT", Some 1); (1, "b_x", Some 2)]).
Proof.
  cbv zeta. split; [|vm_compute; reflexivity]. split; [repeat constructor; cbn; intuition discriminate|].
  intros b [<-|[<-|[]]]; (split; [discriminate|]); eexists; (split; [reflexivity|split; cbn; lia]).
Qed.
