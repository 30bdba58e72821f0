From Verif Require Import PyBase RegimesModel RegimesSpec RegimesProofs RegimesProofs2.
From Coq Require Import Permutation Sorted Ring_theory Ring.
Open Scope string_scope.
Open Scope list_scope.
Open Scope nat_scope.

Lemma nodup_same_length {A} (dec : forall a b : A, {a = b} + {a <> b}) l l' : NoDup l' -> (forall a, In a l <-> In a l') ->
  List.length (nodup dec l) = List.length l'.
Proof.
  intros Hd H. apply Permutation_length. apply NoDup_Permutation; auto; [apply NoDup_nodup|].
  intros a. rewrite nodup_In. apply H.
Qed.

(** the mask and rows of the design: the constant first *)
Definition design_mask (k : nat) (constant : const_regi) (c : c2r) : list bool :=
  let m := match c with C2All => repeat true k | C2List l => firstn k l end in
  match constant with CNone => m | COne => false :: m | _ => true :: m end.
Definition design_row {F} (f1 : F) (constant : const_regi) (row : list F) : list F :=
  match constant with CNone => row | _ => f1 :: row end.

Lemma design_mask_length k constant c : match c with C2All => True | C2List l => k <= List.length l end ->
  List.length (design_mask k constant c) = match constant with CNone => k | _ => S k end.
Proof.
  intros H. unfold design_mask. assert (E : List.length match c with C2All => repeat true k | C2List l => firstn k l end = k).
  { destruct c as [|l]; [apply repeat_length|rewrite firstn_length; lia]. }
  destruct constant; cbn [List.length]; rewrite E; reflexivity.
Qed.

Section FrameP.
Context {F : Type} {f0 f1 : F} {fadd fmul fsub : F -> F -> F} {fopp : F -> F}.
Context (Rth : ring_theory f0 f1 fadd fmul fsub fopp eq).

Lemma regimes_frame_spec k x regimes regimes_set constant c names :
  constant <> COther -> (1 <= k) -> match c with C2All => True | C2List l => k <= List.length l end ->
  List.length names = k ->
  NoDup regimes_set -> regimes <> [] -> (forall r, In r regimes <-> In r regimes_set) ->
  List.length x = List.length regimes -> (forall row, In row x -> List.length row = k) ->
  exists fr, regimes_frame f0 f1 fadd k x regimes regimes_set constant c names = Ok fr /\
    fr_x fr = map (fun p => map (cell f0 string_dec (design_row f1 constant (snd p)) (fst p))
                             (layout regimes_set (design_mask k constant c))) (combine regimes x) /\
    fr_names fr = map (regime_label (full_names names constant)) (layout regimes_set (design_mask k constant c)) /\
    fr_rlist fr = map regime_tag (layout regimes_set (design_mask k constant c)) /\
    fr_kr fr = List.length (positions true (design_mask k constant c)) /\
    fr_kf fr = List.length (positions false (design_mask k constant c)) /\
    fr_nr fr = List.length regimes_set /\ fr_kryd fr = 0.
Proof.
  intros Hc Hk Hl Hn Hd Hne Hset Hx Hrow. unfold regimes_frame.
  set (c0 := match c with C2All => repeat true k | C2List l => firstn k l end).
  set (mask := design_mask k constant c). set (k1 := match constant with CNone => k | _ => S k end).
  set (x1 := map (design_row f1 constant) x).
  assert (E1 : match constant with CNone => Ok (x, c0, k) | COne => Ok (map (cons f1) x, false :: c0, S k)
     | CMany => Ok (map (cons f1) x, true :: c0, S k) | COther => Err "Exception" end = Ok (x1, mask, k1)).
  { unfold x1, mask, k1, design_mask, design_row. fold c0. destruct constant; auto; [|congruence]. now rewrite map_id. }
  rewrite E1. cbn [bind].
  assert (Hml : List.length mask = k1) by (apply design_mask_length; auto).
  rewrite (regimeX_spec Rth); auto.
  - cbn [bind]. rewrite set_name_x_regimes_spec.
    + cbn [bind]. eexists. split; [reflexivity|]. cbn [fr_x fr_names fr_rlist fr_kr fr_kf fr_nr fr_kryd]. repeat split.
      * unfold x1. rewrite combine_map_r, map_map. reflexivity.
      * now rewrite pos_true.
      * rewrite pos_false. pose proof (where_length_split mask). lia.
      * now apply nodup_same_length.
    + intros ->. cbn in Hn; lia.
    + rewrite Hml. unfold k1, full_names. destruct constant; cbn [List.length]; lia.
  - unfold k1. destruct constant; lia.
  - intros ->. destruct regimes as [|r rs]; [congruence|]. destruct (proj1 (Hset r)); cbn; auto.
  - unfold x1. now rewrite map_length.
  - intros row Hr. unfold x1 in Hr. apply in_map_iff in Hr. destruct Hr as (row' & <- & Hr). apply Hrow in Hr.
    unfold design_row, k1. destruct constant; cbn [List.length]; lia.
Qed.
End FrameP.

(** entry (p, v) of the varying part of a stacked coefficient vector *)
Lemma nth_layout {ID F} (b : option ID * nat -> F) d rs mask p v r j :
  nth_error rs p = Some r -> nth_error (positions true mask) v = Some j ->
  nth (p * List.length (positions true mask) + v) (map b (layout rs mask)) d = b (Some r, j).
Proof.
  intros Hp Hv. unfold layout. rewrite map_app.
  set (P := positions true mask) in *.
  assert (Hvl : v < List.length P) by (apply nth_error_Some; congruence).
  assert (Hlen : forall l : list ID, List.length (flat_map (fun r0 => map (fun j0 => (Some r0, j0)) P) l) = List.length l * List.length P).
  { intros l; induction l as [|a l IH]; cbn; auto. rewrite app_length, map_length, IH. lia. }
  rewrite app_nth1.
  2:{ rewrite map_length, Hlen. assert (p < List.length rs) by (apply nth_error_Some; congruence). nia. }
  revert p Hp; induction rs as [|s rs IH]; intros [|p] Hp; cbn in Hp; try discriminate.
  - injection Hp as ->. cbn [flat_map]. rewrite map_app, app_nth1 by (rewrite map_length, map_length; lia).
    rewrite map_map. cbn [Nat.mul Nat.add]. rewrite (nth_error_nth _ _ d (x := b (Some r, j))); auto.
    rewrite nth_error_map, Hv. reflexivity.
  - cbn [flat_map]. rewrite map_app, app_nth2; rewrite map_length, map_length; [|lia].
    replace (S p * List.length P + v - List.length P) with (p * List.length P + v) by lia. auto.
Qed.

Lemma map_layout_length {ID F} (b : option ID * nat -> F) rs mask :
  List.length (map b (layout rs mask)) = List.length rs * List.length (positions true mask) + List.length (positions false mask).
Proof. now rewrite map_length, layout_length. Qed.
