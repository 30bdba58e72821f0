From Verif Require Import PyBase RegimesModel RegimesProofs RegWModel RegWSpec RegWProofs RegMultiModel.
Open Scope string_scope.
Open Scope list_scope.
Open Scope nat_scope.

Lemma set_nth_length {A} i (x : A) l : List.length (set_nth i x l) = List.length l.
Proof. revert i; induction l as [|y l IH]; intros [|i]; cbn; auto. Qed.
Lemma set_nth_same {A} i (x : A) l : i < List.length l -> nth_error (set_nth i x l) i = Some x.
Proof. revert i; induction l as [|y l IH]; intros [|i] H; cbn in *; try lia; auto. apply IH. lia. Qed.
Lemma set_nth_other {A} i j (x : A) l : i <> j -> nth_error (set_nth i x l) j = nth_error l j.
Proof. revert i j; induction l as [|y l IH]; intros [|i] [|j] H; cbn; auto; try lia. Qed.

Lemma scatter_length {A} idx (v a : list A) : List.length (scatter_ a idx v) = List.length a.
Proof.
  unfold scatter_. revert a. induction (combine idx v) as [|p l IH]; intros a; cbn; auto. rewrite IH. apply set_nth_length.
Qed.
Lemma scatter_other {A} idx (v a : list A) j : ~ In j idx -> nth_error (scatter_ a idx v) j = nth_error a j.
Proof.
  unfold scatter_. intros H. assert (G : forall p, In p (combine idx v) -> fst p <> j).
  { intros [i x] Hp <-. apply H. apply in_combine_l in Hp. exact Hp. }
  revert a G. induction (combine idx v) as [|p l IH]; intros a G; cbn; auto. rewrite IH by (intros; apply G; cbn; auto).
  apply set_nth_other. apply G. cbn; auto.
Qed.
Lemma scatter_at {A} idx (v a : list A) k i : NoDup idx -> List.length v = List.length idx ->
  (forall i, In i idx -> i < List.length a) -> nth_error idx k = Some i -> nth_error (scatter_ a idx v) i = nth_error v k.
Proof.
  revert v a k. induction idx as [|i0 idx IH]; intros v a k Hn Hl Hb Hk; [destruct k; discriminate|].
  destruct v as [|x v]; [discriminate|]. inversion Hn; subst. destruct k as [|k]; cbn in Hk.
  - injection Hk as <-. change (scatter_ a (i0 :: idx) (x :: v)) with (scatter_ (set_nth i0 x a) idx v).
    rewrite scatter_other by auto. cbn. apply set_nth_same. apply Hb. cbn; auto.
  - change (scatter_ a (i0 :: idx) (x :: v)) with (scatter_ (set_nth i0 x a) idx v). cbn [nth_error].
    apply IH; auto. intros j Hj. rewrite set_nth_length. apply Hb. cbn; auto.
Qed.
Lemma set_idx_ok {A} (a v : list A) idx : (forall i, In i idx -> i < List.length a) -> List.length v = List.length idx ->
  set_idx a idx v = Ok (scatter_ a idx v).
Proof.
  intros Hb Hl. unfold set_idx. replace (forallb _ idx) with true.
  - rewrite Hl, Nat.eqb_refl. reflexivity.
  - symmetry. apply forallb_forall. intros i Hi. apply Nat.ltb_lt. auto.
Qed.

Lemma set_slice_mid {A} (p m s v : list A) lo hi : List.length p = lo -> hi = lo + List.length m -> List.length v = List.length m ->
  set_slice (p ++ m ++ s) lo hi v = Ok (p ++ v ++ s).
Proof.
  intros Hp Hh Hv. unfold set_slice. rewrite !app_length.
  replace (Nat.min hi _) with hi by lia. replace (Nat.min lo hi) with lo by lia.
  replace (hi - lo) with (List.length m) by lia. rewrite Hv, Nat.eqb_refl. f_equal. f_equal; [|f_equal].
  - subst lo. apply firstn_app_2 with (n := 0) (l1 := p) (l2 := m ++ s) || idtac.
    rewrite firstn_app, Nat.sub_diag, firstn_all. cbn. now rewrite app_nil_r.
  - rewrite app_assoc, skipn_app, (skipn_all2 (p ++ m)) by (rewrite app_length; lia).
    replace (hi - List.length (p ++ m)) with 0 by (rewrite app_length; lia). reflexivity.
Qed.

Section P.
Context {F : Type} (f0 : F) {R : Type}.
Notation zrow n := (repeat f0 n).

Fixpoint bd (nr kv c : nat) (bs : list (list (list F))) : list (list F) :=
  match bs with
  | [] => []
  | b :: t => map (fun row => zrow (c * kv) ++ row ++ zrow ((nr - S c) * kv)) b ++ bd nr kv (S c) t
  end.
Definition blk (kv : nat) (b : list (list F)) := List.length b = kv /\ forall row, In row b -> List.length row = kv.

Lemma bd_length nr kv c bs : (forall b, In b bs -> blk kv b) -> List.length (bd nr kv c bs) = List.length bs * kv.
Proof.
  revert c. induction bs as [|b bs IH]; intros c H; auto. cbn [bd List.length]. rewrite app_length, map_length, IH by (intros; apply H; cbn; auto).
  destruct (H b (or_introl eq_refl)) as [-> _]. lia.
Qed.
Lemma bd_app nr kv c b1 b2 : bd nr kv c (b1 ++ b2) = bd nr kv c b1 ++ bd nr kv (c + List.length b1) b2.
Proof.
  revert c. induction b1 as [|b b1 IH]; intros c; cbn [bd app List.length]; [now rewrite Nat.add_0_r|].
  rewrite IH, <- app_assoc. do 2 f_equal. now replace (S c + List.length b1) with (c + S (List.length b1)) by lia.
Qed.

Lemma repeat_app_eq {A} (x : A) a b : repeat x a ++ repeat x b = repeat x (a + b).
Proof. symmetry. apply repeat_app. Qed.

Lemma set_block_ok nr kv c b p s : blk kv b -> c < nr -> List.length p = c * kv ->
  set_block (p ++ repeat (zrow (nr * kv)) kv ++ s) (c * kv) (S c * kv) b
  = Ok (p ++ bd nr kv c [b] ++ s).
Proof.
  intros [Hb Hr] Hc Hp. unfold set_block.
  replace (firstn (S c * kv - c * kv) (skipn (c * kv) (p ++ repeat (zrow (nr * kv)) kv ++ s))) with (repeat (zrow (nr * kv)) kv).
  2:{ rewrite skipn_app, (skipn_all2 p) by lia. replace (c * kv - List.length p) with 0 by lia. cbn [skipn app].
      rewrite firstn_app, repeat_length. replace (S c * kv - c * kv) with kv by lia. rewrite Nat.sub_diag. cbn [firstn].
      rewrite app_nil_r, firstn_all2; [reflexivity|rewrite repeat_length; lia]. }
  rewrite repeat_length, Hb, Nat.eqb_refl.
  assert (E : mapM (fun q => set_slice (fst q) (c * kv) (S c * kv) (snd q)) (combine (repeat (zrow (nr * kv)) kv) b)
     = Ok (map (fun row => zrow (c * kv) ++ row ++ zrow ((nr - S c) * kv)) b)).
  { rewrite <- Hb at 2. clear Hb Hp. induction b as [|row b IH]; [reflexivity|]. cbn [List.length repeat combine mapM fst snd].
    assert (Hrow : List.length row = kv) by (apply Hr; cbn; auto).
    replace (zrow (nr * kv)) with (zrow (c * kv) ++ zrow kv ++ zrow ((nr - S c) * kv)) at 1.
    2:{ rewrite !repeat_app_eq. f_equal. nia. }
    rewrite set_slice_mid; rewrite ?repeat_length; auto; [|lia]. cbn [bind].
    rewrite IH by (intros; apply Hr; cbn; auto). reflexivity. }
  rewrite E. cbn [bind bd]. rewrite app_nil_r.
  apply set_slice_mid; rewrite ?map_length, ?repeat_length; auto; lia.
Qed.

Lemma multi_inv n kb kv (ids : R -> list nat) (results : R -> rres) todo :
  forall nr done st,
  nr = List.length done + List.length todo ->
  NoDup (done ++ todo) ->
  (forall r, In r (done ++ todo) -> NoDup (ids r) /\ (forall i, In i (ids r) -> i < n) /\
     List.length (r_betas (results r)) = kb /\ blk kv (r_vm (results r)) /\
     List.length (r_u (results r)) = List.length (ids r) /\ List.length (r_predy (results r)) = List.length (ids r)) ->
  (forall r s i, In r (done ++ todo) -> In s (done ++ todo) -> In i (ids r) -> In i (ids s) -> r = s) ->
  m_betas st = List.concat (map (fun r => r_betas (results r)) done) ++ zrow (List.length todo * kb) ->
  m_vm st = bd nr kv 0 (map (fun r => r_vm (results r)) done) ++ repeat (zrow (nr * kv)) (List.length todo * kv) ->
  List.length (m_u st) = n -> List.length (m_predy st) = n ->
  (forall r k i, In r done -> nth_error (ids r) k = Some i ->
     nth_error (m_u st) i = nth_error (r_u (results r)) k /\ nth_error (m_predy st) i = nth_error (r_predy (results r)) k) ->
  exists st', foldM (multi_step kb kv ids results) todo (List.length done, st) = Ok (nr, st') /\
    m_betas st' = List.concat (map (fun r => r_betas (results r)) (done ++ todo)) /\
    m_vm st' = bd nr kv 0 (map (fun r => r_vm (results r)) (done ++ todo)) /\
    List.length (m_u st') = n /\ List.length (m_predy st') = n /\
    (forall r k i, In r (done ++ todo) -> nth_error (ids r) k = Some i ->
     nth_error (m_u st') i = nth_error (r_u (results r)) k /\ nth_error (m_predy st') i = nth_error (r_predy (results r)) k) /\
    m_name_x st' = m_name_x st ++ List.concat (map (fun r => r_name_x (results r)) todo) /\
    m_name_y st' = m_name_y st ++ List.concat (map (fun r => chars (r_name_y (results r))) todo).
Proof.
  induction todo as [|r todo IH]; intros nr done st Hnr Hn Hres Hdis Hb Hv Hlu Hlp Hu.
  - exists st. cbn [List.length Nat.mul repeat map List.concat foldM] in *. rewrite ?app_nil_r in *.
    split; [do 2 f_equal; lia|]. split; [auto|]. split; [auto|]. split; [auto|]. split; [auto|]. split; [auto|]. split; auto.
  - cbn [foldM].
    assert (Hin : In r (done ++ r :: todo)) by (rewrite in_app_iff; cbn; auto).
    destruct (Hres r Hin) as (Nr & Br & Lb & Bv & Lu & Lp).
    assert (LB : List.length (List.concat (map (fun s => r_betas (results s)) done)) = List.length done * kb).
    { assert (G : forall s, In s done -> List.length (r_betas (results s)) = kb).
      { intros s Hs. apply Hres. rewrite in_app_iff; auto. }
      clear - G. induction done as [|s done IHd]; auto. cbn. rewrite app_length, IHd by (intros; apply G; cbn; auto).
      rewrite G by (cbn; auto). lia. }
    assert (LV : List.length (bd nr kv 0 (map (fun s => r_vm (results s)) done)) = List.length done * kv).
    { rewrite bd_length, map_length; auto. intros b Hbb. apply in_map_iff in Hbb. destruct Hbb as (s & <- & Hs).
      apply Hres. rewrite in_app_iff; auto. }
    cbn [List.length] in *.
    unfold multi_step at 1. rewrite Hv, Hb.
    replace (S (List.length todo) * kv) with (kv + List.length todo * kv) by lia. rewrite repeat_app.
    rewrite (set_block_ok nr kv (List.length done) (r_vm (results r)) _ _ Bv ltac:(lia) LV). cbn [bind].
    replace (S (List.length todo) * kb) with (kb + List.length todo * kb) by lia. rewrite repeat_app.
    rewrite (set_slice_mid _ _ _ (r_betas (results r))); rewrite ?repeat_length; auto; [|lia]. cbn [bind].
    rewrite (set_idx_ok (m_u st)) by (rewrite ?Hlu; auto). cbn [bind].
    rewrite (set_idx_ok (m_predy st)) by (rewrite ?Hlp; auto). cbn [bind].
    replace (S (List.length done)) with (List.length (done ++ [r])) by (rewrite app_length; cbn; lia).
    match goal with |- context [foldM _ todo (_, ?s)] => destruct (IH nr (done ++ [r]) s) as (st' & E & P1 & P2 & P3 & P4 & P5 & P6 & P7) end;
      rewrite <- ?app_assoc; cbn [app m_betas m_vm m_u m_predy m_name_x m_name_y]; auto.
    + rewrite app_length; cbn; lia.
    + rewrite map_app, concat_app, <- app_assoc. cbn. now rewrite app_nil_r.
    + rewrite map_app, bd_app, map_length, <- app_assoc. cbn [map Nat.add]. reflexivity.
    + now rewrite scatter_length.
    + now rewrite scatter_length.
    + intros s k i Hs Hk. rewrite in_app_iff in Hs. destruct Hs as [Hs|[<-|[]]].
      * assert (Hni : ~ In i (ids r)).
        { intros Hi. assert (E : s = r).
          { apply (Hdis s r i); auto; [rewrite in_app_iff; auto|eapply nth_error_In; eauto]. }
          subst s. apply NoDup_remove_2 in Hn. apply Hn. rewrite in_app_iff; auto. }
        rewrite !scatter_other by auto. apply Hu; auto.
      * rewrite !(scatter_at _ _ _ k i); auto; rewrite ?Hlu, ?Hlp; auto.
    + exists st'. split; [exact E|]. rewrite <- app_assoc in P1, P2, P5. cbn [app] in P1, P2, P5.
      split; [auto|]. split; [auto|]. split; [auto|]. split; [auto|]. split; [exact P5|].
      cbn [m_name_x m_name_y] in P6, P7. rewrite P6, P7, <- !app_assoc. split; reflexivity.
Qed.

Lemma nth_error_repeat {A} (x : A) n i : i < n -> nth_error (repeat x n) i = Some x.
Proof. revert i; induction n as [|n IH]; intros [|i] H; cbn; try lia; auto. apply IH. lia. Qed.

(** cells of the block diagonal matrix *)
Lemma bd_cell nr kv bs : (forall b, In b bs -> blk kv b) -> List.length bs = nr ->
  forall c d a e b, nth_error bs c = Some b -> d < nr -> a < kv -> e < kv ->
  exists row, nth_error (bd nr kv 0 bs) (c * kv + a) = Some row /\ List.length row = nr * kv /\
   nth_error row (d * kv + e) = if Nat.eqb c d then match nth_error b a with Some br => nth_error br e | None => None end else Some f0.
Proof.
  intros Hbs Hl c d a e b Hc Hd Ha He.
  assert (G : exists b1 b2, bs = b1 ++ b :: b2 /\ List.length b1 = c) by (apply nth_error_split; auto).
  destruct G as (b1 & b2 & -> & L1). rewrite bd_app. cbn [Nat.add bd]. rewrite L1.
  assert (B1 : List.length (bd nr kv 0 b1) = c * kv).
  { rewrite bd_length, L1; auto. intros; apply Hbs; rewrite in_app_iff; auto. }
  rewrite nth_error_app2 by lia. rewrite B1. replace (c * kv + a - c * kv) with a by lia.
  destruct (Hbs b) as [Lb Hr]; [rewrite in_app_iff; cbn; auto|].
  rewrite nth_error_app1 by (rewrite map_length; lia). rewrite nth_error_map.
  destruct (nth_error b a) as [br|] eqn:Eb; [|apply nth_error_None in Eb; lia]. cbn [option_map].
  assert (Lbr : List.length br = kv) by (apply Hr; eapply nth_error_In; eauto).
  eexists. split; [reflexivity|].
  assert (Hcn : c < nr) by (rewrite app_length in Hl; cbn in Hl; lia).
  split. { rewrite !app_length, !repeat_length, Lbr. nia. }
  destruct (Nat.eqb_spec c d) as [E|E].
  - subst d. rewrite nth_error_app2 by (rewrite repeat_length; lia). rewrite repeat_length.
    replace (c * kv + e - c * kv) with e by lia. rewrite nth_error_app1 by lia. reflexivity.
  - destruct (Nat.lt_ge_cases d c) as [H|H].
    + rewrite nth_error_app1 by (rewrite repeat_length; nia). apply nth_error_repeat. nia.
    + rewrite nth_error_app2 by (rewrite repeat_length; nia). rewrite repeat_length.
      rewrite nth_error_app2 by (rewrite Lbr; nia). rewrite Lbr. apply nth_error_repeat. nia.
Qed.

Lemma concat_nth kb (bs : list (list F)) : (forall b, In b bs -> List.length b = kb) ->
  forall c a b, nth_error bs c = Some b -> a < kb -> nth_error (List.concat bs) (c * kb + a) = nth_error b a.
Proof.
  intros H c. revert bs H. induction c as [|c IH]; intros [|b0 bs] H a b Hc Ha; cbn in Hc; try discriminate.
  - injection Hc as ->. cbn. apply nth_error_app1. rewrite (H b); cbn; auto.
  - cbn [List.concat]. rewrite nth_error_app2; rewrite (H b0) by (cbn; auto); [|lia].
    replace (S c * kb + a - kb) with (c * kb + a) by lia. apply IH; auto. intros; apply H; cbn; auto.
Qed.
End P.
