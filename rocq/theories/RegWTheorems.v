(** Property theorems C12 (regime weights).  spreg/regimes.py:500-607. *)
From Verif Require Import PyBase RegimesModel RegimesProofs RegWModel RegWSpec RegWProofs RegWProofs2.
From Coq Require Import QArith Qcanon Permutation.
Open Scope string_scope.
Open Scope list_scope.
Open Scope nat_scope.

Section T.
Context {ID R : Type} (ideq : forall a b : ID, {a = b} + {a <> b}) (req : forall a b : R, {a = b} + {a <> b}).
Notation wcell := (wcell ideq).

Lemma obs_bound (w : W ID) regimes r : List.length regimes = List.length (w_ids w) ->
  forall i, In i (obs_of req regimes r) -> i < List.length (w_ids w).
Proof. intros Hl i Hi. apply obs_of_In in Hi. rewrite <- Hl. apply nth_error_Some. congruence. Qed.

Lemma w_regime_unfold (w : W ID) regimes r tr min_n : List.length regimes = List.length (w_ids w) ->
  exists ids, take_idx (w_ids w) (obs_of req regimes r) = Ok ids /\
   w_regime ideq w (regi_ids_of req regimes r) tr min_n =
    (let wr := if tr then set_transform (w_tr w) (w_subset ideq w ids) else w_subset ideq w ids in
     if (match min_n with Some m => List.length (obs_of req regimes r) <? m | None => false end) then Err "Exception"
     else Ok (wr, match islands wr with [] => false | _ => true end)).
Proof.
  intros Hl. rewrite where_obs. unfold w_regime.
  destruct (take_idx_ok (w_ids w) (obs_of req regimes r) (obs_bound w regimes r Hl)) as (ids & E & El & _).
  exists ids. split; auto. rewrite E. cbn [bind]. unfold w_subset, mk_binary. cbn [w_nb]. rewrite !map_length, El. reflexivity.
Qed.

(** C12: the call succeeds unless the regime has fewer observations than the requested minimum. *)
Theorem C12_total : forall (w : W ID) (regimes : list R) r tr min_n, List.length regimes = List.length (w_ids w) ->
  (exists p, w_regime ideq w (regi_ids_of req regimes r) tr min_n = Ok p) <->
  match min_n with Some m => m <= List.length (obs_of req regimes r) | None => True end.
Proof.
  intros w regimes r tr min_n Hl. destruct (w_regime_unfold w regimes r tr min_n Hl) as (ids & _ & ->). cbv zeta.
  destruct min_n as [m|].
  - destruct (Nat.ltb_spec (List.length (obs_of req regimes r)) m) as [H|H].
    + split; [intros (p & Hp); discriminate|lia].
    + split; eauto.
  - split; eauto.
Qed.

(** C12: the weights of a regime: its observations in order; the links of w between them and no other; every link has
    weight one, or one over the number of links of its row when w is row-standardised; a warning exactly when some member
    is left without link. *)
Theorem C12_regime_weights : forall (w : W ID) (regimes : list R) r tr min_n wr warn,
  valid_W ideq w -> List.length regimes = List.length (w_ids w) ->
  w_regime ideq w (regi_ids_of req regimes r) tr min_n = Ok (wr, warn) ->
  let obs := obs_of req regimes r in
  List.length (w_ids wr) = List.length obs /\
  (forall a i, nth_error obs a = Some i -> nth_error (w_ids wr) a = nth_error (w_ids w) i) /\
  (forall a b i j, nth_error obs a = Some i -> nth_error obs b = Some j ->
     wcell wr a b = if linkb ideq w i j
                    then link_weight (if tr then w_tr w else TO) (List.length (filter (linkb ideq w i) obs)) else 0%Qc) /\
  (warn = true <-> exists i, In i obs /\ forall j, In j obs -> linkb ideq w i j = false).
Proof.
  intros w regimes r tr min_n wr warn Hv Hl H obs.
  destruct (w_regime_unfold w regimes r tr min_n Hl) as (ids & E & E'). rewrite E' in H. cbv zeta in H. clear E'.
  fold obs in E, H.
  destruct (match min_n with Some m => List.length obs <? m | None => false end); [discriminate|].
  injection H as Hwr Hwarn.
  destruct (take_idx_ok (w_ids w) obs (obs_bound w regimes r Hl)) as (ids' & E2 & El & Hn).
  rewrite E in E2. injection E2 as <-.
  assert (Hids : w_ids wr = ids) by (subst wr; destruct tr; reflexivity).
  assert (Htr : w_tr wr = if tr then w_tr w else TO) by (subst wr; destruct tr; reflexivity).
  assert (Hnb : forall i, In i ids -> nbrs ideq wr i = bin (sub_nb ideq w ids i)).
  { intros i Hi. rewrite <- (subset_nbrs ideq w ids i Hi). subst wr; destruct tr; reflexivity. }
  split; [congruence|]. split; [intros a i Ha; rewrite Hids; auto|]. split.
  - intros a b i j Ha Hb.
    assert (Hi : i < List.length (w_ids w)) by (eapply obs_bound; eauto; eapply nth_error_In; eauto).
    assert (Hj : j < List.length (w_ids w)) by (eapply obs_bound; eauto; eapply nth_error_In; eauto).
    destruct (nth_error (w_ids w) i) as [ii|] eqn:Ei; [|apply nth_error_None in Ei; lia].
    destruct (nth_error (w_ids w) j) as [jj|] eqn:Ej; [|apply nth_error_None in Ej; lia].
    assert (Hii : nth_error ids a = Some ii) by (rewrite (Hn a i Ha); auto).
    assert (Hjj : nth_error ids b = Some jj) by (rewrite (Hn b j Hb); auto).
    rewrite (wcell_bin ideq wr a b ii jj (sub_nb ideq w ids ii)); try (rewrite Hids; auto).
    + rewrite Htr, (sub_nb_count ideq w obs ids i ii Hv (obs_of_NoDup req regimes r) E Ei).
      unfold linkb at 2. rewrite Ei, Ej.
      destruct (in_dec ideq jj (sub_nb ideq w ids ii)) as [Q|Q], (in_dec ideq jj (map fst (nbrs ideq w ii))) as [Q'|Q']; auto.
      * exfalso. apply Q'. now apply (sub_nb_In ideq) in Q.
      * exfalso. apply Q. apply (sub_nb_In ideq). split; auto. eapply nth_error_In; eauto.
    + apply Hnb. eapply nth_error_In; eauto.
    + apply sub_nb_NoDup.
  - assert (Hisl : islands wr = filter (fun i => match sub_nb ideq w ids i with [] => true | _ => false end) ids).
    { assert (G : forall l, map fst (filter (fun p : ID * list (ID * Qc) => match snd p with [] => true | _ => false end)
          (map (fun i => (i, bin (sub_nb ideq w ids i))) l)) = filter (fun i => match sub_nb ideq w ids i with [] => true | _ => false end) l).
      { induction l as [|i l IH]; [reflexivity|]. cbn [map filter snd]. destruct (sub_nb ideq w ids i) eqn:F; cbn [bin map]; [cbn; congruence|auto]. }
      rewrite <- (G ids). unfold islands. f_equal. f_equal. subst wr. destruct tr; unfold set_transform, w_subset, mk_binary; cbn [w_nb];
      now rewrite map_map. }
    assert (HI : forall i, In i (islands wr) <-> In i ids /\ sub_nb ideq w ids i = []).
    { intros i. rewrite Hisl, filter_In. destruct (sub_nb ideq w ids i); intuition discriminate. }
    transitivity (exists i, In i (islands wr)).
    { rewrite <- Hwarn, Hwr. destruct (islands wr) as [|i l].
      - split; [discriminate|intros (i & [])].
      - split; eauto. intros _. exists i; cbn; auto. }
    split.
    + intros (ii & Hii). apply HI in Hii. destruct Hii as [Hi Hs].
      apply (take_idx_In _ _ _ _ E) in Hi. destruct Hi as (i & Hi & Ei). exists i. split; auto. intros j Hj.
      unfold linkb. rewrite Ei. destruct (nth_error (w_ids w) j) as [jj|] eqn:Ej; auto.
      destruct (in_dec ideq jj (map fst (nbrs ideq w ii))) as [Q|Q]; auto. exfalso.
      assert (F : In jj (sub_nb ideq w ids ii)).
      { apply (sub_nb_In ideq). split; auto. apply (take_idx_In _ _ _ _ E). eauto. }
      rewrite Hs in F. exact F.
    + intros (i & Hi & Hno). pose proof (obs_bound w regimes r Hl i Hi) as Hb.
      destruct (nth_error (w_ids w) i) as [ii|] eqn:Ei; [|apply nth_error_None in Ei; lia].
      exists ii. apply HI. split; [apply (take_idx_In _ _ _ _ E); eauto|].
      destruct (sub_nb ideq w ids ii) as [|jj l] eqn:F; auto. exfalso.
      assert (Q : In jj (sub_nb ideq w ids ii)) by (rewrite F; cbn; auto).
      apply (sub_nb_In ideq) in Q. destruct Q as [Qa Qb]. apply (take_idx_In _ _ _ _ E) in Qa. destruct Qa as (j & Hj & Ej).
      specialize (Hno j Hj). unfold linkb in Hno. rewrite Ei, Ej in Hno. destruct (in_dec _ _ _); [discriminate|contradiction].
Qed.

(** C12: the union of the regime weights, over a set of regimes with every regime of the data: the observations of w in the
    order of w, exactly the links of w that do not cross regimes, re-standardised as w. *)
Theorem C12_union : forall (w : W ID) (regimes regimes_set : list R) (wi : R -> W ID) warns u,
  valid_W ideq w -> List.length regimes = List.length (w_ids w) -> (forall r, In r regimes <-> In r regimes_set) ->
  (forall r, In r regimes_set -> w_regime ideq w (regi_ids_of req regimes r) true None = Ok (wi r, warns r)) ->
  w_regimes_union ideq w wi regimes_set = Ok u ->
  w_ids u = w_ids w /\
  forall a b, a < List.length (w_ids w) -> b < List.length (w_ids w) ->
    linkb ideq u a b = linkb ideq w a b && same_regime req regimes a b /\
    wcell u a b = if linkb ideq w a b && same_regime req regimes a b
      then link_weight (w_tr w) (List.length (filter (fun j => linkb ideq w a j && same_regime req regimes a j)
                                                     (seq 0 (List.length (w_ids w)))))
      else 0%Qc.
Proof.
  intros w regimes rs wi warns u Hv Hl Hrs Hwi Hu.
  set (k := fun r i => exists a, nth_error regimes a = Some r /\ nth_error (w_ids w) a = Some i).
  assert (Hb : forall r, In r rs -> binW ideq (wi r) (k r) (fun i j => k r i /\ k r j /\ In j (map fst (nbrs ideq w i)))).
  { intros r Hr. specialize (Hwi r Hr). destruct (w_regime_unfold w regimes r true None Hl) as (ids & E & E'). rewrite E' in Hwi.
    cbv zeta in Hwi. cbn iota in Hwi. injection Hwi as Hwi _. rewrite <- Hwi.
    assert (Hk : forall i, In i ids <-> k r i).
    { intros i. rewrite (take_idx_In _ _ _ _ E). unfold k. split; intros (a & H1 & H2); exists a; (split; [|auto]); now apply (obs_of_In req). }
    eapply binW_ext with (w := set_transform _ _); [exact Hk| |].
    2:{ destruct Hv as (Hn & _). exact (subset_binW ideq w ids (take_idx_NoDup _ _ _ Hn (obs_of_NoDup req regimes r) E)). }
    intros i j. cbn beta. rewrite !Hk. reflexivity. }
  destruct (regimes_union_binW ideq w wi _ _ rs u Hb Hu) as (Hids & Htr & _ & _ & HF). split; auto.
  assert (Hlink : forall a b i j, nth_error (w_ids w) a = Some i -> nth_error (w_ids w) b = Some j ->
     ((exists r, In r rs /\ k r i /\ k r j /\ In j (map fst (nbrs ideq w i))) <->
      linkb ideq w a b && same_regime req regimes a b = true)).
  { intros a b i j Ha Hb'. rewrite andb_true_iff. unfold linkb, same_regime. rewrite Ha, Hb'.
    assert (La : a < List.length regimes) by (rewrite Hl; apply nth_error_Some; congruence).
    assert (Lb : b < List.length regimes) by (rewrite Hl; apply nth_error_Some; congruence).
    destruct Hv as (Hn & _). pose proof (proj1 (NoDup_nth_error (w_ids w)) Hn) as Hinj.
    split.
    - intros (r & _ & (a' & Ra & Ia) & (b' & Rb & Ib) & Hin).
      assert (a' = a) by (apply Hinj; [apply nth_error_Some|]; congruence).
      assert (b' = b) by (apply Hinj; [apply nth_error_Some|]; congruence). subst a' b'. rewrite Ra, Rb.
      destruct (in_dec ideq j (map fst (nbrs ideq w i))); [|contradiction]. destruct (req r r); [auto|congruence].
    - intros [H1 H2]. destruct (nth_error regimes a) as [r|] eqn:Ra; [|discriminate].
      destruct (nth_error regimes b) as [s|] eqn:Rb; [|discriminate]. destruct (req r s) as [<-|]; [|discriminate].
      destruct (in_dec ideq j (map fst (nbrs ideq w i))) as [Q|]; [|discriminate].
      exists r. split; [apply Hrs; eapply nth_error_In; eauto|]. split; [exists a; auto|]. split; [exists b; auto|auto]. }
  intros a b Ha Hb'.
  destruct (nth_error (w_ids w) a) as [i|] eqn:Ei; [|apply nth_error_None in Ei; lia].
  destruct (nth_error (w_ids w) b) as [j|] eqn:Ej; [|apply nth_error_None in Ej; lia].
  destruct (HF i) as (L & EL & NL & HL).
  assert (HLj : forall c jj, nth_error (w_ids w) c = Some jj -> (In jj L <-> linkb ideq w a c && same_regime req regimes a c = true)).
  { intros c jj Hc. rewrite HL. apply Hlink; auto. }
  split.
  - unfold linkb at 1. rewrite Hids, Ei, Ej, EL, map_fst_bin. specialize (HLj b j Ej).
    destruct (in_dec ideq j L) as [Q|Q], (linkb ideq w a b && same_regime req regimes a b); auto.
    + symmetry. now apply HLj.
    + exfalso. apply Q. now apply HLj.
  - rewrite (wcell_bin ideq u a b i j L); try (rewrite Hids; auto); auto. rewrite Htr.
    assert (Hlen : List.length L = List.length (filter (fun c => linkb ideq w a c && same_regime req regimes a c) (seq 0 (List.length (w_ids w))))).
    { assert (P : Permutation L (map (fun c => nth c (w_ids w) i) (filter (fun c => linkb ideq w a c && same_regime req regimes a c) (seq 0 (List.length (w_ids w)))))).
      { apply NoDup_Permutation; auto.
        - apply NoDup_map_in; [|apply NoDup_filter, seq_NoDup]. intros x y Hx Hy. apply filter_In in Hx, Hy.
          destruct Hx as [Hx _], Hy as [Hy _]. apply in_seq in Hx, Hy. destruct Hv as (Hn & _).
          intros Exy. apply (proj1 (NoDup_nth (w_ids w) i) Hn); auto; lia.
        - intros x. split.
          + intros Hx. assert (Hx2 := Hx). apply HL in Hx2. destruct Hx2 as (r & _ & _ & (c & _ & Hc) & _).
            apply in_map_iff. exists c. split; [now apply nth_error_nth|]. apply filter_In. split.
            * apply in_seq. split; [lia|]. apply nth_error_Some. congruence.
            * now apply (HLj c x Hc).
          + intros Hx. apply in_map_iff in Hx. destruct Hx as (c & <- & Hc). apply filter_In in Hc. destruct Hc as [Hc Hd].
            apply in_seq in Hc. eapply HLj; [|exact Hd]. apply nth_error_nth'. lia. }
      apply Permutation_length in P. now rewrite map_length in P. }
    rewrite Hlen. specialize (HLj b j Ej).
    destruct (in_dec ideq j L) as [Q|Q], (linkb ideq w a b && same_regime req regimes a b); auto.
    + exfalso. apply HLj in Q. discriminate.
    + exfalso. apply Q. now apply HLj.
Qed.

(** C12: the union raises when the data have a single regime. *)
Theorem C12_union_single : forall (w : W ID) (wi : R -> W ID) r, w_regimes_union ideq w wi [r] = Err "IndexError".
Proof. reflexivity. Qed.

(** C12: all the regimes at once: each regime gets what the single-regime call gives it, in the order of regimes_set. *)
Theorem C12_w_regimes : forall (w : W ID) (regimes regimes_set : list R) tr min_n out warn,
  w_regimes ideq req w regimes regimes_set tr min_n = Ok (out, warn) ->
  map fst out = regimes_set /\
  forall r wr, In (r, wr) out -> exists wn, w_regime ideq w (regi_ids_of req regimes r) tr min_n = Ok (wr, wn).
Proof.
  intros w regimes rs tr min_n out warn. unfold w_regimes.
  destruct (mapM _ rs) as [l|] eqn:E; [|discriminate]. cbn [bind]. intros [= <- _]. revert l E.
  induction rs as [|r rs IH]; intros l E; cbn in E.
  - injection E as <-. split; [reflexivity|]. intros r wr [].
  - destruct (w_regime ideq w (regi_ids_of req regimes r) tr min_n) as [[wr wn]|] eqn:Ew; [|discriminate]. cbn in E.
    destruct (mapM _ rs) as [t|]; [|discriminate]. cbn in E. injection E as <-. destruct (IH t eq_refl) as [I1 I2]. split.
    + cbn. now f_equal.
    + intros s ws [H|H]; [injection H as <- <-; eauto|eauto].
Qed.
End T.

(** C12: row-standardised regime weights have unit row sums, except for islands. *)
Theorem C12_row_sums : forall {ID R} (ideq : forall a b : ID, {a = b} + {a <> b}) (req : forall a b : R, {a = b} + {a <> b})
  (w : W ID) (regimes : list R) r min_n wr warn,
  valid_W ideq w -> List.length regimes = List.length (w_ids w) -> w_tr w = TR ->
  w_regime ideq w (regi_ids_of req regimes r) true min_n = Ok (wr, warn) ->
  let obs := obs_of req regimes r in
  forall a i, nth_error obs a = Some i -> (exists j, In j obs /\ linkb ideq w i j = true) ->
  qsum (map (wcell ideq wr a) (seq 0 (List.length obs))) = 1%Qc.
Proof.
  intros ID R ideq req w regimes r min_n wr warn Hv Hl Ht Hw obs a i Ha (j0 & Hj0 & Hl0).
  destruct (C12_regime_weights ideq req w regimes r true min_n wr warn Hv Hl Hw) as (_ & _ & Hc & _). fold obs in Hc.
  assert (E : map (wcell ideq wr a) (seq 0 (List.length obs))
     = map (fun j => if linkb ideq w i j then link_weight TR (List.length (filter (linkb ideq w i) obs)) else 0%Qc) obs).
  { rewrite Ht in Hc. clear - Hc Ha. set (c := link_weight TR _) in *. 
    apply nth_ext with (d := 0%Qc) (d' := 0%Qc).
    - now rewrite !map_length, seq_length.
    - intros b Hb. rewrite map_length, seq_length in Hb.
      destruct (nth_error obs b) as [j|] eqn:Ej; [|apply nth_error_None in Ej; lia].
      rewrite (nth_indep _ 0%Qc (wcell ideq wr a 0)) by (rewrite map_length, seq_length; auto).
      rewrite map_nth, seq_nth by auto. cbn [Nat.add]. rewrite (Hc a b i j Ha Ej).
      symmetry. apply nth_error_nth. rewrite nth_error_map, Ej. reflexivity. }
  rewrite E. clear E.
  assert (G : forall l c, qsum (map (fun j => if linkb ideq w i j then c else 0%Qc) l) = (natQ (List.length (filter (linkb ideq w i) l)) * c)%Qc).
  { induction l as [|x l IH]; intros c; cbn [map qsum fold_right filter].
    - rewrite Qcmult_0_l. reflexivity.
    - change (fold_right Qcplus 0%Qc ?m) with (qsum m). rewrite IH. destruct (linkb ideq w i x); cbn [List.length].
      + rewrite <- natQ_S. ring.
      + ring. }
  rewrite G. cbn [link_weight]. unfold natQ at 1.
  assert (P : exists m, List.length (filter (linkb ideq w i) obs) = S m).
  { destruct (filter (linkb ideq w i) obs) eqn:F; [|cbn; eauto]. exfalso.
    assert (In j0 (filter (linkb ideq w i) obs)) by (apply filter_In; auto). rewrite F in H. exact H. }
  destruct P as (m & ->). pose proof (natQ_S_neq0 m) as N. unfold natQ in N. field. exact N.
Qed.

(** Non-trivial case: four observations in a ring with weights 5, regimes a b a b ... *)
Definition ex_w (t : transf) : W nat :=
  mkW [10; 20; 30; 40]
      [(10, [(20, Q2Qc 5); (30, Q2Qc 7)]); (20, [(10, Q2Qc 5)]); (30, [(10, Q2Qc 7); (20, Q2Qc 3)]); (40, [(20, Q2Qc 2)])] t.
Definition ex_reg : list nat := [1; 2; 1; 2].

Example C12_witness : valid_W Nat.eq_dec (ex_w TR) /\ List.length ex_reg = List.length (w_ids (ex_w TR)) /\
  exists wr, w_regime Nat.eq_dec (ex_w TR) (regi_ids_of Nat.eq_dec ex_reg 1) true None = Ok (wr, false) /\
             wcell Nat.eq_dec wr 0 1 = 1%Qc /\ wcell Nat.eq_dec wr 0 0 = 0%Qc.
Proof.
  split.
  - split; [repeat constructor; cbn; intuition discriminate|]. split; [repeat constructor; cbn; intuition discriminate|].
    split; [intros i; reflexivity|].
    assert (G : forall i, NoDup (map fst (nbrs Nat.eq_dec (ex_w TR) i)) /\ incl (map fst (nbrs Nat.eq_dec (ex_w TR) i)) [10; 20; 30; 40]).
    { intros i. unfold nbrs. cbn [ex_w w_nb assoc]. repeat (destruct (Nat.eq_dec i _) as [_|_]); cbn;
      (split; [repeat constructor; cbn; intuition discriminate|intros x; cbn; intuition]). }
    split; intros i; apply G.
  - split; [reflexivity|]. eexists. split; [reflexivity|]. split; apply Qc_is_canon; vm_compute; reflexivity.
Qed.

(** C12, the claim one might expect: the restricted weights keep the values of w.  It fails: they are replaced by ones. *)
Theorem C12_original_weights_refuted :
  ~ (forall (w : W nat) regimes r wr warn, valid_W Nat.eq_dec w -> List.length regimes = List.length (w_ids w) -> w_tr w = TO ->
     w_regime Nat.eq_dec w (regi_ids_of Nat.eq_dec regimes r) true None = Ok (wr, warn) ->
     forall a b i j, nth_error (obs_of Nat.eq_dec regimes r) a = Some i -> nth_error (obs_of Nat.eq_dec regimes r) b = Some j ->
     wcell Nat.eq_dec wr a b = wcell Nat.eq_dec w i j).
Proof.
  intros H. destruct C12_witness as [(H1 & H2 & H3 & H4 & H5) _].
  assert (V : valid_W Nat.eq_dec (ex_w TO)) by (split; auto).
  specialize (H (ex_w TO) ex_reg 1 _ _ V eq_refl eq_refl eq_refl 0 1 0 2 eq_refl eq_refl).
  apply (f_equal this) in H. vm_compute in H. discriminate H.
Qed.
Print Assumptions C12_regime_weights.
Print Assumptions C12_union.
Print Assumptions C12_row_sums.
Print Assumptions C12_original_weights_refuted.
