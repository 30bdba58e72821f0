(** C95: arguments given to a class reach the class that does the work.
    spreg/ols.py, twosls.py, twosls_sp.py, ml_lag.py, ml_error.py, error_sp.py, error_sp_regimes.py. *)
From Coq Require Import String Lia.
From Verif Require Import PyBase FwdModel.
Open Scope string_scope.
Open Scope list_scope.

(** ** Specification *)
Section Spec.
Context {V : Type}.
(** The caller writes p = v *)
Definition given (kw : list (string * value V)) (p : string) (v : value V) : Prop := In (p, v) kw.
Definition not_given (kw : list (string * value V)) (p : string) : Prop := ~ In p (map fst kw).
(** regimes is missing or None *)
Definition without_regimes (kw : list (string * value V)) : Prop := not_given kw "regimes" \/ given kw "regimes" (Lit "None").
(** [p] is a parameter of the class whose __init__ runs; [has b p v]: its value is v *)
Definition param (s : signature) (p : string) : Prop := In p (map fst (s_params s)).
Definition default (s : signature) (p : string) (d : string) : Prop := In (p, Some d) (s_params s).
Definition has (b : bound V) (p : string) (v : value V) : Prop := In (p, v) (b_env b) /\ arg b p = v.
End Spec.

(** ** Lemmas *)
Lemma mem_In p l : mem p l = true <-> In p l.
Proof.
  unfold mem. rewrite existsb_exists. split.
  - intros (x & Hx & E). apply String.eqb_eq in E. now subst.
  - intros H. exists p. split; [exact H|apply String.eqb_refl].
Qed.
Lemma mem_false p l : mem p l = false <-> ~ In p l.
Proof. rewrite <- mem_In. now destruct (mem p l). Qed.

Lemma no_dup_NoDup l : no_dup l = true <-> NoDup l.
Proof.
  induction l as [|a l IH]; [split; [constructor|reflexivity]|]. cbn [no_dup]. rewrite andb_true_iff, IH, negb_true_iff, mem_false. split.
  - intros (H1 & H2). now constructor.
  - intros H. inversion H; auto.
Qed.

Section L.
Context {A : Type}.
Implicit Types l : list (string * A).

Lemma lookup_app l l' p : lookup (l ++ l') p = match lookup l p with Some v => Some v | None => lookup l' p end.
Proof. induction l as [|(k, v) l IH]; [reflexivity|]. cbn. destruct (String.eqb k p); [reflexivity|exact IH]. Qed.

Lemma lookup_none l p : lookup l p = None <-> ~ In p (map fst l).
Proof.
  induction l as [|(k, v) l IH]; [cbn; tauto|]. cbn [lookup map fst]. destruct (String.eqb_spec k p) as [-> |Hk].
  - split; [discriminate|]. intros H. exfalso. apply H. now left.
  - rewrite IH. cbn [In]. tauto.
Qed.

Lemma lookup_in l p v : lookup l p = Some v -> In (p, v) l.
Proof.
  induction l as [|(k, u) l IH]; [discriminate|]. cbn [lookup]. destruct (String.eqb_spec k p) as [-> |Hk]; [intros [= ->]; now left|].
  intros H. right. now apply IH.
Qed.

Lemma lookup_some l p v : NoDup (map fst l) -> In (p, v) l -> lookup l p = Some v.
Proof.
  induction l as [|(k, u) l IH]; [contradiction|]. cbn [lookup map fst]. intros Hd Hin. inversion Hd as [|? ? Hk Hd']; subst. destruct Hin as [E|Hin].
  - injection E as -> ->. now rewrite String.eqb_refl.
  - destruct (String.eqb_spec k p) as [-> |_]; [|now apply IH]. exfalso. apply Hk. apply in_map_iff. now exists (p, v).
Qed.
End L.

Definition dflt (s : signature) (p : string) : string := match lookup (s_params s) p with Some (Some d) => d | _ => "None" end.

Section Thm.
Context {V : Type}.
Implicit Types kw : list (string * value V).
Implicit Types b : bound V.

Lemma lookup_env kw ps p :
  lookup (map (bind_param kw) ps) p =
  match lookup ps p with
  | Some d => Some (match lookup kw p with Some v => v | None => match d with Some s => Lit s | None => Lit "None" end end)
  | None => None end.
Proof.
  induction ps as [|(k, d) ps IH]; [reflexivity|]. cbn [map lookup bind_param]. destruct (String.eqb_spec k p) as [-> |_]; [reflexivity|exact IH].
Qed.

Definition mk_bound (s : signature) kw : bound V :=
  {| b_sig := s; b_env := map (bind_param kw) (s_params s); b_extra := filter (fun kv => negb (mem (fst kv) (s_names s))) kw |}.

Lemma bind_call_iff s kw b : bind_call s kw = Ok b <->
  NoDup (map fst kw) /\ (s_kwargs s = true \/ forall k, In k (map fst kw) -> In k (s_names s)) /\
  (forall p, In (p, None) (s_params s) -> In p (map fst kw)) /\ b = mk_bound s kw.
Proof.
  unfold bind_call. fold (mk_bound s kw). rewrite <- no_dup_NoDup.
  assert (E1 : existsb (fun k => negb (mem k (s_names s))) (map fst kw) = false <-> forall k, In k (map fst kw) -> In k (s_names s)).
  { split.
    - intros H k Hk. apply mem_In. apply not_false_is_true. intros E. assert (existsb (fun k => negb (mem k (s_names s))) (map fst kw) = true); [|congruence].
      apply existsb_exists. exists k. now rewrite E.
    - intros H. apply not_true_is_false. intros E. apply existsb_exists in E. destruct E as (k & Hk & E). apply H, mem_In in Hk. rewrite Hk in E. discriminate. }
  assert (E2 : existsb (fun pd => match snd pd with None => negb (mem (fst pd) (map fst kw)) | Some _ => false end) (s_params s) = false <->
               forall p, In (p, None) (s_params s) -> In p (map fst kw)).
  { split.
    - intros H p Hp. apply mem_In. apply not_false_is_true. intros E.
      assert (existsb (fun pd : string * option string => match snd pd with None => negb (mem (fst pd) (map fst kw)) | Some _ => false end) (s_params s) = true); [|congruence].
      apply existsb_exists. exists (p, None). split; [exact Hp|]. cbn. now rewrite E.
    - intros H. apply not_true_is_false. intros E. apply existsb_exists in E. destruct E as ((p, d) & Hp & E). cbn [snd fst] in E. destruct d; [discriminate|].
      apply H, mem_In in Hp. rewrite Hp in E. discriminate. }
  rewrite <- E1, <- E2. destruct (no_dup (map fst kw)); cbn [negb]; [|split; [discriminate|intros (H & _); discriminate]].
  destruct (s_kwargs s), (existsb (fun k => negb (mem k (s_names s))) (map fst kw)); cbn [negb andb];
    try (split; [discriminate|]; intros (_ & H & _); destruct H; discriminate);
    (destruct (existsb _ (s_params s)); [split; [discriminate|intros (_ & _ & H & _); discriminate]|]);
    (split; [intros [= <-]; auto|intros (_ & _ & _ & ->); reflexivity]).
Qed.

Lemma arg_mk s kw p : In p (s_names s) -> arg (mk_bound s kw) p = match lookup kw p with Some v => v | None => Lit (dflt s p) end.
Proof.
  intros H. unfold arg, mk_bound, dflt. cbn [b_env]. rewrite lookup_env. destruct (lookup (s_params s) p) as [[d|]|] eqn:E; try (destruct (lookup kw p); reflexivity).
  apply lookup_none in E. contradiction.
Qed.

Lemma has_arg s kw p v : In p (s_names s) -> NoDup (s_names s) -> arg (mk_bound s kw) p = v -> has (mk_bound s kw) p v.
Proof.
  intros H Hd E. split; [|exact E]. unfold arg in E. destruct (lookup (b_env (mk_bound s kw)) p) as [u|] eqn:El.
  - subst. now apply lookup_in.
  - apply lookup_none in El. exfalso. apply El. cbn. rewrite map_map. replace (map _ (s_params s)) with (s_names s); [exact H|].
    apply map_ext. now intros (q, d).
Qed.

Lemma lookup_extra (q : string -> bool) kw p : lookup (filter (fun kv => q (fst kv)) kw) p = if q p then lookup kw p else None.
Proof.
  induction kw as [|(k, v) kw IH]; [cbn; now destruct (q p)|]. cbn [filter fst lookup]. destruct (q k) eqn:Ek; cbn [lookup].
  - destruct (String.eqb_spec k p) as [-> |_]; [now rewrite Ek|exact IH].
  - destruct (String.eqb_spec k p) as [-> |_]; [|exact IH]. rewrite IH, Ek. reflexivity.
Qed.

(** What reaches the class called: the value of the caller's parameter, or a keyword that the caller does not have *)
Lemma lookup_forward f ex s kw p :
  lookup (forward f ex (mk_bound s kw)) p =
  match lookup f p with Some q => Some (arg (mk_bound s kw) q)
  | None => if (ex && negb (mem p (s_names s)))%bool then lookup kw p else None end.
Proof.
  unfold forward. rewrite lookup_app.
  assert (E : lookup (map (fun '(k, q) => (k, arg (mk_bound s kw) q)) f) p = option_map (arg (mk_bound s kw)) (lookup f p)).
  { induction f as [|(k, q) f IH]; [reflexivity|]. cbn [map lookup]. destruct (String.eqb k p); [reflexivity|exact IH]. }
  rewrite E. destruct (lookup f p); [reflexivity|]. cbn [option_map]. destruct ex; [|reflexivity].
  cbn [mk_bound b_extra andb]. exact (lookup_extra (fun k => negb (mem k (s_names s))) kw p).
Qed.

(** Lists of forwarded arguments: every one under its own name, and every parameter of the class called is forwarded, unknown to
    the caller (and so in kwargs), or in [lost] *)
Definition good (s : signature) (f : list (string * string)) (s2 : signature) (lost : list string) : bool :=
  (forallb (fun p => match lookup f p with Some q => String.eqb q p && mem p (s_names s) | None => negb (mem p (s_names s)) || mem p lost end) (s_names s2)
   && forallb (fun p => match lookup f p with Some _ => false | None => mem p (s_names s) end) lost
   && no_dup (s_names s2) && no_dup (map fst f) && forallb (fun k => mem k (s_names s)) (map fst f)
   && forallb (fun k => mem k (s_names s2)) (map fst f)
   && forallb (fun pd => match snd pd with None => mem (fst pd) (map fst f) | Some _ => true end) (s_params s2))%bool.

Lemma good_kept s f s2 lost kw p : good s f s2 lost = true -> In p (s_names s2) -> ~ In p lost ->
  lookup (forward f true (mk_bound s kw)) p =
  if mem p (s_names s) then Some (match lookup kw p with Some v => v | None => Lit (dflt s p) end) else lookup kw p.
Proof.
  unfold good. rewrite !andb_true_iff. intros ((((((H1 & _) & _) & _) & H5) & _) & _) Hp Hl. rewrite lookup_forward.
  rewrite forallb_forall in H1. specialize (H1 p Hp). destruct (lookup f p) as [q|] eqn:E.
  - apply andb_true_iff in H1. destruct H1 as (Hq & Hm). apply String.eqb_eq in Hq. subst q. rewrite Hm. f_equal. apply arg_mk. now apply mem_In.
  - apply orb_true_iff in H1. destruct H1 as [H1|H1]; [|apply mem_In in H1; contradiction]. rewrite H1. apply negb_true_iff in H1. now rewrite H1.
Qed.

Lemma good_lost s f s2 lost kw p : good s f s2 lost = true -> In p lost -> lookup (forward f true (mk_bound s kw)) p = None.
Proof.
  unfold good. rewrite !andb_true_iff. intros ((((((_ & H2) & _) & _) & _) & _) & _) Hl. rewrite lookup_forward.
  rewrite forallb_forall in H2. specialize (H2 p Hl). destruct (lookup f p); [discriminate|]. now rewrite H2.
Qed.

Lemma good_nodup s f s2 lost : good s f s2 lost = true -> NoDup (s_names s2).
Proof. unfold good. rewrite !andb_true_iff. intros ((((((_ & _) & H) & _) & _) & _) & _). now apply no_dup_NoDup. Qed.

Lemma forward_keys f ex s kw : map fst (forward f ex (mk_bound s kw)) =
  map fst f ++ (if ex then filter (fun k => negb (mem k (s_names s))) (map fst kw) else []).
Proof.
  unfold forward. rewrite map_app. f_equal.
  - rewrite map_map. apply map_ext. now intros (k, q).
  - destruct ex; [|reflexivity]. cbn [mk_bound b_extra]. induction kw as [|(k, v) kw IH]; [reflexivity|]. cbn [filter fst map].
    destruct (negb (mem k (s_names s))); cbn [map fst]; now rewrite IH.
Qed.

(** The second call is accepted unless it gets a keyword unknown to both *)
Lemma good_accept s f s2 lost kw : good s f s2 lost = true -> NoDup (map fst kw) ->
  (exists b, bind_call s2 (forward f true (mk_bound s kw)) = Ok b) <->
  s_kwargs s2 = true \/ forall k, In k (map fst kw) -> In k (s_names s) \/ In k (s_names s2).
Proof.
  unfold good. rewrite !andb_true_iff. intros ((((((_ & _) & _) & H4) & H5) & H6) & H7) Hd.
  rewrite forallb_forall in H5, H6, H7. apply no_dup_NoDup in H4. split.
  - intros (b & Hb). apply bind_call_iff in Hb. destruct Hb as (_ & [Hk|Hk] & _); [now left|right]. intros k Hin.
    destruct (mem k (s_names s)) eqn:E; [left; now apply mem_In|right]. apply Hk. rewrite forward_keys. apply in_or_app. right. apply filter_In. now rewrite E.
  - intros H. exists (mk_bound s2 (forward f true (mk_bound s kw))). apply bind_call_iff. rewrite forward_keys. split; [|split; [|split; [|reflexivity]]].
    + clear H. revert H4 H5. generalize (map fst f). intros ks Hks. induction ks as [|k ks IH]; intros H5; [cbn; now apply NoDup_filter|].
      inversion Hks; subst. cbn. constructor; [|apply IH; [assumption|intros q Hq; apply H5; now right]].
      intros Hin. apply in_app_or in Hin. destruct Hin as [Hin|Hin]; [contradiction|]. apply filter_In in Hin. destruct Hin as (_ & Hin).
      rewrite (H5 k (or_introl eq_refl)) in Hin. discriminate.
    + destruct H as [H|H]; [now left|right]. intros k Hk. apply in_app_or in Hk. destruct Hk as [Hk|Hk]; [apply mem_In; now apply H6|].
      apply filter_In in Hk. destruct Hk as (Hk & E). destruct (H k Hk) as [Hs|Hs]; [apply mem_In in Hs; rewrite Hs in E; discriminate|exact Hs].
    + intros p Hp. apply in_or_app. left. apply mem_In. exact (H7 (p, None) Hp).
Qed.

Lemma without_iff kw s : NoDup (map fst kw) -> In "regimes" (s_names s) -> dflt s "regimes" = "None" ->
  is_none (arg (mk_bound s kw) "regimes") = true <-> without_regimes kw.
Proof.
  intros Hd Hs Hdf. rewrite arg_mk by exact Hs. rewrite Hdf. unfold without_regimes, not_given, given. destruct (lookup kw "regimes") as [v|] eqn:E.
  - assert (Hin : In "regimes" (map fst kw)) by (destruct (in_dec string_dec "regimes" (map fst kw)) as [H|H]; [exact H|apply lookup_none in H; congruence]).
    split.
    + intros H. right. destruct v as [t|]; [|discriminate]. cbn in H. apply String.eqb_eq in H. subst. now apply lookup_in.
    + intros [H|H]; [contradiction|]. apply lookup_some in H; [|exact Hd]. rewrite H in E. injection E as <-. reflexivity.
  - split; [intros _; left; now apply lookup_none|reflexivity].
Qed.

Lemma w_good c : good (w_sig c) (w_fwd c) (w_regimes c) ["slx_vars"] = true.
Proof. destruct c; vm_compute; reflexivity. Qed.
Lemma w_nodup c : NoDup (s_names (w_sig c)).
Proof. apply no_dup_NoDup. destruct c; vm_compute; reflexivity. Qed.
Lemma w_reg c : In "regimes" (s_names (w_sig c)) /\ dflt (w_sig c) "regimes" = "None".
Proof. split; [apply mem_In|]; destruct c; vm_compute; reflexivity. Qed.

Lemma call_inv c kw b : call c kw = Ok b -> NoDup (map fst kw) /\
  ((without_regimes kw /\ bind_call (w_sig c) kw = Ok b /\ b = mk_bound (w_sig c) kw) \/
   (~ without_regimes kw /\ exists b0, bind_call (w_sig c) kw = Ok b0 /\ b = mk_bound (w_regimes c) (forward (w_fwd c) true (mk_bound (w_sig c) kw)) /\
      bind_call (w_regimes c) (forward (w_fwd c) true (mk_bound (w_sig c) kw)) = Ok b)).
Proof.
  unfold call. destruct (bind_call (w_sig c) kw) as [b0|] eqn:E; [|discriminate]. cbn [bind]. pose proof E as E0.
  apply bind_call_iff in E. destruct E as (Hd & _ & _ & ->). destruct (w_reg c) as (Hr & Hdf). pose proof (without_iff kw (w_sig c) Hd Hr Hdf) as Hw.
  split; [exact Hd|]. destruct (is_none (arg (mk_bound (w_sig c) kw) "regimes")).
  - injection H as <-. left. split; [now apply Hw|]. auto.
  - right. split; [intros Hn; apply Hw in Hn; discriminate|]. eexists. split; [reflexivity|]. split; [|exact H]. apply bind_call_iff in H. tauto.
Qed.

Lemma names_param s p : param s p <-> In p (s_names s).
Proof. reflexivity. Qed.

(** ** OLS, TSLS, GM_Lag, ML_Lag, ML_Error *)
(** With regimes the class for regimes runs, without it the class itself. *)
Theorem C95_class : forall c kw b, call c kw = Ok b ->
  (without_regimes kw -> b_sig b = w_sig c) /\ (~ without_regimes kw -> b_sig b = w_regimes c).
Proof.
  intros c kw b H. apply call_inv in H. destruct H as (_ & [(Hw & _ & ->)|(Hw & b0 & _ & -> & _)]); split; intros Hn; try reflexivity; contradiction.
Qed.

(** Every argument given reaches the class that runs under its own name if that class has it, but slx_vars with regimes. *)
Theorem C95_forwarded : forall c kw b p v, call c kw = Ok b -> given kw p v -> param (b_sig b) p ->
  without_regimes kw \/ p <> "slx_vars" -> has b p v.
Proof.
  intros c kw b p v H Hg Hp Hor. apply call_inv in H. destruct H as (Hd & [(Hw & _ & ->)|(Hw & b0 & _ & -> & _)]); cbn [b_sig mk_bound] in Hp.
  - apply has_arg; [exact Hp|apply w_nodup|]. rewrite arg_mk by exact Hp. now rewrite (lookup_some kw p v Hd Hg).
  - destruct Hor as [Hor|Hor]; [contradiction|]. apply has_arg; [exact Hp|exact (good_nodup _ _ _ _ (w_good c))|]. rewrite arg_mk by exact Hp.
    rewrite (good_kept _ _ _ _ kw p (w_good c) Hp) by (intros [<-|[]]; now apply Hor). rewrite (lookup_some kw p v Hd Hg).
    now destruct (mem p (s_names (w_sig c))).
Qed.

(** slx_vars never does: with regimes all variables are lagged, whatever was given. *)
Theorem C95_slx_vars_refuted : forall c kw b, call c kw = Ok b -> ~ without_regimes kw -> has b "slx_vars" (Lit "'all'").
Proof.
  intros c kw b H Hn. apply call_inv in H. destruct H as (Hd & [(Hw & _)|(Hw & b0 & _ & -> & _)]); [contradiction|].
  assert (Hp : In "slx_vars" (s_names (w_regimes c))) by (apply mem_In; destruct c; vm_compute; reflexivity).
  apply has_arg; [exact Hp|exact (good_nodup _ _ _ _ (w_good c))|]. rewrite arg_mk by exact Hp.
  rewrite (good_lost _ _ _ _ kw "slx_vars" (w_good c)) by now left. destruct c; vm_compute; reflexivity.
Qed.

(** An argument not given has the default of the class called, also where the class for regimes has another one. *)
Theorem C95_defaults : forall c kw b p d, call c kw = Ok b -> not_given kw p -> param (b_sig b) p ->
  without_regimes kw \/ p <> "slx_vars" ->
  default (w_sig c) p d \/ (~ param (w_sig c) p /\ default (w_regimes c) p d) -> has b p (Lit d).
Proof.
  intros c kw b p d H Hg Hp Hor Hdef. apply lookup_none in Hg. apply call_inv in H.
  assert (D : forall s, NoDup (s_names s) -> default s p d -> dflt s p = d) by (intros s Hs Hin; unfold dflt; now rewrite (lookup_some (s_params s) p (Some d) Hs Hin)).
  destruct H as (Hd & [(Hw & _ & ->)|(Hw & b0 & _ & -> & _)]); cbn [b_sig mk_bound] in Hp.
  - apply has_arg; [exact Hp|apply w_nodup|]. rewrite arg_mk by exact Hp. rewrite Hg. destruct Hdef as [Hdef|(Hdef & _)]; [|contradiction].
    now rewrite (D _ (w_nodup c) Hdef).
  - destruct Hor as [Hor|Hor]; [contradiction|]. apply has_arg; [exact Hp|exact (good_nodup _ _ _ _ (w_good c))|]. rewrite arg_mk by exact Hp.
    rewrite (good_kept _ _ _ _ kw p (w_good c) Hp) by (intros [<-|[]]; now apply Hor). rewrite Hg.
    destruct (mem p (s_names (w_sig c))) eqn:E.
    + destruct Hdef as [Hdef|(Hdef & _)]; [|apply mem_In in E; contradiction]. now rewrite (D _ (w_nodup c) Hdef).
    + destruct Hdef as [Hdef|(_ & Hdef)]; [|now rewrite (D _ (good_nodup _ _ _ _ (w_good c)) Hdef)].
      apply mem_false in E. exfalso. apply E. apply in_map_iff. now exists (p, Some d).
Qed.

(** Calls accepted: no keyword twice, the required ones given, and with regimes only keywords that one of the two classes has (OLS
    takes any, regimes or not; without regimes every class takes any). *)
Theorem C95_accept_iff : forall c kw, (exists b, call c kw = Ok b) <->
  NoDup (map fst kw) /\ (forall p, In (p, None) (s_params (w_sig c)) -> In p (map fst kw)) /\
  (without_regimes kw \/ c = WOLS \/ forall k, In k (map fst kw) -> param (w_sig c) k \/ param (w_regimes c) k).
Proof.
  intros c kw. assert (Hk : s_kwargs (w_sig c) = true) by (destruct c; reflexivity). destruct (w_reg c) as (Hr & Hdf). split.
  - intros (b & H). apply call_inv in H. destruct H as (Hd & [(Hw & Hb & _)|(Hw & b0 & Hb & _ & Hb2)]); apply bind_call_iff in Hb; destruct Hb as (_ & _ & Hreq & _).
    + auto.
    + split; [exact Hd|]. split; [exact Hreq|]. right. pose proof (proj1 (good_accept _ _ _ _ kw (w_good c) Hd) (ex_intro _ b Hb2)) as [Hc|Hc]; [left|now right].
      destruct c; try discriminate. reflexivity.
  - intros (Hd & Hreq & Hor). assert (Hb : bind_call (w_sig c) kw = Ok (mk_bound (w_sig c) kw)) by (apply bind_call_iff; auto).
    unfold call. rewrite Hb. cbn [bind]. pose proof (without_iff kw (w_sig c) Hd Hr Hdf) as Hw.
    destruct (is_none (arg (mk_bound (w_sig c) kw) "regimes")) eqn:E; [eexists; reflexivity|].
    apply (good_accept _ _ _ _ kw (w_good c) Hd). destruct Hor as [Hor|[Hor|Hor]]; [apply Hw in Hor; discriminate|left; subst; reflexivity|now right].
Qed.

Definition acc (s : signature) (ks : list string) : bool :=
  (no_dup ks && negb (negb (s_kwargs s) && existsb (fun k => negb (mem k (s_names s))) ks)
   && negb (existsb (fun pd => match snd pd with None => negb (mem (fst pd) ks) | Some _ => false end) (s_params s)))%bool.

Lemma bind_call_acc s kw : bind_call s kw = if acc s (map fst kw) then Ok (mk_bound s kw) else Err "TypeError".
Proof.
  unfold bind_call, acc. fold (mk_bound s kw). destruct (no_dup (map fst kw)); [|reflexivity].
  destruct (negb (s_kwargs s) && _)%bool; [reflexivity|]. cbn [negb andb]. now destruct (existsb _ (s_params s)).
Qed.

(** Arguments of a class that its class for regimes does not have ... *)
Theorem C95_missing_iff : forall c p, param (w_sig c) p /\ ~ param (w_regimes c) p <-> (c = WOLS /\ p = "vif") \/ (c = WTSLS /\ p = "nonspat_diag").
Proof.
  intros c p. split.
  - intros (H1 & H2). assert (E : forallb (fun q => (mem q (s_names (w_regimes c)) || match c with WOLS => String.eqb q "vif" | WTSLS => String.eqb q "nonspat_diag" | _ => false end)%bool)
      (s_names (w_sig c)) = true) by (destruct c; vm_compute; reflexivity).
    rewrite forallb_forall in E. specialize (E p H1). apply orb_true_iff in E. destruct E as [E|E]; [apply mem_In in E; contradiction|].
    destruct c; try discriminate; apply String.eqb_eq in E; auto.
  - unfold param. fold (s_names (w_sig c)). fold (s_names (w_regimes c)). rewrite <- !mem_In.
    intros [(-> & ->)|(-> & ->)]; split; try (vm_compute; reflexivity); vm_compute; discriminate.
Qed.

(** ... have no effect with regimes, and slx_vars has none either: whatever the value, the outcome is the same. *)
Theorem C95_no_effect : forall c p v v' kw, ~ without_regimes kw ->
  p = "slx_vars" \/ (param (w_sig c) p /\ ~ param (w_regimes c) p) ->
  call c ((p, v) :: kw) = call c ((p, v') :: kw).
Proof.
  intros c p v v' kw Hn Hp.
  assert (Hin : In p (s_names (w_sig c))) by (destruct Hp as [-> |(Hp & _)]; [apply mem_In; destruct c; vm_compute; reflexivity|exact Hp]).
  assert (Hm : mem p (s_names (w_sig c)) = true) by now apply mem_In.
  assert (Hf : forall k q, In (k, q) (w_fwd c) -> q <> p).
  { intros k q Hkq ->. assert (E : forallb (fun kq => (mem (snd kq) (s_names (w_regimes c)) && negb (String.eqb (snd kq) "slx_vars"))%bool) (w_fwd c) = true)
      by (destruct c; vm_compute; reflexivity).
    rewrite forallb_forall in E. specialize (E _ Hkq). cbn [snd] in E. apply andb_true_iff in E. destruct E as (E1 & E2).
    destruct Hp as [-> |(_ & Hp)]; [discriminate|]. apply mem_In in E1. contradiction. }
  assert (Hr : "regimes" <> p).
  { intros <-. destruct Hp as [Hp|(_ & Hp)]; [discriminate|]. apply Hp. apply mem_In. destruct c; vm_compute; reflexivity. }
  assert (Harg : forall q, q <> p -> arg (mk_bound (w_sig c) ((p, v) :: kw)) q = arg (mk_bound (w_sig c) ((p, v') :: kw)) q).
  { intros q Hq. unfold arg, mk_bound. cbn [b_env]. rewrite !lookup_env. cbn [lookup]. destruct (String.eqb_spec p q); [congruence|reflexivity]. }
  unfold call. rewrite !bind_call_acc. cbn [map fst]. destruct (acc (w_sig c) (p :: map fst kw)) eqn:Ea; [|reflexivity]. cbn [bind].
  rewrite <- (Harg "regimes" Hr).
  assert (EF : forward (w_fwd c) true (mk_bound (w_sig c) ((p, v) :: kw)) = forward (w_fwd c) true (mk_bound (w_sig c) ((p, v') :: kw))).
  { unfold forward. f_equal; [|unfold mk_bound; cbn [b_extra filter fst]; now rewrite Hm].
    apply map_ext_in. intros (k, q) Hkq. f_equal. apply Harg. exact (Hf k q Hkq). }
  rewrite EF. destruct (is_none _) eqn:E; [|reflexivity]. exfalso.
  destruct (w_reg c) as (Hreg & Hdf). unfold acc in Ea. apply andb_true_iff in Ea. destruct Ea as (Ea & _). apply andb_true_iff in Ea. destruct Ea as (Ea & _).
  apply no_dup_NoDup in Ea. apply (without_iff ((p, v) :: kw) (w_sig c) Ea Hreg Hdf) in E. apply Hn. destruct E as [E|E].
  - left. intros H. apply E. now right.
  - right. destruct E as [E|E]; [injection E as E _; now subst|exact E].
Qed.

(** An unknown (misspelled) keyword is ignored: without regimes by every class, with regimes by OLS. *)
Theorem C95_unknown_ignored : forall c k v kw b, call c kw = Ok b -> not_given kw k ->
  ~ param (w_sig c) k -> ~ param (w_regimes c) k -> without_regimes kw \/ c = WOLS ->
  exists b', call c ((k, v) :: kw) = Ok b' /\ b_sig b' = b_sig b /\ forall p, param (b_sig b) p -> arg b' p = arg b p.
Proof.
  intros c k v kw b H Hk Hs Hs2 Hor.
  assert (Hd : NoDup (map fst kw)) by (now apply call_inv in H). assert (Hd' : NoDup (map fst ((k, v) :: kw))) by (cbn; now constructor).
  pose proof (proj1 (C95_accept_iff c kw) (ex_intro _ b H)) as (_ & Hreq & _).
  assert (Hkr : k <> "regimes") by (intros ->; destruct (w_reg c); contradiction).
  assert (Hw : without_regimes ((k, v) :: kw) <-> without_regimes kw).
  { unfold without_regimes, not_given, given. cbn [map fst In]. split.
    - intros [Hn|[Hn|Hn]]; [left; tauto|injection Hn as Hn _; contradiction|now right].
    - intros [Hn|Hn]; [left; intros [E|E]; [contradiction|tauto]|tauto]. }
  assert (Hacc : exists b', call c ((k, v) :: kw) = Ok b').
  { apply C95_accept_iff. split; [exact Hd'|]. split; [intros p Hp; right; now apply Hreq|]. destruct Hor as [Hor|Hor]; [left; now apply Hw|right; now left]. }
  destruct Hacc as (b' & H'). exists b'. split; [exact H'|].
  pose proof (C95_class c kw b H) as (S1 & S2). pose proof (C95_class c _ b' H') as (S1' & S2').
  apply call_inv in H. apply call_inv in H'. destruct H as (_ & H). destruct H' as (_ & H').
  destruct H as [(Hn & _ & ->)|(Hn & b0 & _ & -> & _)]; destruct H' as [(Hn' & _ & ->)|(Hn' & b0' & _ & -> & _)];
    try (exfalso; tauto); (split; [reflexivity|]); cbn [b_sig mk_bound]; intros p Hp; rewrite !arg_mk by exact Hp.
  - cbn [lookup]. destruct (String.eqb_spec k p) as [-> |_]; [contradiction|reflexivity].
  - assert (E : forall q, q <> k -> lookup (forward (w_fwd c) true (mk_bound (w_sig c) ((k, v) :: kw))) q = lookup (forward (w_fwd c) true (mk_bound (w_sig c) kw)) q).
    { intros q Hq. rewrite !lookup_forward. destruct (lookup (w_fwd c) q) as [q'|] eqn:El.
      - f_equal. unfold arg, mk_bound. cbn [b_env]. rewrite !lookup_env. destruct (lookup (s_params (w_sig c)) q') eqn:Ep; [|reflexivity].
        cbn [lookup]. destruct (String.eqb_spec k q') as [-> |_]; [|reflexivity]. exfalso. apply Hs. apply lookup_in in Ep. apply in_map_iff. eexists. split; [|exact Ep]. reflexivity.
      - cbn [lookup]. destruct (String.eqb_spec k q); [congruence|reflexivity]. }
    rewrite E by (intros ->; contradiction). reflexivity.
Qed.

(** ** GMM_Error and GMM_Error_Regimes *)
(** What the caller's parameter is: the value given, or [d] *)
Definition val kw (p : string) (d : string) : value V := match lookup kw p with Some v => v | None => Lit d end.

(** The model that the arguments ask for: error structure by estimator, endogenous variables if yend is given, lag of y if add_wy *)
Definition expected (estimator yend add_wy : value V) : target :=
  let kind (e n c : target) := if truthy add_wy then c else if is_none yend then e else n in
  match estimator with
  | Lit "'het'" => kind GM_Error_Het GM_Endog_Error_Het GM_Combo_Het
  | Lit "'hom'" => kind GM_Error_Hom GM_Endog_Error_Hom GM_Combo_Hom
  | Lit "'kp98'" => kind GM_Error GM_Endog_Error GM_Combo
  | _ => GM_Error_Het
  end.
Definition known (estimator : value V) : Prop := estimator = Lit "'het'" \/ estimator = Lit "'hom'" \/ estimator = Lit "'kp98'".

Lemma gmm_tree_known (b : bound V) : known (arg b "estimator") -> gmm_tree b = (expected (arg b "estimator") (arg b "yend") (arg b "add_wy"), true, false).
Proof.
  intros Hk. unfold gmm_tree. destruct Hk as [-> |[-> | ->]]; cbn [is_lit String.eqb Ascii.eqb Bool.eqb expected];
    destruct (is_none (arg b "yend")), (truthy (arg b "add_wy")); reflexivity.
Qed.

Lemma is_lit_eq (v : value V) s : is_lit v s = true <-> v = Lit s.
Proof. destruct v as [t|u]; cbn; [rewrite String.eqb_eq; split; congruence|split; discriminate]. Qed.

Lemma gmm_tree_unknown (b : bound V) : ~ known (arg b "estimator") -> gmm_tree b = (GM_Error_Het, false, true).
Proof.
  intros Hk. unfold gmm_tree. unfold known in Hk. rewrite <- !is_lit_eq in Hk.
  destruct (is_lit (arg b "estimator") "'het'"); [tauto|]. destruct (is_lit (arg b "estimator") "'hom'"); [tauto|].
  destruct (is_lit (arg b "estimator") "'kp98'"); [tauto|]. reflexivity.
Qed.

Lemma t_good t : good sig_GMM_Error (gmm_fwd t false) (t_sig t) [] = true.
Proof. destruct t; vm_compute; reflexivity. Qed.
Definition lost_sep (t : target) : list string := if is_combo t then [] else ["regime_lag_sep"].
Lemma tr_good t : good sig_GMM_Error_Regimes (gmm_fwd_regimes t) (t_sig_regimes t) (lost_sep t) = true.
Proof. destruct t; vm_compute; reflexivity. Qed.
Lemma gr_good : good sig_GMM_Error fwd_GMM_Error sig_GMM_Error_Regimes [] = true.
Proof. vm_compute; reflexivity. Qed.

Lemma arg_val s kw p d : In p (s_names s) -> dflt s p = d -> arg (mk_bound s kw) p = val kw p d.
Proof. intros H <-. rewrite arg_mk by exact H. reflexivity. Qed.

Lemma in_names p s : mem p (s_names s) = true -> In p (s_names s).
Proof. apply mem_In. Qed.

(** *** GMM_Error_Regimes *)
Lemma gmmr_inv kw t b : call_gmm_regimes kw = Ok (t, b) ->
  NoDup (map fst kw) /\ bind_call sig_GMM_Error_Regimes kw = Ok (mk_bound sig_GMM_Error_Regimes kw) /\ exists ex last,
  gmm_tree (mk_bound sig_GMM_Error_Regimes kw) = (t, ex, last) /\
  b = mk_bound (t_sig_regimes t) (forward (gmm_fwd_regimes t) ex (mk_bound sig_GMM_Error_Regimes kw)).
Proof.
  unfold call_gmm_regimes. destruct (bind_call sig_GMM_Error_Regimes kw) as [b0|] eqn:E; [|discriminate]. cbn [bind]. pose proof E as E0.
  apply bind_call_iff in E. destruct E as (Hd & _ & _ & ->). destruct (gmm_tree _) as ((t', ex), last) eqn:Et.
  destruct (bind_call (t_sig_regimes t') _) as [b1|] eqn:E1; [|discriminate]. cbn [bind]. intros [= -> ->]. apply bind_call_iff in E1. destruct E1 as (_ & _ & _ & ->).
  split; [exact Hd|]. split; [reflexivity|]. eauto.
Qed.

(** The class is the one that estimator, yend and add_wy ask for. *)
Theorem C95_gmm_regimes_class : forall kw t b, call_gmm_regimes kw = Ok (t, b) ->
  t = expected (val kw "estimator" "'het'") (val kw "yend" "None") (val kw "add_wy" "False") /\ b_sig b = t_sig_regimes t.
Proof.
  intros kw t b H. apply gmmr_inv in H. destruct H as (_ & _ & ex & last & Et & ->). split; [|reflexivity].
  rewrite <- (arg_val sig_GMM_Error_Regimes kw "estimator" "'het'"), <- (arg_val sig_GMM_Error_Regimes kw "yend" "None"),
    <- (arg_val sig_GMM_Error_Regimes kw "add_wy" "False") by (try (apply in_names); vm_compute; reflexivity).
  set (b0 := mk_bound sig_GMM_Error_Regimes kw) in *. clearbody b0.
  assert (Hdec : known (arg b0 "estimator") \/ ~ known (arg b0 "estimator")).
  { unfold known. rewrite <- !is_lit_eq. destruct (is_lit (arg b0 "estimator") "'het'"), (is_lit (arg b0 "estimator") "'hom'"), (is_lit (arg b0 "estimator") "'kp98'");
      auto; right; intros [E|[E|E]]; discriminate. }
  destruct Hdec as [Hk|Hk].
  - rewrite (gmm_tree_known b0 Hk) in Et. congruence.
  - rewrite (gmm_tree_unknown b0 Hk) in Et. injection Et as <- _ _. destruct (arg b0 "estimator") as [s|u] eqn:Es; [|reflexivity].
    unfold expected. repeat match goal with |- context [match ?x with _ => _ end] => is_var x; destruct x; try reflexivity end;
      exfalso; apply Hk; unfold known; auto.
Qed.

(** With a known estimator every argument of the class that runs reaches it, but regime_lag_sep without add_wy. *)
Theorem C95_gmm_regimes_forwarded : forall kw t b p v, call_gmm_regimes kw = Ok (t, b) -> known (val kw "estimator" "'het'") ->
  given kw p v -> param (b_sig b) p -> p <> "regime_lag_sep" \/ is_combo t = true -> has b p v.
Proof.
  intros kw t b p v H Hk Hg Hp Hor. apply gmmr_inv in H. destruct H as (Hd & _ & ex & last & Et & ->).
  rewrite gmm_tree_known in Et by (rewrite (arg_val _ kw "estimator" "'het'"); [exact Hk|apply in_names|]; vm_compute; reflexivity). injection Et as _ <- _.
  cbn [b_sig mk_bound] in Hp. apply has_arg; [exact Hp|exact (good_nodup _ _ _ _ (tr_good t))|]. rewrite arg_mk by exact Hp.
  rewrite (good_kept _ _ _ _ kw p (tr_good t) Hp).
  - rewrite (lookup_some kw p v Hd Hg). now destruct (mem p _).
  - unfold lost_sep. destruct Hor as [Hor|Hor]; [|rewrite Hor; tauto]. destruct (is_combo t); [tauto|]. intros [<-|[]]. now apply Hor.
Qed.

Theorem C95_gmm_regime_lag_sep_refuted : forall kw t b, call_gmm_regimes kw = Ok (t, b) -> is_combo t = false ->
  has b "regime_lag_sep" (Lit "False").
Proof.
  intros kw t b H Hc. apply gmmr_inv in H. destruct H as (Hd & _ & ex & last & Et & ->).
  assert (Hp : In "regime_lag_sep" (s_names (t_sig_regimes t))) by (apply in_names; destruct t; vm_compute; reflexivity).
  apply has_arg; [exact Hp|exact (good_nodup _ _ _ _ (tr_good t))|]. rewrite arg_mk by exact Hp. rewrite lookup_forward.
  assert (E : lookup (gmm_fwd_regimes t) "regime_lag_sep" = None) by (destruct t; try discriminate; vm_compute; reflexivity). rewrite E.
  replace (mem "regime_lag_sep" (s_names sig_GMM_Error_Regimes)) with true by (vm_compute; reflexivity). rewrite andb_false_r.
  destruct t; vm_compute; reflexivity.
Qed.

(** *** GMM_Error *)
Lemma gmm_inv kw t r b : call_gmm kw = Ok (t, r, b) -> NoDup (map fst kw) /\
  ((r = false /\ without_regimes kw /\ exists ex last, gmm_tree (mk_bound sig_GMM_Error kw) = (t, ex, last) /\
      b = mk_bound (t_sig t) (forward (gmm_fwd t last) ex (mk_bound sig_GMM_Error kw))) \/
   (r = true /\ ~ without_regimes kw /\ call_gmm_regimes (forward fwd_GMM_Error true (mk_bound sig_GMM_Error kw)) = Ok (t, b))).
Proof.
  unfold call_gmm. destruct (bind_call sig_GMM_Error kw) as [b0|] eqn:E; [|discriminate]. cbn [bind]. apply bind_call_iff in E. destruct E as (Hd & _ & _ & ->).
  split; [exact Hd|].
  assert (Hr : In "regimes" (s_names sig_GMM_Error)) by (apply in_names; vm_compute; reflexivity).
  pose proof (without_iff kw sig_GMM_Error Hd Hr ltac:(vm_compute; reflexivity)) as Hw. destruct (is_none _).
  - left. destruct (gmm_tree _) as ((t', ex), last) eqn:Et. destruct (bind_call (t_sig t') _) as [b1|] eqn:E1; [|discriminate]. cbn [bind] in H.
    injection H as -> <- ->. apply bind_call_iff in E1. destruct E1 as (_ & _ & _ & ->). split; [reflexivity|]. split; [now apply Hw|]. eauto.
  - right. destruct (call_gmm_regimes _) as [(t', b')|] eqn:E1; [|discriminate]. cbn [bind] in H. injection H as -> <- ->.
    split; [reflexivity|]. split; [|reflexivity]. intros Hn. apply Hw in Hn. discriminate.
Qed.

(** The keywords that GMM_Error_Regimes gets *)
Lemma stage1 kw p : In p (s_names sig_GMM_Error_Regimes) ->
  lookup (forward fwd_GMM_Error true (mk_bound sig_GMM_Error kw)) p =
  if mem p (s_names sig_GMM_Error) then Some (val kw p (dflt sig_GMM_Error p)) else lookup kw p.
Proof. intros Hp. rewrite (good_kept _ _ _ _ kw p gr_good Hp) by tauto. reflexivity. Qed.

Lemma stage1_val kw p d : In p (s_names sig_GMM_Error_Regimes) -> mem p (s_names sig_GMM_Error) = true -> dflt sig_GMM_Error p = d ->
  val (forward fwd_GMM_Error true (mk_bound sig_GMM_Error kw)) p d = val kw p d.
Proof. intros Hp Hm Hd. unfold val at 1. rewrite stage1 by exact Hp. rewrite Hm, Hd. reflexivity. Qed.

Theorem C95_gmm_class : forall kw t r b, call_gmm kw = Ok (t, r, b) ->
  t = expected (val kw "estimator" "'het'") (val kw "yend" "None") (val kw "add_wy" "False") /\
  (without_regimes kw -> b_sig b = t_sig t) /\ (~ without_regimes kw -> b_sig b = t_sig_regimes t).
Proof.
  intros kw t r b H. apply gmm_inv in H. destruct H as (Hd & [(-> & Hw & ex & last & Et & ->)|(-> & Hw & H)]).
  - split; [|split; [reflexivity|contradiction]].
    rewrite <- (arg_val sig_GMM_Error kw "estimator" "'het'"), <- (arg_val sig_GMM_Error kw "yend" "None"),
      <- (arg_val sig_GMM_Error kw "add_wy" "False") by (try (apply in_names); vm_compute; reflexivity).
    set (b0 := mk_bound sig_GMM_Error kw) in *. clearbody b0.
    assert (Hdec : known (arg b0 "estimator") \/ ~ known (arg b0 "estimator")).
    { unfold known. rewrite <- !is_lit_eq. destruct (is_lit (arg b0 "estimator") "'het'"), (is_lit (arg b0 "estimator") "'hom'"), (is_lit (arg b0 "estimator") "'kp98'");
        auto; right; intros [E|[E|E]]; discriminate. }
    destruct Hdec as [Hk|Hk].
    + rewrite (gmm_tree_known b0 Hk) in Et. congruence.
    + rewrite (gmm_tree_unknown b0 Hk) in Et. injection Et as <- _ _. destruct (arg b0 "estimator") as [s|u] eqn:Es; [|reflexivity].
      unfold expected. repeat match goal with |- context [match ?x with _ => _ end] => is_var x; destruct x; try reflexivity end;
        exfalso; apply Hk; unfold known; auto.
  - apply C95_gmm_regimes_class in H. destruct H as (Ht & Hs). split; [|split; [contradiction|intros _; exact Hs]].
    rewrite !stage1_val in Ht by (try (apply in_names); vm_compute; reflexivity). exact Ht.
Qed.

(** Every argument reaches the class that runs, with a known estimator, but slx_vars, hard_bound and (without add_wy) regime_lag_sep
    with regimes. *)
Theorem C95_gmm_forwarded : forall kw t r b p v, call_gmm kw = Ok (t, r, b) -> known (val kw "estimator" "'het'") ->
  given kw p v -> param (b_sig b) p ->
  without_regimes kw \/ (p <> "slx_vars" /\ p <> "hard_bound" /\ (p <> "regime_lag_sep" \/ is_combo t = true)) -> has b p v.
Proof.
  intros kw t r b p v H Hk Hg Hp Hor. apply gmm_inv in H. destruct H as (Hd & [(-> & Hw & ex & last & Et & ->)|(-> & Hw & H)]).
  - rewrite gmm_tree_known in Et by (rewrite (arg_val _ kw "estimator" "'het'"); [exact Hk|apply in_names|]; vm_compute; reflexivity). injection Et as _ <- <-.
    cbn [b_sig mk_bound] in Hp. apply has_arg; [exact Hp|exact (good_nodup _ _ _ _ (t_good t))|]. rewrite arg_mk by exact Hp.
    rewrite (good_kept _ _ _ _ kw p (t_good t) Hp) by tauto. rewrite (lookup_some kw p v Hd Hg). now destruct (mem p _).
  - destruct Hor as [Hor|(Hs & Hh & Hor)]; [contradiction|].
    apply (C95_gmm_regimes_forwarded _ t b p v H); try assumption.
    + unfold given. apply lookup_in. apply C95_gmm_regimes_class in H. destruct H as (_ & Hsig). rewrite Hsig in Hp.
      destruct (mem p (s_names sig_GMM_Error_Regimes)) eqn:E.
      * rewrite stage1 by now apply in_names. unfold val. rewrite (lookup_some kw p v Hd Hg). destruct (mem p (s_names sig_GMM_Error)); reflexivity.
      * rewrite lookup_forward. assert (Ef : forallb (fun k => mem k (s_names sig_GMM_Error_Regimes)) (map fst fwd_GMM_Error) = true) by (vm_compute; reflexivity).
        destruct (lookup fwd_GMM_Error p) as [q|] eqn:El.
        -- apply lookup_in in El. rewrite forallb_forall in Ef. rewrite Ef in E; [discriminate|]. apply in_map_iff. now exists (p, q).
        -- cbn [andb].
           assert (Ep : forallb (fun k => (mem k (s_names sig_GMM_Error_Regimes) || negb (mem k (s_names sig_GMM_Error)) || String.eqb k "slx_vars" || String.eqb k "hard_bound")%bool)
              (s_names (t_sig_regimes t)) = true) by (destruct t; vm_compute; reflexivity).
           rewrite forallb_forall in Ep. specialize (Ep p Hp). rewrite E in Ep. cbn [orb] in Ep. rewrite !orb_true_iff in Ep.
           destruct Ep as [[Ep|Ep]|Ep]; [|apply String.eqb_eq in Ep; contradiction|apply String.eqb_eq in Ep; contradiction].
           rewrite Ep. now apply lookup_some.
Qed.

(** Those never do: they have the defaults of the class for regimes. *)
Theorem C95_gmm_lost_refuted : forall kw t r b, call_gmm kw = Ok (t, r, b) -> ~ without_regimes kw ->
  (param (b_sig b) "slx_vars" -> has b "slx_vars" (Lit "'all'")) /\ (param (b_sig b) "hard_bound" -> has b "hard_bound" (Lit "False")).
Proof.
  intros kw t r b H Hn. apply gmm_inv in H. destruct H as (Hd & [(-> & Hw & _)|(-> & _ & H)]); [contradiction|].
  apply gmmr_inv in H. destruct H as (_ & _ & ex & last & _ & ->). cbn [b_sig mk_bound].
  assert (L : forall p, p = "slx_vars" \/ p = "hard_bound" -> lookup (forward (gmm_fwd_regimes t) ex
     (mk_bound sig_GMM_Error_Regimes (forward fwd_GMM_Error true (mk_bound sig_GMM_Error kw)))) p = None).
  { intros p Hp. rewrite lookup_forward.
    replace (lookup (gmm_fwd_regimes t) p) with (@None string) by (destruct Hp as [-> | ->], t; vm_compute; reflexivity).
    rewrite lookup_forward. replace (lookup fwd_GMM_Error p) with (@None string) by (destruct Hp as [-> | ->]; vm_compute; reflexivity).
    replace (mem p (s_names sig_GMM_Error)) with true by (destruct Hp as [-> | ->]; vm_compute; reflexivity). cbn [andb negb]. now destruct (ex && _)%bool. }
  split; intros Hp; (apply has_arg; [exact Hp|exact (good_nodup _ _ _ _ (tr_good t))|]; rewrite arg_mk by exact Hp; rewrite L by auto);
    apply in_names in Hp || idtac.
  - assert (E : mem "slx_vars" (s_names (t_sig_regimes t)) = true) by now apply mem_In. destruct t; vm_compute in E; try discriminate; vm_compute; reflexivity.
  - assert (E : mem "hard_bound" (s_names (t_sig_regimes t)) = true) by now apply mem_In. destruct t; vm_compute in E; try discriminate; vm_compute; reflexivity.
Qed.

(** An unknown estimator: the heteroskedastic error model without endogenous variables, with all lagged variables (slx_vars is not passed)
    and with the defaults of every parameter that GMM_Error does not have. *)
Theorem C95_gmm_unknown_estimator : forall kw t r b, call_gmm kw = Ok (t, r, b) -> ~ known (val kw "estimator" "'het'") -> without_regimes kw ->
  t = GM_Error_Het /\ has b "slx_vars" (Lit "'All'") /\
  forall p d, default (t_sig t) p d -> ~ param sig_GMM_Error p -> has b p (Lit d).
Proof.
  intros kw t r b H Hk Hw. apply gmm_inv in H. destruct H as (Hd & [(-> & _ & ex & last & Et & ->)|(-> & Hn & H)]); [|contradiction].
  rewrite gmm_tree_unknown in Et by (rewrite (arg_val _ kw "estimator" "'het'"); [exact Hk|apply in_names|]; vm_compute; reflexivity). injection Et as <- <- <-.
  split; [reflexivity|]. assert (Hnd := good_nodup _ _ _ _ (t_good GM_Error_Het)). split.
  - assert (Hp : In "slx_vars" (s_names (t_sig GM_Error_Het))) by (apply in_names; vm_compute; reflexivity).
    apply has_arg; [exact Hp|exact Hnd|]. rewrite arg_mk by exact Hp. rewrite lookup_forward. vm_compute. reflexivity.
  - intros p d Hdef Hnp. assert (Hp : In p (s_names (t_sig GM_Error_Het))) by (apply in_map_iff; now exists (p, Some d)).
    apply has_arg; [exact Hp|exact Hnd|]. rewrite arg_mk by exact Hp. rewrite lookup_forward. cbn [andb].
    assert (Ef : forallb (fun k => mem k (s_names sig_GMM_Error)) (map fst (gmm_fwd GM_Error_Het true)) = true) by (vm_compute; reflexivity).
    destruct (lookup (gmm_fwd GM_Error_Het true) p) as [q|] eqn:El.
    + exfalso. apply Hnp. apply in_names. rewrite forallb_forall in Ef. apply Ef. apply lookup_in in El. apply in_map_iff. now exists (p, q).
    + unfold dflt. now rewrite (lookup_some _ p (Some d) Hnd Hdef).
Qed.
End Thm.

(** ** Concrete calls *)
Definition U (n : nat) : value nat := Usr n.
(** GM_Lag(y, x, w=w, slx_lags=1, slx_vars=[...], regimes=r): accepted, slx_vars is lost *)
Example C95_witness : exists b,
  call WGM_Lag [("y", U 0); ("x", U 1); ("w", U 2); ("slx_lags", U 3); ("slx_vars", U 4); ("regimes", U 5)] = Ok b /\
  arg b "slx_lags" = U 3 /\ arg b "slx_vars" = Lit "'all'" /\ arg b "robust" = Lit "None" /\ arg b "w" = U 2.
Proof. eexists. split; [vm_compute; reflexivity|]. repeat split; vm_compute; reflexivity. Qed.

(** The default of robust is 'white' in GM_Lag_Regimes and None in GM_Lag: the same call gives other standard errors *)
Theorem C95_gm_lag_robust_refuted :
  (exists b, call WGM_Lag [("y", U 0); ("x", U 1); ("w", U 2); ("regimes", U 5)] = Ok b /\ arg b "robust" = Lit "None") /\
  (exists b, bind_call sig_GM_Lag_Regimes [("y", U 0); ("x", U 1); ("w", U 2); ("regimes", U 5)] = Ok b /\ arg b "robust" = Lit "'white'").
Proof. split; eexists; (split; [vm_compute; reflexivity|]); vm_compute; reflexivity. Qed.

(** GMM_Error(y, x, w, yend=.., q=.., regimes=r, estimator='hom', add_wy=True, hard_bound=.., max_iter=..) *)
Example C95_gmm_witness : exists b,
  call_gmm [("y", U 0); ("x", U 1); ("w", U 2); ("yend", U 3); ("q", U 4); ("regimes", U 5); ("estimator", Lit "'hom'"); ("add_wy", Lit "True");
            ("hard_bound", U 6); ("max_iter", U 7)] = Ok (GM_Combo_Hom, true, b) /\
  arg b "max_iter" = U 7 /\ arg b "hard_bound" = Lit "False" /\ arg b "yend" = U 3.
Proof. eexists. split; [vm_compute; reflexivity|]. repeat split; vm_compute; reflexivity. Qed.
