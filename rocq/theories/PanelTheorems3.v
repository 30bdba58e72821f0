(** C40: wide and long panels. *)
From Coq Require Import Strings.String Strings.Ascii.
From mathcomp Require Import all_ssreflect.
From Verif Require Import PanelModel.
Set Implicit Arguments.
Unset Strict Implicit.
Unset Printing Implicit Defensive.
Local Open Scope nat_scope.

Section C40.
Variables (A : Type) (d : A).
Definition rect (N : nat) (cols : seq (seq A)) : bool := all (fun c => size c == N) cols.
Lemma nth_flat N (ss : seq (seq A)) t i : rect N ss -> i < N -> t < size ss -> nth d (flatten ss) (t * N + i) = nth d (nth [::] ss t) i.
Proof.
move=> R iN; elim: ss t R => [|s ss IH] [|t] //= /andP [/eqP Es R] H; rewrite nth_cat Es.
- by rewrite mul0n add0n iN.
- rewrite mulSn -addnA; have -> : (N + (t * N + i) < N) = false by rewrite ltnNge leq_addr.
  by rewrite addKn IH.
Qed.
Lemma size_flat N (ss : seq (seq A)) : rect N ss -> size (flatten ss) = size ss * N.
Proof. by elim: ss => //= s ss IH /andP [/eqP Es /IH E]; rewrite size_cat Es E mulSn. Qed.
Lemma rect_sub N (ss : seq (seq A)) a b : rect N ss -> rect N (take a (drop b ss)).
Proof. by rewrite -{1}(cat_take_drop b ss) /rect all_cat => /andP [_]; rewrite -{1}(cat_take_drop a (drop b ss)) all_cat => /andP []. Qed.

(** every cell of a wide panel goes to row t N + i of its variable *)
(* partial; missing: a column that is constant in one period is removed before (C40_constant_period_refuted), left over columns are dropped (C40_extra_columns_refuted) *)
Theorem C40_wide_partial : forall wn N ycols xcols ny nx (p : panel A), check_panel wn N ycols xcols ny nx = POk p -> 1 < size ycols ->
  rect N ycols -> rect N xcols ->
  let T := size ycols in let k := size xcols %/ T in
  [/\ p_T p = T, size (p_y p) = T * N, size (p_x p) = k /\ rect (T * N) (p_x p),
      forall i t, i < N -> t < T -> nth d (p_y p) (t * N + i) = nth d (nth [::] ycols t) i &
      forall i t v, i < N -> t < T -> v < k -> nth d (nth [::] (p_x p) v) (t * N + i) = nth d (nth [::] xcols (v * T + t)) i].
Proof.
move=> wn N ycols xcols ny nx p; rewrite /check_panel; case: ifP => // _ H T2; rewrite T2 in H; move: H.
case: ifP => // L; case: fix_name_x => // nx' [<-] Ry Rx; set T := size ycols; set k := size xcols %/ T; rewrite /=.
have B v : v < k -> size (take T (drop (T * v) xcols)) = T.
  move=> vk; rewrite size_takel // size_drop leq_subRL; last first.
    by apply: leq_trans (leq_trunc_div (size xcols) T); rewrite mulnC leq_mul2r (ltnW vk) orbT.
  by rewrite -mulnSr mulnC; apply: leq_trans (leq_trunc_div (size xcols) T); rewrite leq_mul2r vk orbT.
have X v : v < k -> nth [::] [seq wide_block T xcols i | i <- iota 0 k] v = wide_block T xcols v.
  by move=> vk; rewrite (nth_map 0) ?size_iota // nth_iota.
split=> //.
- exact: size_flat.
- split; first by rewrite size_map size_iota.
  rewrite /rect all_map; apply/allP => v; rewrite mem_iota add0n => /andP [_ vk] /=.
  by rewrite (size_flat (rect_sub _ _ Rx)) B.
- by move=> i t iN tT; apply: nth_flat.
- move=> i t v iN tT vk; rewrite X // (nth_flat (rect_sub _ _ Rx)) ?B // nth_take // nth_drop; by rewrite mulnC.
Qed.
(** long panels are not touched *)
Theorem C40_long : forall wn nrow (y : seq A) xcols ny nx (p : panel A), check_panel wn nrow [:: y] xcols ny nx = POk p ->
  [/\ p_y p = y, p_x p = xcols & p_T p = nrow %/ wn].
Proof. by move=> wn nrow y xcols ny nx p; rewrite /check_panel /=; case: ifP => // _; case: fix_name_x => // nx' [<-]. Qed.
Theorem C40_rows : forall wn nrow (ycols xcols : seq (seq A)) ny nx, nrow %% wn <> 0 -> check_panel wn nrow ycols xcols ny nx = PErr PRows.
Proof. by move=> wn nrow ycols xcols ny nx H; rewrite /check_panel; case: eqP H. Qed.
(** names: one for each variable, that of its first period without digits; names that are given per variable are kept *)
Theorem C40_names : forall wn nrow (ycols xcols : seq (seq A)) ny (l : seq string) (p : panel A), check_panel wn nrow ycols xcols ny (Some l) = POk p -> l <> [::] ->
  let k := size (p_x p) in
  exists2 l', p_namex p = Some l' & size l' = k /\
    (if size l == k then l' = l
     else size l = k * p_T p /\ forall v, v < k -> nth ""%string l' v = no_digits (nth ""%string l (v * p_T p))).
Proof.
move=> wn nrow ycols xcols ny l p; rewrite /check_panel; case: ifP => // _.
have G k T (y : seq A) x : size x = k ->
  (match fix_name_x k T (Some l) with PErr e => PErr e | POk nx => POk (Panel y x (fix_name_y ny) nx T) end) = POk p -> l <> [::] ->
  exists2 l', p_namex p = Some l' & size l' = size (p_x p) /\
    (if size l == size (p_x p) then l' = l
     else size l = size (p_x p) * p_T p /\ forall v, v < size (p_x p) -> nth ""%string l' v = no_digits (nth ""%string l (v * p_T p))).
  move=> Ex H ln; move: H; have -> : fix_name_x k T (Some l) = if (size l != k * T) && (size l != k) then PErr PNamesX else if k < size l then POk (Some [seq no_digits (nth ""%string l (i * T)) | i <- iota 0 k]) else POk (Some l) by case: (l) ln.
  case: ifP => // /negbT; rewrite negb_and !negbK => S; case: ifP => [kl|lk] [<-] /=; rewrite Ex.
  - eexists; first reflexivity; rewrite size_map size_iota; split=> //.
    move: S; rewrite (gtn_eqF kl) orbF => /eqP ->; split=> // v vk.
    by rewrite (nth_map 0) ?size_iota // nth_iota.
  - exists l => //; case/orP: S => /eqP S; last by rewrite S eqxx.
    have E : size l = k; last by rewrite E eqxx.
    move: lk; rewrite ltnNge => /negbFE lk; apply/eqP; rewrite eqn_leq lk S /=.
    case: T S => [|T]; last by rewrite mulnS leq_addr.
    by rewrite muln0 => /size0nil.
case: ifP => T2.
- case: ifP => // _; apply: G; by rewrite size_map size_iota.
- exact: G.
Qed.
End C40.

(** no_digits removes exactly the digits *)
Fixpoint has_digit (s : string) : bool := if s is String c s' then is_digit c || has_digit s' else false.
Theorem C40_no_digits : forall s, ~~ has_digit (no_digits s) /\ (~~ has_digit s -> no_digits s = s).
Proof.
elim=> //= c s [H1 H2]; case: ifP => D; rewrite ?D /=; first by split.
by rewrite /= D; split=> // H; rewrite H2.
Qed.
(** the characters removed are 0 to 9 *)
Theorem C40_digits : forall c, is_digit c = List.existsb (Ascii.eqb c) (list_ascii_of_string "0123456789").
Proof. by move=> [[] [] [] [] [] [] [] []]. Qed.
(** wide panels may not have more rows than there are units, but a multiple is accepted *)
Theorem C40_wide_rows_refuted : exists p, check_panel 2 4 [:: [:: 1; 2; 3; 4]; [:: 5; 6; 7; 8]] [:: [:: 1; 2; 3; 4]; [:: 5; 6; 7; 8]] None None = POk p /\
  p_T p = 2 /\ size (p_y p) = 8.
Proof. by eexists; split. Qed.
(** columns left over are dropped silently *)
Theorem C40_extra_columns_refuted : exists p, check_panel 1 1 [:: [:: 1]; [:: 2]] [:: [:: 3]; [:: 4]; [:: 5]] None None = POk p /\ p_x p = [:: [:: 3; 4]].
Proof. by eexists; split. Qed.
(** prepare_panel drops a column that is constant in one period: the second period of x1 then holds the first period of x2 *)
Theorem C40_constant_period_refuted :
  let xcols := [:: [:: 7; 7]; [:: 1; 2]; [:: 30; 40]; [:: 50; 60]] in
  exists p, prepare 2 2 [:: [:: 0; 1]; [:: 1; 5]] xcols None (Some [:: "a1"; "a2"; "b1"; "b2"]%string) = PErr PNamesX /\
    prepare 2 2 [:: [:: 0; 1]; [:: 1; 5]] xcols None None = POk p /\ p_x p = [:: [:: 1; 2; 30; 40]].
Proof. by eexists; split; [reflexivity|split; reflexivity]. Qed.
(** names that differ only in digits collide *)
Theorem C40_names_collide_refuted : exists p,
  check_panel 1 1 [:: [:: 1]; [:: 2]] [:: [:: 3]; [:: 4]; [:: 5]; [:: 6]] None (Some [:: "x1_70"; "x1_80"; "x2_70"; "x2_80"]%string) = POk p /\
  p_namex p = Some [:: "x_"; "x_"]%string.
Proof. by eexists; split; reflexivity. Qed.
Theorem C40_example : exists p,
  check_panel 2 2 [:: [:: 1; 2]; [:: 3; 4]] [:: [:: 5; 6]; [:: 7; 8]; [:: 9; 10]; [:: 11; 12]] (Some (PList [:: "HR70"; "HR80"]%string))
    (Some [:: "RD70"; "RD80"; "PS70"; "PS80"]%string) = POk p /\
  [/\ p_y p = [:: 1; 2; 3; 4], p_x p = [:: [:: 5; 6; 7; 8]; [:: 9; 10; 11; 12]], p_namey p = Some (PStr "HR") & p_namex p = Some [:: "RD"; "PS"]%string].
Proof. by eexists; split; [reflexivity|split; reflexivity]. Qed.
