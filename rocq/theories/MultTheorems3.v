(** C50: impacts computed from the multipliers. *)
From Coq Require Import Strings.String.
From mathcomp Require Import all_ssreflect all_algebra.
From Verif Require Import LinRegModel LinRegProofs MultModel MultTheorems MultTheorems2.
Set Implicit Arguments.
Unset Strict Implicit.
Unset Printing Implicit Defensive.
Import Order.TTheory GRing.Theory Num.Theory.
Local Open Scope ring_scope.

Section Effects.
Variable R : realFieldType.
Implicit Types (b : seq R) (out : seq row).

(** ** C50_effects_add: whatever the layout, when the multipliers add up so do the effects of every variable *)
Theorem C50_effects_add : forall out b xidx (ati adi aii : R) lags hs mask bt bd bi, ati = adi + aii ->
  sp_effects out b xidx ati adi aii lags hs mask = Some (bt, bd, bi) ->
  size bd = size xidx /\ forall j, (j < minn (size bt) (size xidx))%N -> nth 0 bt j = nth 0 bd j + nth 0 bi j.
Proof.
move=> out b xidx ati adi aii lags hs mask bt bd bi add; rewrite /sp_effects /take_idx.
case: (all _ xidx) => //; case: (ltnP 0 lags) => _; last first.
  case=> <- <- <-; rewrite !size_map; split=> // j; rewrite minnn => H.
  by rewrite !(nth_map 0) ?size_map // -mulrDl add.
case E: (if many_regimes out then _ else _) => [bt'|] //; case=> <- <- <-; rewrite !size_map; split=> // j; rewrite leq_min => /andP[H1 H2].
rewrite [nth 0 [seq p.1 - p.2 | p <- _] j](nth_map (0, 0)); last by rewrite size_zip !size_map leq_min H1.
by rewrite nth_zip_cond size_zip !size_map leq_min H1 H2 /= [RHS]addrC subrK.
Qed.

(** ** fancy-index assignment *)
Lemma size_fold_set (l : seq (nat * R)) (v : seq R) : all (fun p => p.1 < size v)%N l ->
  size (foldl (fun acc p => set_nth 0 acc p.1 p.2) v l) = size v.
Proof.
elim: l v => [|[i c] l IH] v //= /andP[H1 H2].
have S : size (set_nth 0 v i c) = size v by rewrite size_set_nth; apply/maxn_idPr.
by rewrite IH S.
Qed.
Lemma nth_fold_set (l : seq (nat * R)) (v : seq R) i : uniq (unzip1 l) ->
  nth 0 (foldl (fun acc p => set_nth 0 acc p.1 p.2) v l) i = if i \in unzip1 l then nth 0 (unzip2 l) (index i (unzip1 l)) else nth 0 v i.
Proof.
elim: l v => [|[j c] l IH] v //= /andP[H1 H2]; rewrite IH // in_cons; case: (eqVneq i j) => [->|ne] /=.
  by rewrite (negbTE H1) nth_set_nth /= eqxx.
case: (i \in _) => //; by rewrite nth_set_nth /= (negbTE ne).
Qed.
Lemma add_atP (v : seq R) idx (d : seq R) : uniq idx -> all (fun i => i < size v)%N idx -> size d = size idx ->
  exists2 v', add_at v idx d = Some v' & size v' = size v /\
    forall i, (i < size v)%N -> nth 0 v' i = nth 0 v i + (if i \in idx then nth 0 d (index i idx) else 0).
Proof.
move=> u a s; rewrite /add_at a s eqxx /=; eexists; first by reflexivity.
set vals := [seq _ | j <- iota _ _].
have sv : size vals = size idx by rewrite size_map size_iota.
have z1 : unzip1 (zip idx vals) = idx by rewrite unzip1_zip ?sv.
have z2 : unzip2 (zip idx vals) = vals by rewrite unzip2_zip ?sv.
split.
  rewrite size_fold_set //; apply/allP => -[i c] H /=; move/allP: a; apply; rewrite -z1; exact: (map_f fst H).
move=> i Hi; rewrite nth_fold_set z1 ?z2 //; case I: (i \in idx); last by rewrite addr0.
have h : (index i idx < size idx)%N by rewrite index_mem.
rewrite /vals (nth_map 0%N) ?size_iota // nth_iota // add0n nth_index //; congr (_ + _).
case: ifP => // /eqP s1; move: h; rewrite s1; by case: (index i idx).
Qed.

Lemma compressE (A : Type) (m : seq bool) (l : seq A) : compress l m = mask m l.
Proof. elim: m l => [|x m IH] [|a l] //=; by rewrite /compress /=; case: x => /=; rewrite -IH. Qed.

(** ** row positions *)
Lemma idx_catP out1 out2 t : idx_of (out1 ++ out2) t = idx_of out1 t ++ [seq (size out1 + i)%N | i <- idx_of out2 t].
Proof.
rewrite /idx_of size_cat iotaD filter_cat; congr (_ ++ _).
  apply: eq_in_filter => i; rewrite mem_iota add0n /= => H; by rewrite nth_cat H.
have -> : iota (0 + size out1) (size out2) = [seq (size out1 + i)%N | i <- iota 0 (size out2)] by rewrite add0n -iotaDl addn0.
rewrite filter_map; congr (map _ _); apply: eq_filter => i /=.
by rewrite nth_cat ltnNge leq_addr /= addKn.
Qed.
Definition block t rg k : seq row := nseq k (Row t rg false).
Lemma idx_block t t' rg k : idx_of (block t rg k) t' = if String.eqb t t' then iota 0 k else [::].
Proof.
rewrite /idx_of /block size_nseq; case E: (String.eqb t t').
  rewrite -[RHS]filter_predT; apply: eq_in_filter => i; rewrite mem_iota /= => H; by rewrite nth_nseq H.
rewrite -[RHS](filter_pred0 (iota 0 k)); apply: eq_in_filter => i; rewrite mem_iota /= => H; by rewrite nth_nseq H.
Qed.

(** *** the layout of a spatial Durbin model without regimes: constant, k exogenous variables, lags * wk spatial lags of them (lag after lag), then the
    endogenous variables and the spatial lag of y (twosls_sp.py:645-650, ml_lag.py:651-680) *)
Definition durbin_out (k wk lags ke : nat) : seq row :=
  block "o" "0" 1 ++ (block "x" "0" k ++ (block "wx" "0" (wk * lags) ++ (block "yend" "0" ke ++ block "rho" "0" 1))).
Lemma durbin_x k wk lags ke : idx_of (durbin_out k wk lags ke) "x" = iota 1 k.
Proof.
rewrite /durbin_out !idx_catP !idx_block /= !cats0 /block ?size_nseq; by rewrite -iotaDl addn0.
Qed.
Lemma durbin_wx k wk lags ke : idx_of (durbin_out k wk lags ke) "wx" = iota (1 + k) (wk * lags).
Proof.
rewrite /durbin_out !idx_catP !idx_block /= !cats0 /block ?size_nseq -map_comp.
have -> : iota (1 + k) (wk * lags) = [seq ((1 + k) + i)%N | i <- iota 0 (wk * lags)] by rewrite -iotaDl addn0.
by apply: eq_map => i /=; rewrite addnA.
Qed.
Lemma durbin_one k wk lags ke : many_regimes (durbin_out k wk lags ke) = false.
Proof. by rewrite /durbin_out /= !has_cat /block !has_nseq /= !andbF. Qed.
Lemma durbin_o k wk lags ke : has (fun r => String.eqb (r_type r) "o") (durbin_out k wk lags ke).
Proof. by []. Qed.

Lemma lag_loopP b wxidx xind wk (m1 : R) (L : nat) : forall s btot, uniq xind -> all (fun i => i < size btot)%N xind -> size xind = wk ->
  (forall l, (l < s + L)%N -> size (take wk (drop (l * wk) wxidx)) = wk) -> all (fun i => i < size b)%N wxidx ->
  exists2 bt, lag_loop b wxidx xind wk m1 (iota s L) btot = Some bt & size bt = size btot /\
   forall i, (i < size btot)%N -> nth 0 bt i = nth 0 btot i + \sum_(s <= l < s + L) (if i \in xind then m1 * nth 0 b (nth 0%N wxidx (l * wk + index i xind)) else 0).
Proof.
elim: L => [|L IH] s btot u a sz H ab.
  by exists btot => //; split=> // i _; rewrite addn0 big_geq // addr0.
have a1 : all (fun i => i < size b)%N (take wk (drop (s * wk) wxidx)).
  by apply/allP => i /mem_take/mem_drop Hi; move/allP: ab; apply.
have sk : size (take wk (drop (s * wk) wxidx)) = wk by apply: H; rewrite addnS ltnS leq_addr.
rewrite /= /take_idx a1.
set bm := [seq m1 * _ | _ <- _].
have sb : size bm = size xind by rewrite !size_map sk.
case: (add_atP u a sb) => v' -> [s1 s2].
case: (IH s.+1 v' u) => //.
- by rewrite s1.
- by move=> l Hl; apply: H; rewrite addnS -addSn.
move=> bt -> [t1 t2]; exists bt => //; rewrite t1 s1; split=> // i Hi.
rewrite t2 ?s1 // s2 // addSn -addnS -addrA; congr (_ + _).
rewrite [RHS]big_ltn ?addnS ?ltnS ?leq_addr //; congr (_ + _).
case I: (i \in xind) => //.
have h : (index i xind < wk)%N by rewrite -sz index_mem.
by rewrite /bm !(nth_map 0) ?size_map ?sk // (nth_map 0%N) ?sk // nth_take // nth_drop.
Qed.

(** position of variable j among the lagged ones *)
Definition rank (m : seq bool) (j : nat) : nat := count id (take j m).
Lemma mask_iotaP (m : seq bool) s j : (j < size m)%N ->
  ((s + j)%N \in mask m (iota s (size m))) = nth false m j /\ (nth false m j -> index (s + j)%N (mask m (iota s (size m))) = rank m j).
Proof.
elim: m s j => [|x m IH] s [|j] //= H.
  rewrite addn0 /rank /=; case: x => /=; first by rewrite in_cons eqxx.
  split=> //; apply/negbTE/negP => /mem_mask; by rewrite mem_iota ltnn.
have ne : (s == s + j.+1)%N = false by apply/negbTE; rewrite addnS neq_ltn ltnS leq_addr.
case: (IH s.+1 j H) => h1 h2; rewrite addSnnS in h1 h2; rewrite /rank /=; case: x => /=.
  rewrite in_cons eq_sym ne /= h1; split=> // nj; by rewrite h2.
by rewrite h1.
Qed.
Lemma size_mask_iota (m : seq bool) s : size (mask m (iota s (size m))) = count id m.
Proof. by rewrite size_mask // size_iota. Qed.

(** ** C50_effects_durbin: for a model without regimes, whatever subset of the variables is lagged, the total effect of variable j is the total
    multiplier times the sum of its own coefficient and of the coefficients of its lags; the direct effect is the direct multiplier times its own coefficient *)
Theorem C50_effects_durbin : forall k lags ke (m : seq bool) b (ati adi aii : R), (0 < lags)%N -> size m = k ->
  size b = (1 + k + count id m * lags + ke + 1)%N ->
  let out := durbin_out k (count id m) lags ke in
  exists bt bd bi, sp_effects out b (effect_rows out false) ati adi aii lags true (Some m) = Some (bt, bd, bi) /\
  size bt = k /\ size bd = k /\ size bi = k /\
  forall j, (j < k)%N ->
    nth 0 bt j = ati * (nth 0 b (1 + j) + \sum_(0 <= l < lags) (if nth false m j then nth 0 b (1 + k + l * count id m + rank m j) else 0)) /\
    nth 0 bd j = adi * nth 0 b (1 + j) /\ nth 0 bi j = nth 0 bt j - nth 0 bd j.
Proof.
move=> k lags ke m b ati adi aii l0 sm sb out; pose wk := count id m.
have ex : effect_rows out false = iota 1 k by rewrite /effect_rows /= filter_predT /out durbin_x.
rewrite /sp_effects ex /take_idx.
have ax : all (fun i => i < size b)%N (iota 1 k).
  apply/allP => i; rewrite mem_iota => /andP[_ h]; apply: leq_trans h _; by rewrite sb -!addnA leq_add2l leq_addr.
rewrite ax l0 /out durbin_one durbin_o durbin_wx size_iota mulnK // compressE.
set btot := [seq ati * _ | _ <- _]; set bdir := [seq adi * _ | _ <- _].
have st : size btot = k by rewrite !size_map size_iota.
have sd : size bdir = k by rewrite !size_map size_iota.
have xi : [seq pred_wrap (size btot) h | h <- mask m (iota 1 k)] = mask m (iota 0 (size m)).
  rewrite map_mask sm; congr mask; rewrite -[1%N]addn0 iotaDl -map_comp -[RHS]map_id; by apply: eq_map.
rewrite xi -/wk.
case: (@lag_loopP b (iota (1 + k) (wk * lags)) (mask m (iota 0 (size m))) wk ati lags 0 btot).
- exact/mask_uniq/iota_uniq.
- by apply/allP => i /mem_mask; rewrite mem_iota st sm.
- exact: size_mask_iota.
- move=> l; rewrite add0n => hl; rewrite size_take size_drop size_iota; apply/minn_idPl.
  by rewrite [(l * wk)%N]mulnC -mulnBr leq_pmulr // subn_gt0.
- apply/allP => i; rewrite mem_iota => /andP[_ h]; apply: leq_trans h _; by rewrite sb -!addnA !leq_add2l leq_addr.
move=> bt -> [s1 s2]; exists bt, bdir; eexists; split; first by reflexivity.
rewrite s1 st sd size_map size_zip s1 st sd minnn; do 3!split=> //.
move=> j hj.
have bj : nth 0 btot j = ati * nth 0 b (1 + j) by rewrite !(nth_map 0) ?size_map ?size_iota // (nth_map 0%N) ?size_iota // nth_iota.
have dj : nth 0 bdir j = adi * nth 0 b (1 + j) by rewrite !(nth_map 0) ?size_map ?size_iota // (nth_map 0%N) ?size_iota // nth_iota.
split; last first.
  by split=> //; rewrite (nth_map (0, 0)) ?size_zip ?s1 ?st ?sd ?minnn // nth_zip ?s1 ?st ?sd.
rewrite s2 ?st // bj mulrDr; congr (_ + _); rewrite mulr_sumr add0n !big_nat; apply: eq_bigr => l /andP[_ hl].
rewrite -sm in hj; case: (mask_iotaP 0 hj); rewrite add0n => -> h2; case N: (nth false m j); last by rewrite mulr0.
have hr : (rank m j < wk)%N by rewrite /wk -(h2 N) -(size_mask_iota m 0) index_mem; case: (mask_iotaP 0 hj); rewrite add0n => ->.
rewrite h2 // nth_iota; first by rewrite -!addnA.
by apply: (@leq_trans (l * wk + wk)); rewrite ?ltn_add2l // -mulSnr mulnC leq_mul2l hl orbT.
Qed.
(** all variables lagged (slx_vars not a list) *)
Theorem C50_effects_durbin_all : forall k lags ke b (ati adi aii : R) hs, (0 < lags)%N ->
  size b = (1 + k + k * lags + ke + 1)%N ->
  let out := durbin_out k k lags ke in
  exists bt bd bi, sp_effects out b (effect_rows out false) ati adi aii lags hs None = Some (bt, bd, bi) /\
  size bt = k /\ size bd = k /\ size bi = k /\
  forall j, (j < k)%N ->
    nth 0 bt j = ati * (nth 0 b (1 + j) + \sum_(0 <= l < lags) nth 0 b (1 + k + l * k + j)) /\
    nth 0 bd j = adi * nth 0 b (1 + j) /\ nth 0 bi j = nth 0 bt j - nth 0 bd j.
Proof.
move=> k lags ke b ati adi aii hs l0 sb out.
have c : count id (nseq k true) = k by rewrite count_nseq mul1n.
have := @C50_effects_durbin k lags ke (nseq k true) b ati adi aii l0; rewrite c size_nseq => /(_ erefl sb) [bt [bd [bi [H [s1 [s2 [s3 H4]]]]]]].
exists bt, bd, bi; split.
  rewrite -H /sp_effects; case: (take_idx _ _) => // bx; rewrite l0 durbin_one compressE mask_true; first by case: hs.
  by rewrite /effect_rows size_filter durbin_x; apply: leq_trans (count_size _ _) _; rewrite size_iota.
do 3!split=> //; move=> j hj; case: (H4 j hj) => -> h; split=> //; congr (_ * (_ + _)); rewrite !big_nat; apply: eq_bigr => l _.
by rewrite nth_nseq hj /rank take_nseq ?count_nseq ?mul1n // ltnW.
Qed.
(** no lagged variables *)
Theorem C50_effects_lag : forall out b (ati adi aii : R) hs mask, all (fun i => i < size b)%N (effect_rows out false) ->
  sp_effects out b (effect_rows out false) ati adi aii 0 hs mask =
  Some ([seq ati * nth 0 b i | i <- effect_rows out false], [seq adi * nth 0 b i | i <- effect_rows out false], [seq aii * nth 0 b i | i <- effect_rows out false]).
Proof. by move=> out b ati adi aii hs mask H; rewrite /sp_effects /take_idx H /= -!map_comp. Qed.

(** *** the layout with regimes, every coefficient varying: for each regime the constant, the k exogenous variables and their lags, then rows of other kinds *)
Definition regime_block (ct g : string) (k lags : nat) : seq row := Row ct g true :: (block "x" g k ++ block "wx" g (k * lags)).
Definition regimes_out (ct : string) (regs : seq string) (k lags : nat) (tail : seq row) : seq row :=
  flatten [seq regime_block ct g k lags | g <- regs] ++ tail.
Definition pos (k lags g j : nat) : nat := (g * (1 + k + k * lags) + (1 + j))%N.
Lemma er_cat out1 out2 rg : effect_rows (out1 ++ out2) rg = effect_rows out1 rg ++ [seq (size out1 + i)%N | i <- effect_rows out2 rg].
Proof.
rewrite /effect_rows idx_catP filter_cat; congr (_ ++ _).
  apply: eq_in_filter => i; rewrite mem_filter mem_iota add0n => /and3P[_ _ H]; by rewrite nth_cat H.
rewrite filter_map; congr (map _ _); apply: eq_filter => i /=.
by rewrite nth_cat ltnNge leq_addr /= addKn.
Qed.
Lemma er_block t g k rg : effect_rows (block t g k) rg = if String.eqb t "x" then iota 0 k else [::].
Proof.
rewrite /effect_rows idx_block; case: (String.eqb t "x") => //; rewrite -[RHS]filter_predT; apply: eq_in_filter => i; rewrite mem_iota /= => H.
by rewrite nth_nseq H /= andbF.
Qed.
Lemma size_rb ct g k lags : size (regime_block ct g k lags) = (1 + k + k * lags)%N.
Proof. by rewrite /= size_cat /block !size_nseq. Qed.
Lemma er_rb ct g k lags : effect_rows (regime_block ct g k lags) true = iota 1 k.
Proof.
rewrite /regime_block -cat1s er_cat er_cat !er_block [String.eqb _ _]/= [String.eqb _ _]/= cats0.
have -> : effect_rows [:: Row ct g true] true = [::] by rewrite /effect_rows /idx_of /=; case: (String.eqb ct "x").
by rewrite /= -iotaDl addn0.
Qed.
Lemma er_tail tail : all (fun r => ~~ String.eqb (r_type r) "x") tail -> effect_rows tail true = [::].
Proof.
move=> H; rewrite /effect_rows /idx_of; set f := filter _ (iota _ _).
have -> : f = [::]; last by [].
rewrite /f -[RHS](filter_pred0 (iota 0 (size tail))); apply: eq_in_filter => i; rewrite mem_iota add0n /= => h; apply/negbTE.
move/(all_nthP row0): H; exact.
Qed.
Lemma er_regimes ct regs k lags tail : all (fun r => ~~ String.eqb (r_type r) "x") tail ->
  effect_rows (regimes_out ct regs k lags tail) true = [seq pos k lags g j | g <- iota 0 (size regs), j <- iota 0 k].
Proof.
move=> H; rewrite /regimes_out er_cat (er_tail H) [[seq _ | _ <- [::]]]/= cats0.
have G s : [seq (s * (1 + k + k * lags) + i)%N | i <- effect_rows (flatten [seq regime_block ct g k lags | g <- regs]) true] =
           [seq pos k lags g j | g <- iota s (size regs), j <- iota 0 k].
  elim: regs s => [|g regs IH] s; first by [].
  have -> : flatten [seq regime_block ct g k lags | g <- g :: regs] = regime_block ct g k lags ++ flatten [seq regime_block ct g k lags | g <- regs] by [].
  have -> : [seq pos k lags g j | g <- iota s (size (g :: regs)), j <- iota 0 k] = [seq pos k lags s j | j <- iota 0 k] ++ [seq pos k lags g j | g <- iota s.+1 (size regs), j <- iota 0 k] by [].
  rewrite er_cat er_rb map_cat; congr (_ ++ _).
    rewrite -[1%N]addn0 iotaDl -map_comp; exact: eq_map.
  rewrite -IH -map_comp; apply: eq_map => i; rewrite /comp size_rb; move: (1 + k + k * lags)%N => B; by rewrite mulSn addnA [(s * B + B)%N]addnC.
by rewrite -G; rewrite -[LHS]map_id; apply: eq_map => i; rewrite mul0n add0n.
Qed.
Lemma nth_regimes ct regs k lags tail g j : (g < size regs)%N -> (j < k)%N ->
  nth row0 (regimes_out ct regs k lags tail) (pos k lags g j) = Row "x" (nth ""%string regs g) false.
Proof.
rewrite /regimes_out; elim: regs g => [|r regs IH] g // hg hj.
have -> : flatten [seq regime_block ct g k lags | g <- r :: regs] ++ tail = regime_block ct r k lags ++ (flatten [seq regime_block ct g k lags | g <- regs] ++ tail).
  by rewrite catA.
rewrite nth_cat size_rb; case: g hg => [|g] hg.
  have -> : (pos k lags 0 j < 1 + k + k * lags)%N by rewrite /pos mul0n add0n -addnA ltn_add2l; exact: leq_trans hj (leq_addr _ _).
  by rewrite /pos mul0n add0n /= nth_cat size_nseq hj nth_nseq hj.
have -> : (pos k lags g.+1 j < 1 + k + k * lags)%N = false by rewrite /pos mulSn -addnA ltnNge leq_addr.
have -> : (pos k lags g.+1 j - (1 + k + k * lags))%N = pos k lags g j by rewrite /pos mulSn -addnA addKn.
exact: IH.
Qed.
Lemma regime_loopP b xidx w (m1 : R) L : forall s (f : nat -> R), (forall h l, h \in xidx -> (s <= l < s + L)%N -> (h + l.+1 * w < size b)%N) ->
  regime_loop b xidx w m1 (iota s L) [seq f h | h <- xidx] =
  Some [seq f h + \sum_(s <= l < s + L) m1 * nth 0 b (h + l.+1 * w) | h <- xidx].
Proof.
elim: L => [|L IH] s f H /=.
  by congr Some; apply: eq_map => h; rewrite addn0 big_geq // addr0.
have -> : take_idx b [seq (h + s.+1 * w)%N | h <- xidx] = Some [seq nth 0 b (h + s.+1 * w) | h <- xidx].
  rewrite /take_idx -map_comp; have -> // : all (fun i => i < size b)%N [seq (h + s.+1 * w)%N | h <- xidx].
  by apply/allP => i /mapP [h hx ->]; apply: H => //; rewrite leqnn addnS ltnS leq_addr.
have -> : [seq p.1 + m1 * p.2 | p <- zip [seq f h | h <- xidx] [seq nth 0 b (h + s.+1 * w) | h <- xidx]] = [seq f h + m1 * nth 0 b (h + s.+1 * w) | h <- xidx].
  by elim: xidx {H IH} => //= h xs ->.
rewrite (IH s.+1 (fun h => f h + m1 * nth 0 b (h + s.+1 * w))) => [|h l hx /andP[a1 a2]].
  congr Some; apply: eq_map => h; rewrite addSn -addnS [in RHS]big_ltn ?addrA // addnS ltnS leq_addr //.
by apply: H => //; rewrite (ltnW a1) /= addnS -addSn.
Qed.

(** ** C50_effects_regimes_partial: with regimes and every variable lagged, the total effect of variable j in regime g uses exactly the coefficients of that variable
    in that regime: its lag l stands at position pos g (l*k + j) of the coefficient vector *)
(* partial; missing: masks and fixed variables (C50_mask_regimes_refuted, C50_fixed_regimes_refuted) *)
Theorem C50_effects_regimes_partial : forall ct g0 rest k lags tail b (ati adi aii : R) hs mask, (0 < lags)%N -> (0 < size rest)%N ->
  all (fun g => ~~ String.eqb g g0) rest -> all (fun r => ~~ String.eqb (r_type r) "x") tail ->
  let out := regimes_out ct (g0 :: rest) k lags tail in
  let G := (size rest).+1 in
  (size out <= size b)%N ->
  exists bi, sp_effects out b (effect_rows out true) ati adi aii lags hs mask =
    Some ([seq ati * nth 0 b (pos k lags g j) + \sum_(0 <= l < lags) ati * nth 0 b (pos k lags g (l.+1 * k + j)) | g <- iota 0 G, j <- iota 0 k],
          [seq adi * nth 0 b (pos k lags g j) | g <- iota 0 G, j <- iota 0 k], bi).
Proof.
move=> ct g0 rest k lags tail b ati adi aii hs mask l0 r0 un tl out G sz.
have E : effect_rows out true = [seq pos k lags g j | g <- iota 0 G, j <- iota 0 k] by exact: er_regimes.
have so : (G * (1 + k + k * lags) <= size b)%N.
  apply: leq_trans sz; rewrite /out /regimes_out size_cat; apply: leq_trans (leq_addr _ _).
  rewrite size_flatten /shape -map_comp (eq_map (f2 := fun=> (1 + k + k * lags)%N)); last by move=> g; rewrite /comp size_rb.
  by rewrite -[G]/(size (g0 :: rest)); elim: (g0 :: rest) => //= g l IH; rewrite mulSn leq_add2l.
have rng h l : h \in effect_rows out true -> (0 <= l < 0 + lags)%N -> (h + l.+1 * k < size b)%N.
  rewrite E => /allpairsP [[g j] [hg hj ->]] /andP[_]; rewrite add0n => hl; apply: leq_trans so; rewrite [(g, j).1]/= [(g, j).2]/=.
  move: hg hj; rewrite !mem_iota !add0n => /andP[_ hg] /andP[_ hj]; rewrite /pos.
  apply: (@leq_trans (g.+1 * (1 + k + k * lags))); last by rewrite leq_mul2r hg orbT.
  have q : ((1 + j) + l.+1 * k < 1 + k + k * lags)%N.
    by rewrite -!addnA ltn_add2l -addSn leq_add // mulnC leq_mul2l hl orbT.
  by move: q; move: (1 + k + k * lags)%N => B q; rewrite mulSn [X in (_ < X)%N]addnC -addnA ltn_add2l.
have rx : all (fun i => i < size b)%N (effect_rows out true).
  apply/allP => h hx; apply: leq_ltn_trans (rng h 0%N hx _); [exact: leq_addr|exact: l0].
have wch : size [seq i <- effect_rows out true | String.eqb (r_regime (nth row0 out i)) (r_regime (nth row0 out 0))] = k.
  have -> : r_regime (nth row0 out 0) = g0 by [].
  rewrite E size_filter.
  have -> : [seq pos k lags g j | g <- iota 0 G, j <- iota 0 k] = [seq pos k lags 0 j | j <- iota 0 k] ++ [seq pos k lags g j | g <- iota 1 (size rest), j <- iota 0 k] by [].
  rewrite count_cat; have -> : count (fun i => String.eqb (r_regime (nth row0 out i)) g0) [seq pos k lags 0 j | j <- iota 0 k] = k.
    rewrite -[RHS](size_iota 0 k) -(size_map (pos k lags 0)); apply/eqP; rewrite -all_count; apply/allP => i /mapP [j]; rewrite mem_iota => /andP[_ hj] ->.
    by rewrite nth_regimes //=; exact: String.eqb_refl.
  have -> : count (fun i => String.eqb (r_regime (nth row0 out i)) g0) [seq pos k lags g j | g <- iota 1 (size rest), j <- iota 0 k] = 0%N; last exact: addn0.
  apply/eqP; rewrite -leqn0 leqNgt -has_count; apply/hasPn => i /allpairsP [[g j] /= [hg hj ->]].
  move: hg hj; rewrite !mem_iota !add0n => /andP[g1 g2] /= hj; rewrite nth_regimes //=.
  case: g g1 g2 => // g _ g2 /=; move/(all_nthP ""%string): un; apply; exact: g2.
have many : many_regimes out.
  rewrite /many_regimes /out /regimes_out /=; case: rest r0 un {G E so rng rx wch sz out} => // g1 r _ /andP[ne _].
  by rewrite /= !has_cat /= ne !orbT.
rewrite /sp_effects {1}/take_idx rx l0 many wch.
rewrite -[X in regime_loop _ _ _ _ _ X]map_comp (@regime_loopP b _ k ati lags 0 _ rng).
eexists; rewrite E -!map_comp !map_allpairs; congr (Some (_, _, _)).
apply: eq_allpairs => g j /=; rewrite ?add0n; congr (_ + _); apply: eq_bigr => l _; congr (_ * nth 0 b _); rewrite /pos; move: (1 + k + k * lags)%N => B; by rewrite -2!addnA [(j + _)%N]addnC.
Qed.
End Effects.
