(** C52: the prediction table. *)
From Coq Require Import Reals.
From mathcomp Require Import all_ssreflect all_algebra.
From Verif Require Import Rinst LinRegModel ProbitModel.
Set Implicit Arguments.
Unset Strict Implicit.
Unset Printing Implicit Defensive.
Import Order.TTheory GRing.Theory Num.Theory.
Local Open Scope ring_scope.

Lemma zsum_count (T : Type) (f : T -> bool) s : zsum (map (fun a => b2z (f a)) s) = (count f s)%:Z.
Proof. by elim: s => //= a s ->; rewrite PoszD; case: (f a). Qed.
Lemma cell_count (f : bool -> bool) (g : int -> bool) (pb : seq bool) (y : seq int) : size y = size pb ->
  zsum (map (fun p : int * int => p.1 * p.2) (zip (map (fun b => b2z (f b)) pb) (map (fun v => b2z (g v)) y)))
  = (count (fun p => f p.2 && g p.1) (zip y pb))%:Z.
Proof.
elim: y pb => [|v y IH] [|b pb] //= [/IH ->]; rewrite PoszD; congr (_ + _); by case: (f b); case: (g v).
Qed.
Lemma count_zip1 (g : int -> bool) (pb : seq bool) (y : seq int) : size y = size pb ->
  count g y = count (fun p : int * bool => g p.1) (zip y pb).
Proof. by elim: y pb => [|v y IH] [|b pb] //= [/IH ->]. Qed.
Lemma count_zip2 (g : bool -> bool) (pb : seq bool) (y : seq int) : size y = size pb ->
  count g pb = count (fun p : int * bool => g p.2) (zip y pb).
Proof. by elim: y pb => [|v y IH] [|b pb] //= [/IH ->]. Qed.
Lemma count_split (T : Type) (a b : T -> bool) s : count b s = (count (fun p => a p && b p) s + count (fun p => ~~ a p && b p) s)%N.
Proof. by elim: s => //= p s ->; rewrite addnACA; congr (_ + _)%N; case: (a p); case: (b p). Qed.

Definition binary (y : seq int) : bool := all (fun v => (v == 0) || (v == 1)) y.
Lemma zsum_binary y : binary y -> zsum y = (count (fun v => v == 1) y)%:Z.
Proof. by elim: y => //= v y IH /andP [/orP [/eqP ->|/eqP ->] /IH ->]. Qed.
Lemma count_binary y : binary y -> (count (fun v => v == 1%Z) y + count (fun v => v == 0%Z) y = size y)%N.
Proof. by elim: y => //= v y IH /andP [B /IH <-]; rewrite addnACA -[RHS]add1n; congr (_ + _)%N; case/orP: B => /eqP ->. Qed.

(** the four cells count what their names say, for any responses *)
Theorem C52_cells : forall y pb, size y = size pb ->
  let t := pred_table y pb in
  [/\ truepos t = (count (fun p : int * bool => p.2 && (p.1 == 1)) (zip y pb))%:Z,
      falsepos t = (count (fun p : int * bool => p.2 && (p.1 == 0)) (zip y pb))%:Z,
      trueneg t = (count (fun p : int * bool => ~~ p.2 && (p.1 == 0)) (zip y pb))%:Z,
      falseneg t = (count (fun p : int * bool => ~~ p.2 && (p.1 == 1)) (zip y pb))%:Z &
      predpos t = (count id pb)%:Z /\ predneg t = (size y - count id pb)%N%:Z].
Proof.
move=> y pb E; rewrite /pred_table /=; split.
- rewrite (cell_count (fun b => b2z b == 1) (fun v => v == 1) E); congr Posz; apply: eq_count => -[v []] //.
- rewrite (cell_count (fun b => b2z b == 1) (fun v => v == 0) E); congr Posz; apply: eq_count => -[v []] //.
- rewrite (cell_count (fun b => b2z b == 0) (fun v => v == 0) E); congr Posz; apply: eq_count => -[v []] //.
- rewrite (cell_count (fun b => b2z b == 0) (fun v => v == 1) E); congr Posz; apply: eq_count => -[v []] //.
- by rewrite (zsum_count id); split=> //; rewrite subzn // E count_size.
Qed.

(** for 0/1 responses the table is a partition of the observations with the right margins *)
(* partial; missing: responses other than 0/1, which Probit does not reject (C52_not_binary_refuted) *)
Theorem C52_partition_partial : forall y pb, size y = size pb -> binary y ->
  let t := pred_table y pb in
  [/\ actpos t = (count (fun v => v == 1) y)%:Z /\ actneg t = (count (fun v => v == 0) y)%:Z,
      truepos t + falseneg t = actpos t /\ trueneg t + falsepos t = actneg t,
      truepos t + falsepos t = predpos t /\ trueneg t + falseneg t = predneg t,
      truepos t + falsepos t + trueneg t + falseneg t = (size y)%:Z &
      [/\ 0 <= truepos t, 0 <= falsepos t, 0 <= trueneg t & 0 <= falseneg t]].
Proof.
move=> y pb E B t; have [C1 C2 C3 C4 [C5 C6]] := C52_cells E; rewrite /t C1 C2 C3 C4 C5 C6.
have A1 : zsum y = (count (fun v => v == 1) y)%:Z := zsum_binary B.
have CB := count_binary B.
have A0 : (size y)%:Z - zsum y = (count (fun v => v == 0) y)%:Z.
  by rewrite A1 -CB PoszD addrAC addrN add0r.
have D1 : actpos (pred_table y pb) = (count (fun v => v == 1) y)%:Z by [].
have D0 : actneg (pred_table y pb) = (count (fun v => v == 0) y)%:Z by [].
rewrite D1 D0.
have S1 := count_split (fun p : int * bool => p.2) (fun p => p.1 == 1) (zip y pb).
have S0 := count_split (fun p : int * bool => p.2) (fun p => p.1 == 0) (zip y pb).
rewrite -(count_zip1 (fun v => v == 1) E) in S1; rewrite -(count_zip1 (fun v => v == 0) E) in S0.
have P1 : count id pb = (count (fun p : int * bool => p.2 && (p.1 == 1%Z)) (zip y pb) + count (fun p : int * bool => p.2 && (p.1 == 0%Z)) (zip y pb))%N.
  rewrite (count_zip2 id E) (count_split (fun p : int * bool => p.1 == 1) _ (zip y pb)); congr (_ + _)%N.
    by apply: eq_count => -[v b] /=; rewrite andbC.
  move: B E; rewrite /binary; clear; elim: y pb => [|v y IH] [|b pb] //= /andP [Hv B] [E]; rewrite IH //; congr (_ + _)%N.
  by case/orP: Hv => /eqP ->; case: b.
split=> //.
- by rewrite -!PoszD S1 S0 [in X in _ /\ X = _]addnC.
- rewrite -!PoszD -P1; split=> //; congr Posz; rewrite P1 -CB S1 S0.
  by rewrite [X in (X - _)%N]addnACA addKn addnC.
- rewrite -!PoszD; congr Posz; rewrite -CB S1 S0 -!addnA; congr (_ + _)%N; by rewrite addnA addnC.
Qed.

(** rates, when defined, lie between 0 and 100; percent correct is the share of agreements *)
Theorem C52_rates : forall y pb, size y = size pb -> binary y ->
  let t := pred_table y pb in
  [/\ (if fit_tpr t is Some a then 0 <= a <= 100%:R else true), (if fit_tnr t is Some a then 0 <= a <= 100%:R else true),
      (if fit_ba t is Some a then 0 <= a <= 100%:R else true) &
      if fit_predpc t (size y) is Some a then
        0 <= a <= 100%:R /\ a = 100%:R * (count (fun p : int * bool => b2z p.2 == p.1) (zip y pb))%:R / (size y)%:R
      else y = [::]].
Proof.
move=> y pb E B t; have [_ [M1 M0] _ S [P1 P2 P3 P4]] := C52_partition_partial E B.
have rt a c : 0 <= a -> 0 <= c -> if ratio a (a + c) is Some r then 0 <= r <= 100%:R else true.
  move=> a0 c0; rewrite /ratio; case: eqP => // /eqP nz.
  have p : 0 < (a + c)%:~R :> rat by rewrite ltr0z lt_neqAle eq_sym nz addr_ge0.
  rewrite divr_ge0 ?mulr_ge0 ?ler0z ?(ltW p) //= ?addr_ge0 // ler_pdivr_mulr // ler_wpmul2l //.
  by rewrite ler_int ler_addl.
have T1 : if fit_tpr t is Some a then 0 <= a <= 100%:R else true by rewrite /fit_tpr -M1; case: ratio (rt _ _ P1 P4).
have T0 : if fit_tnr t is Some a then 0 <= a <= 100%:R else true by rewrite /fit_tnr -M0; case: ratio (rt _ _ P3 P2).
split; [by case: (fit_tpr t) T1|by case: (fit_tnr t) T0|..].
- rewrite /fit_ba; case: (fit_tpr t) T1 => // a /andP [a0 a1]; case: (fit_tnr t) T0 => // b /andP [b0 b1].
  by rewrite /= divr_ge0 ?addr_ge0 //= ler_pdivr_mulr // -[100%:R * _]/(100%:R * (1 + 1)) mulrDr mulr1 ler_add.
- have R := rt (truepos t + trueneg t) (falsepos t + falseneg t) (addr_ge0 P1 P3) (addr_ge0 P2 P4).
  have S' : truepos t + trueneg t + (falsepos t + falseneg t) = (size y)%:Z by rewrite -S -!addrA; congr (_ + _); rewrite addrCA.
  move: R; rewrite S' -/(fit_predpc t (size y)); rewrite /fit_predpc /ratio; case: eqP => [Z _|_ R].
    by case: (y) Z.
  split=> //; congr (_ * _ / _); have [C1 _ C3 _ _] := C52_cells E; rewrite C1 C3 -PoszD -pmulrn; congr (_%:R).
  move: B E; rewrite /binary; clear; elim: y pb => [|v y IH] [|b pb] //= /andP [Hv B] [E].
  rewrite addnACA IH //; congr (_ + _)%N; by case/orP: Hv => /eqP ->; case: b.
Qed.

(** a response vector without ones (or without zeros) has an undefined rate: the code divides by zero *)
Theorem C52_rate_undefined : forall y pb, binary y -> size y = size pb -> 
  (fit_tpr (pred_table y pb) = None <-> all (fun v => v == 0) y) /\ (fit_tnr (pred_table y pb) = None <-> all (fun v => v == 1) y).
Proof.
move=> y pb B E; have [[A1 A0] _ _ _ _] := C52_partition_partial E B; rewrite /fit_tpr /fit_tnr /ratio A1 A0.
have H (f g : int -> bool) : (forall v, (v == 0) || (v == 1) -> f v = ~~ g v) -> ((if (count f y)%:Z == 0 then None else Some (1 : rat)) = None <-> all g y).
  move=> fg; have -> : all g y = (count f y == 0)%N.
    rewrite -leqn0 leqNgt -has_count -all_predC; move: B; rewrite /binary; clear -fg; elim: y => //= v y IH /andP [Hv B].
    by rewrite IH // fg // negbK.
  by rewrite eqz_nat; case: eqP.
split; [rewrite -(H (fun v => v == 1)) | rewrite -(H (fun v => v == 0))]; by [case: ifP | move=> v /orP [] /eqP ->].
Qed.
(** other responses are not rejected and break the table: y = (2, 0) gives two actual positives, no actual negative, one true negative *)
Theorem C52_not_binary_refuted : exists y pb, size y = size pb /\
  let t := pred_table y pb in actpos t = 2%:Z /\ actneg t = 0 /\ trueneg t = 1 /\ truepos t + falseneg t = 0.
Proof. by exists [:: 2%:Z; 0], [:: false; false]. Qed.
Theorem C52_example : binary [:: 1; 0; 1] /\ fit_predpc (pred_table [:: 1; 0; 1] [:: true; true; true]) 3 = Some (200%:R / 3%:R).
Proof. by []. Qed.
