(** Weights restricted to regimes.  spreg/regimes.py:500-607.
    libpysal (not in /repo) supplies the W class, w_subset, w_union, remap_ids; they are modelled below from their documented
    behaviour: neighbour sets are kept, explicit weights are not passed on, so the result is binary until a transform is set. *)
From Verif Require Import PyBase RegimesModel.
From Coq Require Import QArith Qcanon.
Open Scope string_scope.
Open Scope list_scope.
Open Scope nat_scope.

(** libpysal transformations; 'V' and 'D' are not modelled. *)
Inductive transf := TO | TB | TR.

Section W.
Context {ID : Type} (ideq : forall a b : ID, {a = b} + {a <> b}).

(** libpysal W: id_order; for every id its neighbours with their original ('O') weights; the transform in force. *)
Record W := mkW { w_ids : list ID; w_nb : list (ID * list (ID * Qc)); w_tr : transf }.

Fixpoint assoc (i : ID) (l : list (ID * list (ID * Qc))) : option (list (ID * Qc)) :=
  match l with [] => None | (k, v) :: t => if ideq i k then Some v else assoc i t end.

(** w.neighbors[i] with the original weights *)
Definition nbrs (w : W) (i : ID) : list (ID * Qc) := match assoc i (w_nb w) with Some l => l | None => [] end.

Definition qsum (l : list Qc) : Qc := fold_right Qcplus 0%Qc l.

(** w.weights[i] under the transform in force *)
Definition cur (w : W) (i : ID) : list (ID * Qc) :=
  let l := nbrs w i in
  match w_tr w with
  | TO => l
  | TB => map (fun p => (fst p, 1%Qc)) l
  | TR => let s := qsum (map snd l) in
          if Qc_eq_dec s 0 then map (fun p => (fst p, 0%Qc)) l else map (fun p => (fst p, Qcdiv (snd p) s)) l
  end.

(** w.sparse[a, b] *)
Definition wcell (w : W) (a b : nat) : Qc :=
  match nth_error (w_ids w) a, nth_error (w_ids w) b with
  | Some i, Some j => qsum (map snd (filter (fun p => if ideq (fst p) j then true else false) (cur w i)))
  | _, _ => 0%Qc
  end.

(** W(neighbors, id_order=ids): binary, transform 'O' *)
Definition mk_binary (ids : list ID) (nb : list (ID * list ID)) : W :=
  mkW ids (map (fun p => (fst p, map (fun j => (j, 1%Qc)) (snd p))) nb) TO.

(** libpysal.weights.set_operations.w_subset *)
Definition mem (l : list ID) (i : ID) : bool := if in_dec ideq i l then true else false.
Definition w_subset (w : W) (ids : list ID) : W :=
  mk_binary ids (map (fun i => (i, filter (mem ids) (nodup ideq (map fst (nbrs w i))))) ids).

(** w.islands *)
Definition islands (w : W) : list ID := map fst (filter (fun p => match snd p with [] => true | _ => false end) (w_nb w)).

Definition set_transform (t : transf) (w : W) : W := mkW (w_ids w) (w_nb w) t.

(** spreg/regimes.py:500-530 w_regime.  min_n = None or 0: no check.  Returns the weights and whether a warning is given. *)
Definition w_regime (w : W) (regi_ids : list nat) (transform : bool) (min_n : option nat) : res (W * bool) :=
  bind (take_idx (w_ids w) regi_ids) (fun ids =>
    let wr := w_subset w ids in
    if (match min_n with Some m => List.length (w_nb wr) <? m | None => false end) then Err "Exception"
    else let wr' := if transform then set_transform (w_tr w) wr else wr in
         Ok (wr', match islands wr' with [] => false | _ => true end)).

(** libpysal.weights.set_operations.w_union; id_order defaults to the key order *)
Definition key_mem (l : list (ID * list (ID * Qc))) (i : ID) : bool := mem (map fst l) i.
Definition w_union (w1 w2 : W) : W :=
  let n1 := map (fun p => (fst p, if key_mem (w_nb w2) (fst p)
                                  then nodup ideq (map fst (snd p) ++ map fst (nbrs w2 (fst p)))
                                  else map fst (snd p))) (w_nb w1) in
  let n2 := map (fun p => (fst p, map fst (snd p))) (filter (fun p => negb (key_mem (w_nb w1) (fst p))) (w_nb w2)) in
  mk_binary (map fst (n1 ++ n2)) (n1 ++ n2).

(** spreg/regimes.py:577-607 w_regimes_union; [wi] the dictionary of regime weights.  remap_ids with the identity mapping
    only sets the id order. *)
Definition w_regimes_union {R} (w : W) (wi : R -> W) (regimes_set : list R) : res W :=
  match regimes_set with
  | r0 :: r1 :: rest =>
      let u := fold_left (fun u r => w_union u (wi r)) rest (w_union (wi r0) (wi r1)) in
      Ok (mkW (w_ids w) (w_nb u) (w_tr w))
  | _ => Err "IndexError"
  end.

(** spreg/regimes.py:533-574 w_regimes (the deprecated loop), used by the ML and 2SLS spatial lag regimes classes. *)
Definition regi_ids_of {R} (req : forall a b : R, {a = b} + {a <> b}) (regimes : list R) (r : R) : list nat :=
  where_ (fun s => if req s r then true else false) regimes.
Definition w_regimes {R} (req : forall a b : R, {a = b} + {a <> b}) (w : W) (regimes regimes_set : list R) (transform : bool)
    (min_n : option nat) : res (list (R * W) * bool) :=
  bind (mapM (fun r => bind (w_regime w (regi_ids_of req regimes r) transform min_n) (fun p => Ok (r, p))) regimes_set)
       (fun l => Ok (map (fun q => (fst q, fst (snd q))) l, existsb (fun q => snd (snd q)) l)).
End W.
Arguments W : clear implicits.
