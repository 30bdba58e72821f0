(** spreg/spsearch.py: forward and general-to-specific specification searches.
    p-values: rational numbers (every finite float is one) or NaN; comparisons with NaN are False.
    The estimators are oracles: [fit s] is what estimating specification s on the user's data gives, None if the constructor raises (parameter
    out of bounds with hard_bound=True, singular matrices...).  All calls of one search pass the same y, x, w, w_lags and names, so a repeated call
    repeats its outcome.  Printing is not modelled. *)
From Coq Require Import QArith.
From Verif Require Import PyBase.
Local Open Scope string_scope.
Local Open Scope list_scope.
Local Open Scope nat_scope.

Definition pv := option Q.
(** a < b, a <= b, a > b, a >= b on floats *)
Definition plt (a b : pv) : bool := match a, b with Some x, Some y => negb (Qle_bool y x) | _, _ => false end.
Definition ple (a b : pv) : bool := match a, b with Some x, Some y => Qle_bool x y | _, _ => false end.
Definition pgt (a b : pv) : bool := plt b a.
Definition pge (a b : pv) : bool := ple b a.

(** which spatial terms a specification has: WX, Wy, spatial error *)
Record spec := Spec { s_wx : bool; s_wy : bool; s_err : bool }.
Definition OLS := Spec false false false.
Definition LAG := Spec false true false.
Definition ERROR := Spec false false true.
Definition SARSAR := Spec false true true.
Definition SLX := Spec true false false.
Definition SDM := Spec true true false.
Definition SLXERR := Spec true false true.
Definition GNS := Spec true true true.

(** p-values of an estimated model: LM tests of OLS/SLX, column 1 of z_stat, common factor test, AK test (None: AKtest raises) *)
Record data := Data { d_lme : pv; d_lml : pv; d_rlme : pv; d_rlml : pv; d_lmwx : pv; d_rlmwx : pv; d_rlmdurlag : pv; d_spdurbin : pv;
  d_z : list pv; d_cfh : pv; d_ak : option pv }.

Section Search.
Variable fit : spec -> option data.
Definition model := (spec * data)%type.
Definition outcome := res (string * option model).

(** try: finreg = ... except: result = result + msg; finreg = False *)
Definition final (s : spec) (result msg : string) : string * option model :=
  match fit s with Some d => (result, Some (s, d)) | None => (result ++ msg, None) end%string.

(** spreg/spsearch.py:20-302 stge_classic; result = None: the name is unbound *)
Definition classic_choice (d : data) (p : pv) : option string * nat :=
  let p_error := d_lme d in let p_lag := d_lml d in let p_rerror := d_rlme d in let p_rlag := d_rlml d in
  if pge p_lag p && pge p_error p then (Some "OLS", 0)
  else if plt p_lag p && pge p_error p then (Some "LAG", 1)
  else if pge p_lag p && plt p_error p then (Some "ERROR", 2)
  else if plt p_lag p && plt p_error p then
    if plt p_rlag p && pge p_rerror p then (Some "LAGr", 1)
    else if pge p_rlag p && plt p_rerror p then (Some "ERRORr", 2)
    else if plt p_rlag p && plt p_rerror p then
      match (match fit LAG with Some dl => d_ak dl | None => None end) with
      | Some ak =>
        if ple ak p then (Some "SARSAR", 3)
        else if ple p_rlag p_rerror then (Some "LAG_BR", 4)
        else if pgt p_rlag p_rerror then (Some "ERROR_Br", 2) else (None, 0)
      | None => if ple p_rlag p_rerror then (Some "LAG_BR", 1) else (Some "ERROR_Br", 2)
      end
    else
      if ple p_rlag p_rerror then (Some "LAG_Nr", 4)
      else if pgt p_rlag p_rerror then (Some "ERROR_Nr", 2) else (None, 0)
  else (None, 0).
Definition stge_classic (p : pv) (finmod : bool) : outcome :=
  match fit OLS with
  | None => Err "raised by OLS"
  | Some d =>
    let '(result, k) := classic_choice d p in
    match result with
    | None => Err "UnboundLocalError"
    | Some result =>
      if finmod then
        match k with
        | 0 => Ok (result, Some (OLS, d))
        | 1 | 4 => Ok (final LAG result " -- Exception: GM LAG parameters outside bounds")
        | 2 => Ok (final ERROR result " -- Exception: GMM Error parameters outside bounds")
        | _ => Ok (final SARSAR result " -- Exception: SARSAR parameters outside bounds")
        end
      else Ok (result, None)
    end
  end.

(** spreg/spsearch.py:305-493 stge_kb *)
Definition kb_choice (d : data) (p : pv) : string * nat :=
  let p_rlwx := d_rlmwx d in let p_rdury := d_rlmdurlag d in let p_spdur := d_spdurbin d in
  if pgt p_spdur p then ("OLS", 0)
  else if plt p_rlwx p && plt p_rdury p then ("SDM", 3)
  else if plt p_rdury p then ("LAG", 1)
  else if plt p_rlwx p then ("SLX", 2)
  else ("OLS", 0).
Definition stge_kb (p : pv) (finmod : bool) : outcome :=
  match fit OLS with
  | None => Err "raised by OLS"
  | Some d =>
    let '(result, k) := kb_choice d p in
    if finmod then
      match k with
      | 0 => Ok (result, Some (OLS, d))
      | 1 => Ok (final LAG result " -- Exception: GM Lag parameters outside bounds")
      | 2 => match fit SLX with Some ds => Ok (result, Some (SLX, ds)) | None => Err "raised by OLS" end
      | _ => Ok (final SDM result " -- Exception: SDM parameters outside bounds")
      end
    else Ok (result, None)
  end.

(** spreg/spsearch.py:496-780 stge_pre; the index into models is k, but line 700 uses models[1] *)
Definition models : list string := ["OLS"; "LAG"; "ERROR"; "SARSAR"; "SLX"; "SDM"; "SLX-ERR"; "GNS"].
Definition model_at (k : nat) : string := nth k models "".
Definition pre_choice (d : data) (slx : bool) (p : pv) : option (string * nat) :=
  let idv := if slx then 4 else 0 in
  let p_error := d_lme d in let p_lag := d_lml d in let p_rerror := d_rlme d in let p_rlag := d_rlml d in
  let pick k := Some (model_at k, k) in
  if pge p_lag p && pge p_error p then pick (idv + 0)
  else if plt p_lag p && pge p_error p then pick (idv + 1)
  else if pge p_lag p && plt p_error p then pick (idv + 2)
  else if plt p_lag p && plt p_error p then
    if plt p_rlag p && pge p_rerror p then pick (idv + 1)
    else if pge p_rlag p && plt p_rerror p then pick (idv + 2)
    else if plt p_rlag p && plt p_rerror p then
      match (match fit (Spec slx true false) with Some dl => d_ak dl | None => None end) with
      | Some ak =>
        if ple ak p then pick (idv + 3)
        else if ple p_rlag p_rerror then pick (idv + 1)
        else if pgt p_rlag p_rerror then pick (idv + 2) else None
      | None => if ple p_rlag p_rerror then Some (model_at 1, idv + 1) else pick (idv + 2)
      end
    else
      if ple p_rlag p_rerror then pick (idv + 1)
      else if pgt p_rlag p_rerror then pick (idv + 2) else None
  else None.
Definition stge_pre (p : pv) (finmod : bool) : outcome :=
  match fit OLS with
  | None => Err "raised by OLS"
  | Some d0 =>
    let slx := plt (d_lmwx d0) p && plt (d_rlmwx d0) p in
    match fit (Spec slx false false) with
    | None => Err "raised by OLS"
    | Some d =>
      match pre_choice d slx p with
      | None => Err "UnboundLocalError"
      | Some (result, k) =>
        if finmod then
          match k with
          | 0 | 4 => Ok (result, Some (Spec slx false false, d))
          | 1 | 5 => Ok (final (Spec slx true false) result " -- Exception: GM LAG parameters outside bounds")
          | 2 | 6 => Ok (final (Spec slx false true) result " -- Exception: GMM Error parameters outside bounds")
          | _ => Ok (final (Spec slx true true) result " -- Exception: autoregressive parameters outside bounds")
          end
        else Ok (result, None)
      end
    end
  end.

(** numpy max, min, argmax of a non-empty array: NaN propagates; argmax is the first position of the maximum (or of a NaN) *)
Definition is_nan (a : pv) : bool := match a with None => true | _ => false end.
Definition np_max (l : list pv) : pv :=
  match l with
  | [] => None
  | x :: xs => fold_left (fun m y => if is_nan m then m else if is_nan y then y else if plt m y then y else m) xs x
  end.
Definition np_min (l : list pv) : pv :=
  match l with
  | [] => None
  | x :: xs => fold_left (fun m y => if is_nan m then m else if is_nan y then y else if plt y m then y else m) xs x
  end.
Fixpoint argmax_from (l : list pv) (i best : nat) (m : pv) : nat :=
  match l with
  | [] => best
  | y :: ys => if is_nan m then best else if is_nan y || plt m y then argmax_from ys (S i) i y else argmax_from ys (S i) best m
  end.
Definition np_argmax (l : list pv) : nat := match l with [] => 0 | x :: xs => argmax_from xs 1 0 x end.

(** np.array(model.z_stat)[1 + k:, 1] *)
Definition pstats (k : nat) (d : data) : list pv := skipn (1 + k) (d_z d).

(** the tail of gets_gns, lines 1043-1115: estimation by label; finreg so far as argument *)
Definition gns_finish (finmod : bool) (result : string) (finreg : option model) : outcome :=
  if finmod then
    if String.eqb result "OLS" then match fit OLS with Some d => Ok (result, Some (OLS, d)) | None => Err "raised by OLS" end
    else if String.eqb result "SLX" then match fit SLX with Some d => Ok (result, Some (SLX, d)) | None => Err "raised by OLS" end
    else if String.eqb result "ERROR" then Ok (final ERROR result " -- Exception: GMM Error parameters outside bounds")
    else if String.eqb result "LAG" then Ok (final LAG result " -- Exception: GM LAG parameters outside bounds")
    else Ok (result, finreg)
  else Ok (result, finreg).
Definition keep (finmod : bool) (s : spec) (d : data) : option model := if finmod then Some (s, d) else None.
(** spreg/spsearch.py:783-1115 gets_gns; k = number of columns of x *)
Definition gets_gns (k : nat) (p : pv) (finmod : bool) : outcome :=
  match fit GNS with
  | None => Ok ("Exception: GNS parameters out of bounds", None)
  | Some d =>
    let ps := pstats k d in let pk := List.length ps in
    if plt (np_max ps) p then gns_finish finmod "GNS" (keep finmod GNS d)
    else if pge (np_min ps) p then gns_finish finmod "OLS" None
    else
      let cand := np_argmax ps in
      if Nat.eqb cand (pk - 1) then
        match fit SDM with
        | None => Ok ("Exception: SDM parameters out of bounds", None)
        | Some ds =>
          let ps := pstats k ds in let pk := List.length ps in
          if plt (np_max ps) p then
            if plt (d_cfh ds) p then gns_finish finmod "SDM" (keep finmod SDM ds) else gns_finish finmod "ERROR" None
          else if pge (np_min ps) p then gns_finish finmod "OLS" None
          else if Nat.eqb (np_argmax ps) (pk - 1) then gns_finish finmod "SLX" None else gns_finish finmod "LAG" None
        end
      else if Nat.eqb cand (pk - 2) then
        match fit SLXERR with
        | None => Ok ("Exception: SLX Error parameters out of bounds", None)
        | Some ds =>
          let ps := pstats k ds in let pk := List.length ps in
          if plt (np_max ps) p then gns_finish finmod "SLX-ERR" (keep finmod SLXERR ds)
          else if pge (np_min ps) p then gns_finish finmod "OLS" None
          else if Nat.eqb (np_argmax ps) (pk - 1) then gns_finish finmod "SLX" None else gns_finish finmod "ERROR" None
        end
      else
        match fit SARSAR with
        | None => Ok ("Exception: SARSAR parameters out of bounds", None)
        | Some ds =>
          let ps := pstats k ds in let pk := List.length ps in
          if plt (np_max ps) p then gns_finish finmod "SARSAR" (keep finmod SARSAR ds)
          else if pge (np_min ps) p then gns_finish finmod "OLS" None
          else if Nat.eqb (np_argmax ps) (pk - 1) then gns_finish finmod "LAG" None else gns_finish finmod "ERROR" None
        end
  end.

(** spreg/spsearch.py:1118-1413 gets_sdm; AKtest outside a try raises for the caller *)
Definition sdm_finish (finmod : bool) (result : string) (finreg : option model) : outcome :=
  if finmod then
    if String.eqb result "ERROR" then Ok (final ERROR result " -- Exception: GMM Error parameters outside bounds")
    else if String.eqb result "SARSAR" then Ok (final SARSAR result " -- Exception: SARSAR parameters out of bounds")
    else if String.eqb result "SLX-Err" then Ok (final SLXERR result " -- Exception: SLX Error parameters out of bounds")
    else if String.eqb result "GNS" then Ok (final GNS result " -- Exception: GNS parameters out of bounds")
    else Ok (result, finreg)
  else Ok (result, finreg).
Definition gets_sdm (k : nat) (p : pv) (finmod : bool) : outcome :=
  match fit SDM with
  | None => Ok ("Exception: SDM parameters out of bounds", None)
  | Some d =>
    let ps := pstats k d in let pk := List.length ps in
    if plt (np_max ps) p then
      if pge (d_cfh d) p then sdm_finish finmod "ERROR" None
      else match d_ak d with
        | None => Err "raised by AKtest"
        | Some ak => if plt ak p then sdm_finish finmod "GNS" None else sdm_finish finmod "SDM" (keep finmod SDM d)
        end
    else if pge (np_min ps) p then
      match fit OLS with
      | None => Err "raised by OLS"
      | Some d0 => if plt (d_lme d0) p then sdm_finish finmod "ERROR" None else sdm_finish finmod "OLS" (keep finmod OLS d0)
      end
    else if Nat.eqb (np_argmax ps) (pk - 1) then
      match fit SLX with
      | None => Err "raised by OLS"
      | Some ds => if plt (d_lme ds) p then sdm_finish finmod "SLX-Err" None else sdm_finish finmod "SLX" (keep finmod SLX ds)
      end
    else
      match fit LAG with
      | None => Ok ("Exception: LAG parameters out of bounds", None)
      | Some dl =>
        match d_ak dl with
        | None => Err "raised by AKtest"
        | Some ak => if plt ak p then sdm_finish finmod "SARSAR" None else sdm_finish finmod "LAG" (keep finmod LAG dl)
        end
      end
  end.
End Search.
