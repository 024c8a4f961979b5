(** Model of monte_carlo_tag, select.py 1237-1396. *)
From Verif Require Import Prelude Dict Keys MaskTypes SpecMask Mask SpecArray Arrays SpecHard Hard SpecReal SpecAssign RealBase Kinem Par DeltaR Assign.

(** Truth value of an optional sequence. *)
Definition truthy (l : option (list Z)) : bool := match l with Some (_ :: _) => true | _ => false end.
Definition items (l : option (list Z)) : list Z := match l with Some x => x | None => [] end.

(** [portions], lines 1352-1356. *)
Definition portions (intermediate outgoing : bool) : list string :=
  (if outgoing then ["outgoing"] else [])%string ++ (if intermediate then ["intermediate"] else [])%string.

(** Lines 1364-1375: the filters.  [np.abs] of an int32 array wraps at -2^31, that of a Python list
    of codes does not. *)
Definition tag_filter (hard_pmu : list mom) (hard_pdg : list Z) (sign_sensitive : bool) (blacklist whitelist : option (list Z))
  : res (list mom * list Z) :=
  if truthy blacklist && truthy whitelist then Err ValueError
  else
    let list_ := if truthy blacklist then blacklist else whitelist in
    if truthy list_ then
      let hard_pdg_ := if sign_sensitive then hard_pdg else map (fun z => wrap32 (Z.abs z)) hard_pdg in
      let list_ := if sign_sensitive then items list_ else map Z.abs (items list_) in
      let hm := isin hard_pdg_ list_ (match whitelist with None => true | Some _ => false end) in
      if negb (existsb (fun b => b) hm) then Err IndexError
      else
        p <- getkey hard_pmu (KMask hm) ;;
        z <- getkey hard_pdg (KMask hm) ;;
        Ok (p, z)
    else Ok (hard_pmu, hard_pdg).

(** Lines 1350-1390: everything before arg_closest. *)
Definition tag_prepare (status pdg : list Z) (final : list bool) (pmu : list mom) (cluster_masks : list (list bool))
    (clustered : option (list mom)) (intermediate outgoing sign_sensitive : bool) (blacklist whitelist : option (list Z))
  : res (list mom * list Z * list mom) :=
  match cluster_masks with
  | [] => Err ValueError
  | m0 :: _ =>
    match portions intermediate outgoing with
    | [] => Err ValueError
    | ps =>
      g <- (match hard_mask status with MGrp agg kids => select_keys ps agg kids | MArr _ => Err AttributeError end) ;;
      pm <- data g ;;
      hp <- getkey pmu (KMask pm) ;;
      hz <- getkey pdg (KMask pm) ;;
      f <- tag_filter hp hz sign_sensitive blacklist whitelist ;;
      let '(hp, hz) := f in
      cl <- (match clustered with Some c => Ok c | None => getkey pmu (KMask final) end) ;;
      if Nat.ltb (length cluster_masks) (length hp) then Err ValueError
      else if negb (Nat.eqb (length cl) (length m0)) then Err ValueError
      else
        jets <- aggregate_momenta cl cluster_masks ;;
        Ok (hp, hz, jets)
    end
  end.

Section Tag.
  (** The name column of the mcpid table; see Assign.v for [deg]. *)
  Context (name : Z -> string) (deg : nat -> nat -> ext).

  (** Lines 1391-1396: [op.itemgetter] needs at least one index. *)
  Definition tag_finish (cluster_masks : list (list bool)) (hard_pdg : list Z) (idxs : list nat) : res mask :=
    match idxs with
    | [] => Err TypeError
    | _ =>
        tagged <- mapM (get cluster_masks) idxs ;;
        Ok (MGrp "or" (dict_of (combine (pdgs_to_keys (map name hard_pdg)) (map MArr tagged))))
    end.

  (** Both arguments of arg_closest are fresh objects: nothing is cached. *)
  Definition monte_carlo_tag (status pdg : list Z) (final : list bool) (pmu : list mom) (cluster_masks : list (list bool))
      (clustered : option (list mom)) (intermediate outgoing sign_sensitive : bool) (blacklist whitelist : option (list Z))
      (out : res mask) : Prop :=
    match tag_prepare status pdg final pmu cluster_masks clustered intermediate outgoing sign_sensitive blacklist whitelist with
    | Err e => out = Err e
    | Ok (hp, hz, jets) =>
        exists r s', arg_closest deg false hp jets (RapState [] None None) r s' /\
        out = (idxs <- r ;; tag_finish cluster_masks hz idxs)
    end.
End Tag.
