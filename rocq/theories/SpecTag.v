(** Vocabulary for the tagging properties.  Imports no model file. *)
From Verif Require Import Prelude SpecReal SpecHard.

(** A documented filter on PDG codes (never empty). *)
Inductive pdg_filter := NoFilter | Black (l : list Z) | White (l : list Z).
Definition blacklist_of (f : pdg_filter) : option (list Z) := match f with Black l => Some l | _ => None end.
Definition whitelist_of (f : pdg_filter) : option (list Z) := match f with White l => Some l | _ => None end.
Definition filter_ok (f : pdg_filter) : Prop :=
  match f with NoFilter => True | Black l | White l => l <> [] /\ Forall target_ok l end.
Definition keeps (f : pdg_filter) (sign_sensitive : bool) (z : Z) : bool :=
  match f with NoFilter => true | Black l => negb (matches l sign_sensitive z) | White l => matches l sign_sensitive z end.

(** Pythia status 23: outgoing, 22: intermediate. *)
Definition in_portion (intermediate outgoing : bool) (z : Z) : bool :=
  (outgoing && (Z.abs z =? 23)%Z) || (intermediate && (Z.abs z =? 22)%Z).

(** Records of the partons to tag, in record order. *)
Definition tag_rows (status pdg : list Z) (intermediate outgoing : bool) (f : pdg_filter) (sign_sensitive : bool) : list nat :=
  filter (fun i => in_portion intermediate outgoing (nth i status 0%Z) && keeps f sign_sensitive (nth i pdg 0%Z)) (seq 0 (length status)).

(** The momenta that were clustered. *)
Definition clustered_of (pmu : list mom) (final : list bool) (clustered : option (list mom)) : list mom :=
  match clustered with Some c => c | None => compress final pmu end.

(** The first documented check that fails, if any. *)
Definition documented_error (status pdg : list Z) (final : list bool) (pmu : list mom) (masks : list (list bool))
    (clustered : option (list mom)) (intermediate outgoing sign_sensitive : bool) (f : pdg_filter) : option exn :=
  let rows := tag_rows status pdg intermediate outgoing f sign_sensitive in
  match masks with
  | [] => Some ValueError
  | m0 :: _ =>
    if negb (intermediate || outgoing) then Some ValueError
    else if match f with NoFilter => false | _ => match rows with [] => true | _ => false end end then Some IndexError
    else if Nat.ltb (length masks) (length rows) then Some ValueError
    else if Nat.eqb (length (clustered_of pmu final clustered)) (length m0) then None else Some ValueError
  end.

(** [kids] maps, in order, the j-th of the names to the cluster mask of index [nth j idxs]. *)
Definition tagged_by (names : list string) (masks : list (list bool)) (idxs : list nat) (keys : list string) (vals : list (list bool)) : Prop :=
  named names keys /\ length idxs = length names /\ NoDup idxs /\ length vals = length idxs /\
  forall j i, nth_error idxs j = Some i -> exists d, nth_error masks i = Some d /\ nth_error vals j = Some d.
