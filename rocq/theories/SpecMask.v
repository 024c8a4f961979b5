(** What the mask properties mean, independently of the code.  Only the type
    of mask values is imported. *)
From Verif Require Import Prelude Dict MaskTypes.

(** The aggregation named by an [_agg_op] string, any letter case. *)
Definition means (agg : string) (o : aggop) : Prop :=
  match o with
  | AND => agg = "and" \/ agg = "AND" \/ agg = "And" \/ agg = "aNd" \/ agg = "anD"
           \/ agg = "ANd" \/ agg = "AnD" \/ agg = "aND"
  | OR => agg = "or" \/ agg = "OR" \/ agg = "Or" \/ agg = "oR"
  | NONE => In agg ["none"; "None"; "nOne"; "NOne"; "noNe"; "NoNe"; "nONe"; "NONe";
                    "nonE"; "NonE"; "nOnE"; "NOnE"; "noNE"; "NoNE"; "nONE"; "NONE"]
  end%string.

(** Element [i] of the mask is True: for a group all / some child is. *)
Inductive true_at (i : nat) : mask -> Prop :=
| T_arr d : nth_error d i = Some true -> true_at i (MArr d)
| T_and agg kids : means agg AND -> (forall k v, In (k, v) kids -> true_at i v) -> true_at i (MGrp agg kids)
| T_or agg kids k v : means agg OR -> In (k, v) kids -> true_at i v -> true_at i (MGrp agg kids).

(** Aggregable masks: leaves of one length, non-empty groups with agg_op and / or. *)
Inductive aggregable (n : nat) : mask -> Prop :=
| A_arr d : length d = n -> aggregable n (MArr d)
| A_grp agg kids : means agg AND \/ means agg OR -> kids <> [] ->
    (forall k v, In (k, v) kids -> aggregable n v) -> aggregable n (MGrp agg kids).

(** The mask reached by a path of names. *)
Fixpoint at_path (m : mask) (p : list string) : option mask :=
  match p with
  | [] => Some m
  | k :: r =>
      match m with
      | MArr _ => None
      | MGrp _ kids => match dget k kids with Some v => at_path v r | None => None end
      end
  end.

(** Every mask below the root with its path, in depth-first order
    (a mask before its descendants, siblings in dictionary order). *)
Fixpoint entries (m : mask) : list (list string * mask) :=
  match m with
  | MArr _ => []
  | MGrp _ kids =>
      flat_map (fun p => ([fst p], snd p) ::
                         map (fun q => (fst p :: fst q, snd q)) (entries (snd p))) kids
  end.

Definition last_name (p : list string) : string := last p EmptyString.
Definition has (k : string) (p : list string) : bool := existsb (String.eqb k) p.
Definition is_arr (m : mask) : bool := match m with MArr _ => true | MGrp _ _ => false end.

(** A path raised by flatten('rise'): it does not pass through 'latent'. *)
Definition risen (e : list string * mask) : bool := negb (has "latent" (fst e)).
(** A leaf of the tree, not reached through a *nested* name 'latent'. *)
Definition leafy_top (e : list string * mask) : bool := is_arr (snd e) && negb (has "latent" (tl (fst e))).

(** What one level of a mask shows: contents of an array, or the agg_op and
    the names of a group. *)
Definition level (m : mask) : list bool + (string * list string) :=
  match m with MArr d => inl d | MGrp agg kids => inr (agg, dkeys kids) end.

(** Every group of the tree has agg_op AND. *)
Inductive only_and : mask -> Prop :=
| OA_arr d : only_and (MArr d)
| OA_grp agg kids : means agg AND -> (forall k v, In (k, v) kids -> only_and v) -> only_and (MGrp agg kids).

(** Structural equality, ignoring agg_op; [ord] = the order of names matters. *)
Inductive same : bool -> mask -> mask -> Prop :=
| S_arr ord d : same ord (MArr d) (MArr d)
| S_ord a1 a2 k1 k2 :
    Forall2 (fun p q => fst p = fst q /\ same true (snd p) (snd q)) k1 k2 ->
    same true (MGrp a1 k1) (MGrp a2 k2)
| S_set a1 a2 k1 k2 k2' :
    Permutation k2 k2' ->
    Forall2 (fun p q => fst p = fst q /\ same false (snd p) (snd q)) k1 k2' ->
    same false (MGrp a1 k1) (MGrp a2 k2).

(** Names, nesting and agg_op of a mask, with leaf contents erased. *)
Fixpoint skeleton (m : mask) : mask :=
  match m with
  | MArr _ => MArr []
  | MGrp agg kids => MGrp agg (map (fun p => (fst p, skeleton (snd p))) kids)
  end.

(** * Insertion-ordered map (C13): names in order of insertion plus a lookup
    function; [run_spec] is the reference behaviour of a dictionary. *)
Inductive dop :=
| DSet (k : string) (m : mask)   (* g[k] = m *)
| DDel (k : string)              (* del g[k] *)
| DGet (k : string)              (* g[k] *)
| DHas (k : string)              (* k in g *)
| DLen                           (* len(g) *)
| DKeys.                         (* list(g) *)

Inductive dout :=
| RNone | RMask (m : mask) | RBool (b : bool) | RNat (n : nat) | RKeys (l : list string) | RKeyError.

Record omap := { o_order : list string; o_val : string -> option mask }.

Definition spec_step (s : omap) (o : dop) : omap * dout :=
  match o with
  | DSet k m =>
      ({| o_order := match o_val s k with Some _ => o_order s | None => o_order s ++ [k] end;
          o_val := fun k' => if String.eqb k' k then Some m else o_val s k' |}, RNone)
  | DDel k =>
      match o_val s k with
      | None => (s, RKeyError)
      | Some _ => ({| o_order := filter (fun k' => negb (String.eqb k' k)) (o_order s);
                      o_val := fun k' => if String.eqb k' k then None else o_val s k' |}, RNone)
      end
  | DGet k => (s, match o_val s k with Some m => RMask m | None => RKeyError end)
  | DHas k => (s, RBool (match o_val s k with Some _ => true | None => false end))
  | DLen => (s, RNat (length (o_order s)))
  | DKeys => (s, RKeys (o_order s))
  end.

Fixpoint run_spec (s : omap) (ops : list dop) : omap * list dout :=
  match ops with
  | [] => (s, [])
  | o :: r => let (s1, x) := spec_step s o in let (s2, xs) := run_spec s1 r in (s2, x :: xs)
  end.
