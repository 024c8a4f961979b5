(** Model of color_singlets (select.py 1001-1064), any_overlap (922-944) and the
    post-processing in fastjet_clusters (58-165). *)
From Verif Require Import Prelude Dict Keys MaskTypes SpecMask Mask Arrays.

(** [itertools.combinations(l, k)]. *)
Fixpoint combinations {A} (k : nat) (l : list A) : list (list A) :=
  match k, l with
  | 0, _ => [[]]
  | S _, [] => []
  | S k', x :: r => map (cons x) (combinations k' r) ++ combinations k r
  end.

(** Equality of [set(a)] and [set(b)]. *)
Definition set_eqb (a b : list Z) : bool :=
  forallb (fun x => existsb (Z.eqb x) b) a && forallb (fun x => existsb (Z.eqb x) a) b.

Definition color_pair_eqb (a b : Z * Z) : bool := Z.eqb (fst a) (fst b) && Z.eqb (snd a) (snd b).

(** Lines 1043-1059.  [leaves] is a flat group of MaskArrays; [it.compress] stops at
    the shorter of its arguments, as [compress] does. *)
Definition singlet_names (leaves : list (string * list bool)) (outgoing : list bool) (color : list (Z * Z))
  : res (list string * list (list string)) :=
  masks <- mapM (fun p => broadcast2 andb outgoing (snd p)) leaves ;;
  let colors := flat_map (fun m => compress m color) masks in
  let colored_mask := map (fun c => negb (color_pair_eqb (0, 0)%Z c)) colors in
  let colored_only := compress colored_mask colors in
  let keys := compress colored_mask (map fst leaves) in
  let named := combine keys colored_only in
  let combos := combinations 2 named ++ combinations 3 named in
  let sing := filter (fun c => set_eqb (map (fun x => fst (snd x)) c) (map (fun x => snd (snd x)) c)) combos in
  Ok (keys, map (map fst) sing).

(** Lines 1043-1064.  A Python set is iterated in an unspecified order: [order] is any
    rearrangement of the symmetric difference. *)
Definition color_singlets (order : list string -> list string)
    (leaves : list (string * list bool)) (status : list Z) (color : list (Z * Z)) (invert : bool) : res (list (list string)) :=
  let outgoing := map (fun z => Z.eqb 23 (wrap16 (Z.abs z))) status in
  r <- singlet_names leaves outgoing color ;;
  let keys := fst r in
  let singlets := snd r in
  if invert then
    let members := nodup String.string_dec (concat singlets) in
    let outcasts := filter (fun k => negb (existsb (String.eqb k) members)) keys ++
                    filter (fun k => negb (existsb (String.eqb k) keys)) members in
    Ok (map (fun k => [k]) (order outcasts))
  else Ok singlets.

(** * any_overlap *)
(** The public attributes of a MaskGroup: fields and members defined in data.py 694-1026,
    and the mixin methods of collections.abc.MutableMapping. *)
Definition group_attributes : list string :=
  ["_mask_arrays"; "_agg_op"; "agg_op"; "from_numpy_structured"; "equal_to"; "copy"; "data"; "bitwise_or"; "bitwise_and";
   "to_dict"; "flatten"; "recursive_drop"; "serialize"; "keys"; "values"; "items"; "get"; "pop"; "popitem"; "clear";
   "update"; "setdefault"]%string.

(** [getattr(group, name)] where [value] is what the attribute yields. *)
Definition getattr {A} (name : string) (value : A) : res A :=
  if existsb (String.eqb name) group_attributes then Ok value else Err AttributeError.

(** Lines 941-944: all pairs, elementwise AND, reduced with OR over both axes.  Unpacking an empty zip makes
    [map] miss its iterables (TypeError). *)
Definition overlap_pairs (ms : list (list bool)) : res bool :=
  match combinations 2 ms with
  | [] => Err TypeError
  | cs => rows <- mapM (fun c => match c with [a; b] => broadcast2 andb a b | _ => Err ValueError end) cs ;;
          Ok (existsb (fun r => existsb (fun b => b) r) rows)
  end.

(** any_overlap, select.py 922-944: reads [masks.dict] first. *)
Definition any_overlap (agg : string) (kids : list (string * mask)) : res bool :=
  d <- getattr "dict"%string kids ;;
  ms <- mapM (fun p => data (snd p)) d ;;
  overlap_pairs ms.

(** * fastjet_clusters *)
Section Jets.
  (** [T] is the type of floats, [J] of jets; [zero] is 0.0.  FastJet's own clustering is the oracle
      that yields [jets]: the inclusive jets above pt_cut with their constituents. *)
  Context {T J : Type} (ltb : T -> T -> bool) (zero : T) (pt abs_eta : J -> T) (parts : J -> list nat).

  (** Value of [top_k]: None, an int or another number. *)
  Inductive topk := TkNone | TkInt (k : Z) | TkOther (below_one : bool).

  (** [mask[jet_idx] = True] on a row of zeros. *)
  Definition constituents (n : nat) (ix : list nat) : res (list bool) :=
    foldM (fun m i => if i <? n then Ok (set_nth m i true) else Err IndexError) ix (repeat false n).

  (** select.py 133-165; [argsort] is numpy's unstable argsort of the jets' pt. *)
  Definition fastjet_clusters (argsort : list T -> list nat) (n : nat) (jets : list J)
      (radius : T) (pt_cut eta_cut : option T) (top_k : topk) : res (list (list bool)) :=
    _ <- (match pt_cut with None => Ok tt | Some c => if ltb c zero then Err ValueError else Ok tt end) ;;
    _ <- (if ltb radius zero then Err ValueError else Ok tt) ;;
    _ <- (match top_k with
          | TkNone => Ok tt
          | TkInt k => if (k <? 1)%Z then Err ValueError else Ok tt
          | TkOther _ => Err ValueError
          end) ;;
    let idx := rev (argsort (map pt jets)) in
    sel <- mapM (get jets) idx ;;
    sel <- (match eta_cut with
            | None => Ok sel
            | Some c => if ltb c zero then Err ValueError
                        else jet_pmus <- mapM (get jets) idx ;;
                             getkey sel (KMask (map (fun j => ltb (abs_eta j) c) jet_pmus))
            end) ;;
    let sel := match top_k with TkInt k => firstn (Z.to_nat k) sel | _ => sel end in
    mapM (fun j => constituents n (parts j)) sel.
End Jets.
