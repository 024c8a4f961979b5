(** Model of clusters, select.py 1067-1159. *)
From Verif Require Import Prelude Dict Keys MaskTypes SpecMask Mask SpecArray SpecAdj Arrays SpecHard Hard Hierarchy Partition SelectMisc SpecReal RealBase Kinem Coords.

(** [leaf.data[...] = d], select.py 1156, for the leaf stored under the name [key]: leaf_masks (916-919) collects the
    MaskArray objects themselves, so the write is seen in the tree.  Every leaf of that name (not below a nested
    'latent') is rewritten; the names in a hierarchy are distinct (C43, C45). *)
Fixpoint write_leaf (key : string) (d' : list bool) (name : string) (m : mask) : mask :=
  match m with
  | MArr d => MArr (if String.eqb name key then d' else d)
  | MGrp agg kids =>
      MGrp agg (map (fun p => if String.eqb (fst p) "latent" then p else (fst p, write_leaf key d' (fst p) (snd p))) kids)
  end.
Definition write_kids (key : string) (d' : list bool) (kids : list (string * mask)) : list (string * mask) :=
  map (fun p => (fst p, write_leaf key d' (fst p) (snd p))) kids.

(** The centre of one coloured leaf and its pruning, lines 1150-1156; [.item()] of an array not of length one is
    ValueError. *)
Definition prune_leaf (outgoing : list bool) (pmu : list mom) (radius : R) (leaf : list bool) : res (list bool) :=
  pm <- broadcast2 andb outgoing leaf ;;
  sel <- getkey pmu (KMask pm) ;;
  match sel with
  | [q] => centroid_prune pmu radius (Some leaf) (Some (eta q, phi q))
  | _ => Err ValueError
  end.

Section Clusters.
  (** Particle names, iteration order of Python sets, recursion depth, and the distance of partition_descendants
      with exponent -0.1. *)
  Context {D : Type} (name : Z -> string) (order : list string -> list string) (fuel : nat)
          (dist : mom -> mom -> D) (lt : D -> D -> bool).

  Definition clusters (ev : event) (color : list (Z * Z)) (pmu : list mom) (radius : R) : res mask :=
    hier0 <- hierarchy name fuel ev None ;;
    hier <- partition_descendants dist lt (e_edges ev) (e_status ev) (e_final ev) pmu hier0 ;;
    lm <- leaf_masks hier ;;
    leaves <- match lm with
              | MGrp _ kids => mapM (fun p => match snd p with MArr d => Ok (fst p, d) | MGrp _ _ => Err TypeError end) kids
              | MArr _ => Err TypeError
              end ;;
    color_keys <- color_singlets order leaves (e_status ev) color true ;;
    let outgoing := map (fun z => Z.eqb 23 (wrap16 (Z.abs z))) (e_status ev) in
    kids <- match hier with MGrp _ kids => Ok kids | MArr _ => Err TypeError end ;;
    kids <- foldM (fun kids key =>
              leaf <- match dget key leaves with Some d => Ok d | None => Err KeyError end ;;
              d <- prune_leaf outgoing pmu radius leaf ;;
              Ok (write_kids key d kids)) (concat color_keys) kids ;;
    let agg := match hier with MGrp agg _ => agg | MArr _ => "and"%string end in
    flat <- flatten_rise (recursive_drop "latent" (MGrp agg kids)) ;;
    out <- match flat with
           | MGrp _ kids => mapM (fun p => v <- slice (KMask (e_final ev)) (snd p) ;; Ok (fst p, v)) kids
           | MArr _ => Err TypeError
           end ;;
    Ok (MGrp "or" (dict_of out)).
End Clusters.
