(** Model of partition_descendants and its helpers, select.py 346-476.

    Simplification: [dist_strat] is a function of the two momenta (row p,
    column h of parton_hadron_distance depends on nothing else: C85), with any
    type of distances compared by [ltb].  PartDist.v instantiates both with the
    code's own distances and comparison, NaN included. *)
From Verif Require Import Prelude Dict Keys MaskTypes SpecMask Mask SpecAdj Arrays Adjacency Descend Hierarchy.

(** [np.argmin] of a vector: the first position of the minimum. *)
Section Argmin.
  Context {D : Type} (ltb : D -> D -> bool).
  Fixpoint argmin_from (best : nat) (bd : D) (i : nat) (l : list D) : nat :=
    match l with
    | [] => best
    | x :: r => if ltb x bd then argmin_from i x (S i) r else argmin_from best bd (S i) r
    end.
  Definition argmin (l : list D) : res nat :=
    match l with [] => Err ValueError | x :: r => Ok (argmin_from 0 x 1 r) end.
End Argmin.

(** [d[m] = v] with as many values as True entries. *)
Fixpoint put (d m v : list bool) : list bool :=
  match d, m with
  | x :: d', true :: m' => match v with y :: v' => y :: put d' m' v' | [] => x :: put d' m' [] end
  | x :: d', false :: m' => x :: put d' m' v
  | _, _ => d
  end.

Section Partition.
  Context {P D : Type} (dist : P -> P -> D) (ltb : D -> D -> bool).

  (** _partition_vertex, select.py 376-421. *)
  Definition partition_vertex (d pcls_in vtx_desc final : list bool) (pmu : list P) : res (list bool) :=
    partons <- getkey pmu (KMask pcls_in) ;;
    ffv <- broadcast2 andb vtx_desc final ;;
    hadrons <- getkey pmu (KMask ffv) ;;
    alloc <- (match partons with
              | [] => Err ValueError
              | _ => mapM (fun h => argmin ltb (map (fun p => dist p h) partons)) hadrons
              end) ;;
    sub <- getkey d (KMask pcls_in) ;;
    let final_from_hard := map (fun a => existsb (Nat.eqb a) (positions sub)) alloc in
    if Nat.eqb (length ffv) (length d) then Ok (put d ffv final_from_hard) else Err IndexError.

  (** One leaf mask at one vertex, lines 465-474. *)
  Definition partition_leaf (es : edges) (final : list bool) (pmu : list P) (v : Z) (vtx_desc d : list bool) : res (list bool) :=
    dsts <- getkey (map snd es) (KMask d) ;;
    if existsb (Z.eqb v) dsts then partition_vertex d (map (fun e => Z.eqb v (snd e)) es) vtx_desc final pmu else Ok d.

  (** The leaves visited by _leaf_mask_iter, select.py 877-891, replaced in place. *)
  Fixpoint map_leaves (f : list bool -> res (list bool)) (m : mask) : res mask :=
    match m with
    | MArr d => d' <- f d ;; Ok (MArr d')
    | MGrp agg kids =>
        kids' <- mapM (fun p => if String.eqb (fst p) "latent" then Ok p
                                else v <- map_leaves f (snd p) ;; Ok (fst p, v)) kids ;;
        Ok (MGrp agg kids')
    end.

  (** partition_descendants, select.py 424-476; the selection of vertices,
      _hadron_vtx_parton_iter 346-373, is lazy in the code: it is done first here
      (its only exception, a length mismatch, hits the first vertex already). *)
  Definition partition_descendants (es : edges) (status : list Z) (final : list bool) (pmu : list P) (hier : mask) : res mask :=
    match hier with
    | MArr _ => Err AttributeError
    | MGrp agg kids =>
        ds <- mapM (fun p => data (snd p)) kids ;;
        from_hard <- np_reduce orb ds ;;
        vtxs <- hadron_vertices es status ;;
        sel <- mapM (fun v => o <- broadcast2 andb (map (fun e => Z.eqb v (snd e)) es) from_hard ;; Ok (any o)) vtxs ;;
        kids' <- foldM (fun kids v =>
            vtx_desc <- vertex_descendants es v ;;
            mapM (fun p => m <- map_leaves (partition_leaf es final pmu v vtx_desc) (snd p) ;; Ok (fst p, m)) kids)
          (compress sel vtxs) kids ;;
        Ok (MGrp agg kids')
    end.
End Partition.
