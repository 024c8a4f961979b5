(** Model of subscripts that are tuples, [x[k1, k2]]: __getitem__ of the array
    classes hands the tuple to numpy and gives the result to the constructor
    (data.py MaskArray 524-527, PdgArray 1178-1181, MomentumArray 1460-1463,
    ColorArray 1886-1889, HelicityArray 1974-1977, StatusArray 2056-2059,
    AdjacencyList 2477-2480). *)
From Verif Require Import Prelude Dict Keys MaskTypes Arrays.

(** Masks and integer arrays are "advanced" keys. *)
Definition advanced (k : key) : bool := match k with KMask _ | KList _ => true | _ => false end.
Definition is_int (k : key) : bool := match k with KInt _ => true | _ => false end.

(** numpy pairs two advanced keys element by element; one of length 1 is repeated. *)
Definition pair_up (ps qs : list nat) : res (list (nat * nat)) :=
  if Nat.eqb (length ps) (length qs) then Ok (combine ps qs)
  else match ps, qs with
       | [p], _ => Ok (map (fun q => (p, q)) qs)
       | _, [q] => Ok (map (fun p => (p, q)) ps)
       | _, _ => Err IndexError
       end.

(** [_data[k1, k2]], numpy's rules: two advanced keys are paired; otherwise the selected rows and columns
    cross, and an integer removes its axis.  On a one-dimensional array: too many indices, IndexError.
    Simplification: when both keys are wrong, the exception of the first is reported. *)
Definition nd_get2 {A} (x : nd A) (k1 k2 : key) : res (nd A) :=
  match x with
  | Mat c rows =>
      ps <- resolve (length rows) k1 ;; qs <- resolve c k2 ;;
      if advanced k1 && advanced k2 then
        pairs <- pair_up ps qs ;;
        cells <- mapM (fun pq => r <- get rows (fst pq) ;; get r (snd pq)) pairs ;; Ok (Vec cells)
      else
        block <- mapM (fun p => r <- get rows p ;; mapM (get r) qs) ps ;;
        if is_int k1 && is_int k2 then r <- get block 0 ;; a <- get r 0 ;; Ok (Sc a)
        else if is_int k1 then r <- get block 0 ;; Ok (Vec r)
        else if is_int k2 then Ok (Vec (concat block))
        else Ok (Mat (length qs) block)
  | _ => Err IndexError
  end.

(** Then the constructor, as in [Arrays.pmu_get] and its siblings. *)
Definition pmu_get2 {A} (x : nd A) (k1 k2 : key) : res (nd A) := y <- nd_get2 x k1 k2 ;; pmu_new (Plain y).   (* data.py 1460-1463 *)
Definition color_get2 (x : nd Z) (k1 k2 : key) : res (nd Z) := y <- nd_get2 x k1 k2 ;; color_new (Plain y).   (* data.py 1886-1889 *)
Definition adj_get2 (x : nd Z) (k1 k2 : key) : res (nd Z) :=
  y <- nd_get2 x k1 k2 ;; z <- reshape 2 y ;; adj_new (Plain z).                                            (* data.py 2477-2480 *)
Definition pdg_get2 (x : nd Z) (k1 k2 : key) : res (nd Z) := y <- nd_get2 x k1 k2 ;; pdg_new (Plain y).       (* data.py 1178-1181 *)
Definition helicity_get2 (x : nd Z) (k1 k2 : key) : res (nd Z) := y <- nd_get2 x k1 k2 ;; helicity_new (Plain y). (* data.py 1974-1977 *)
Definition status_get2 (x : nd Z) (k1 k2 : key) : res (nd Z) := y <- nd_get2 x k1 k2 ;; status_new (Plain y). (* data.py 2056-2059 *)
Definition maskarr_get2 (x : nd bool) (k1 k2 : key) : res (nd bool) := y <- nd_get2 x k1 k2 ;; mask_new (Plain y). (* data.py 524-527 *)
