(** Model of the particle data arrays: the shared field converter and the
    constructors, subscripts and queries of PdgArray, MomentumArray,
    ColorArray, HelicityArray, StatusArray and AdjacencyList (data.py
    349-452, 1030-2147, 2403-2490). *)
From Verif Require Import Prelude Dict Keys MaskTypes.

(** * numpy arrays of at most two dimensions, with their shape.
    [Mat c rows] has shape [(length rows, c)]; every row has length [c]. *)
Inductive nd (A : Type) :=
| Sc (a : A)
| Vec (l : list A)
| Mat (c : nat) (rows : list (list A)).
Arguments Sc {A} a. Arguments Vec {A} l. Arguments Mat {A} c rows.

Definition nd_ok {A} (x : nd A) : Prop :=
  match x with Mat c rows => Forall (fun r => length r = c) rows | _ => True end.

(** The elements in row-major order. *)
Definition elems {A} (x : nd A) : list A :=
  match x with Sc a => [a] | Vec l => l | Mat _ rows => concat rows end.

Definition nd_map {A B} (f : A -> B) (x : nd A) : nd B :=
  match x with Sc a => Sc (f a) | Vec l => Vec (map f l) | Mat c rows => Mat c (map (map f) rows) end.

(** What a user passes to a constructor: a plain array-like or a structured
    array (field names, one list of field values per record). *)
Inductive inp (A : Type) :=
| Plain (x : nd A)
| Struct (names : list string) (rows : list (list A)).
Arguments Plain {A} x. Arguments Struct {A} names rows.

(** * Storage types.  numpy integer casts keep the low bits. *)
Definition wrap (bits : Z) (z : Z) : Z :=
  ((z + 2 ^ (bits - 1)) mod 2 ^ bits - 2 ^ (bits - 1))%Z.
Definition wrap32 : Z -> Z := wrap 32.
Definition wrap16 : Z -> Z := wrap 16.

(** * Structured input *)

(** data.py 111-121: _MOMENTUM_MAP, _MOMENTUM_ORDER, _EDGE_MAP, _EDGE_ORDER
    (the inverted dictionaries built by _map_invert, 101-108). *)
Definition momentum_map : list (string * string) :=
  [("x", "x"); ("px", "x"); ("y", "y"); ("py", "y"); ("z", "z"); ("pz", "z");
   ("e", "e"); ("pe", "e"); ("E", "e")]%string.
Definition momentum_order : list string := ["x"; "y"; "z"; "e"]%string.
Definition edge_map : list (string * string) :=
  [("in", "src"); ("src", "src"); ("out", "dst"); ("dst", "dst")]%string.
Definition edge_order : list string := ["src"; "dst"]%string.

Definition list_eqb (x y : list string) : bool :=
  if list_eq_dec string_dec x y then true else false.

Definition lookup (d : list (string * string)) (k : string) : res string :=
  match dget k d with Some v => Ok v | None => Err KeyError end.

(** Position of a field name in a dtype (names are distinct). *)
Fixpoint index_of (n : string) (names : list string) : res nat :=
  match names with
  | [] => Err KeyError
  | m :: r => if String.eqb n m then Ok 0 else i <- index_of n r ;; Ok (S i)
  end.

(** [array[[n1, n2, ...]]] on a structured array: those fields, in that order. *)
Definition take_fields {A} (wanted names : list string) (rows : list (list A)) : res (list (list A)) :=
  idx <- mapM (fun n => index_of n names) wanted ;;
  mapM (fun row => mapM (get row) idx) rows.

(** _reorder_pmu and _reorder_edges, data.py 349-374 (identical up to tables). *)
Definition reorder {A} (table : list (string * string)) (order : list string)
    (names : list string) (rows : list (list A)) : res (list string * list (list A)) :=
  if list_eqb names order then Ok (names, rows)
  else
    comps <- mapM (lookup table) names ;;
    let gcl_to_ext := dict_of (combine comps names) in
    wanted <- mapM (lookup gcl_to_ext) order ;;
    rows' <- take_fields wanted names rows ;;
    Ok (wanted, rows').

(** _array_field.converter, data.py 422-443; [cast] is [np.asarray(_, dtype)].
    A 0-d array has no [shape[0]]: IndexError. *)
Definition to_plain {A} (num_cols : nat) (v : inp A) : res (nd A) :=
  match v with
  | Plain x => Ok x
  | Struct names rows =>
      p <- (if Nat.eqb num_cols 4 then reorder momentum_map momentum_order names rows
            else if Nat.eqb num_cols 2 && existsb (fun n => existsb (String.eqb n) (dkeys edge_map)) names
                 then reorder edge_map edge_order names rows
                 else Ok (names, rows)) ;;
      Ok (Mat (length (fst p)) (snd p))         (* structured_to_unstructured *)
  end.

Definition check_shape {A} (num_cols : nat) (a : nd A) : res (nd A) :=
  match a with
  | Sc x => if Nat.eqb num_cols 1 then Ok (Vec [x]) else Err IndexError
  | Vec l =>
      if Nat.eqb num_cols 1 then Ok (Vec l)
      else if negb (Nat.eqb (length l) 0) && negb (Nat.eqb (length l) num_cols) then Err ValueError
      else Ok (Vec l)
  | Mat c rows =>
      if Nat.eqb c 1 then
        if Nat.eqb num_cols 1 then Ok (Vec (concat rows))
        else if negb (Nat.eqb (length rows) 0) && negb (Nat.eqb (length rows) num_cols) then Err ValueError
        else Ok (Mat c rows)
      else if negb (Nat.eqb (length rows) 0) && negb (Nat.eqb c num_cols) then Err ValueError
      else Ok (Mat c rows)
  end.

Definition converter {A B} (cast : A -> B) (num_cols : nat) (v : inp A) : res (nd B) :=
  x <- to_plain num_cols v ;; check_shape num_cols (nd_map cast x).

(** * Constructors *)

Definition pdg_new (v : inp Z) : res (nd Z) := converter wrap32 1 v.            (* 1086 *)
Definition helicity_new (v : inp Z) : res (nd Z) := converter wrap16 1 v.       (* 1934 *)
Definition status_new (v : inp Z) : res (nd Z) := converter wrap16 1 v.         (* 2028 *)
Definition color_new (v : inp Z) : res (nd Z) := converter wrap32 2 v.          (* 1830 *)
Definition adj_new (v : inp Z) : res (nd Z) := converter wrap32 2 v.            (* 2431 *)
Definition mask_new (v : inp bool) : res (nd bool) := converter (fun b => b) 1 v. (* 492 *)

(** [a.reshape(-1, c)] for c > 0: fails unless c divides the size. *)
Fixpoint chunks {A} (fuel c : nat) (l : list A) : list (list A) :=
  match fuel with
  | 0 => []
  | S f => match l with [] => [] | _ => firstn c l :: chunks f c (skipn c l) end
  end.
Definition reshape {A} (c : nat) (x : nd A) : res (nd A) :=
  if Nat.eqb (length (elems x) mod c) 0
  then Ok (Mat c (chunks (length (elems x)) c (elems x))) else Err ValueError.

(** MomentumArray: converter (1338) then __attrs_post_init__ (1342-1343). *)
Definition pmu_new {A} (v : inp A) : res (nd A) := x <- converter (fun a => a) 4 v ;; reshape 4 x.

(** * len, subscript *)

(** [len(_data)] / [_data.shape[0]]; every stored array has a dimension. *)
Definition nd_len {A} (x : nd A) : nat :=
  match x with Sc _ => 0 | Vec l => length l | Mat _ rows => length rows end.

(** [_data[key]]: an integer removes the first axis. *)
Definition nd_get {A} (x : nd A) (k : key) : res (nd A) :=
  match x, k with
  | Sc _, _ => Err IndexError
  | Vec l, KInt i => p <- norm_idx (length l) i ;; a <- get l p ;; Ok (Sc a)
  | Vec l, _ => r <- getkey l k ;; Ok (Vec r)
  | Mat _ rows, KInt i => p <- norm_idx (length rows) i ;; r <- get rows p ;; Ok (Vec r)
  | Mat c rows, _ => r <- getkey rows k ;; Ok (Mat c r)
  end.

(** __getitem__ of each class: [self.__class__(self._data[key])]; PdgArray
    1178-1181, HelicityArray 1974-1977, StatusArray 2056-2059, ColorArray
    1886-1889, MaskArray 524-527, MomentumArray 1460-1463, AdjacencyList
    2477-2480 (with reshape(-1, 2)). *)
Definition pdg_get (x : nd Z) (k : key) : res (nd Z) := y <- nd_get x k ;; pdg_new (Plain y).
Definition helicity_get (x : nd Z) (k : key) : res (nd Z) := y <- nd_get x k ;; helicity_new (Plain y).
Definition status_get (x : nd Z) (k : key) : res (nd Z) := y <- nd_get x k ;; status_new (Plain y).
Definition color_get (x : nd Z) (k : key) : res (nd Z) := y <- nd_get x k ;; color_new (Plain y).
Definition maskarr_get (x : nd bool) (k : key) : res (nd bool) := y <- nd_get x k ;; mask_new (Plain y).
Definition pmu_get {A} (x : nd A) (k : key) : res (nd A) := y <- nd_get x k ;; pmu_new (Plain y).
Definition adj_get (x : nd Z) (k : key) : res (nd Z) :=
  y <- nd_get x k ;; z <- reshape 2 y ;; adj_new (Plain z).

(** * Queries *)

(** PdgArray.mask, data.py 1195-1231.  [target] is converted to int32; np.abs
    on int32 wraps at -2^31; np.isin with invert=blacklist. *)
Definition isin (data target : list Z) (invert : bool) : list bool :=
  map (fun z => xorb (existsb (Z.eqb z) target) invert) data.
Definition pdg_mask (data target : list Z) (blacklist sign_sensitive : bool) : list bool :=
  let t := map wrap32 target in
  let d := if sign_sensitive then data else map (fun z => wrap32 (Z.abs z)) data in
  isin d t blacklist.

(** StatusArray.in_range, data.py 2090-2123. *)
Definition in_range (data : list Z) (lo : Z) (hi : option Z) (sign_sensitive : bool) : list bool :=
  let a := if sign_sensitive then data else map (fun z => wrap16 (Z.abs z)) data in
  let more := map (fun z => lo <=? z)%Z a in
  match hi with
  | None => more
  | Some h => map2 andb more (map (fun z => z <=? h)%Z a)
  end.

(** StatusArray.hard_mask, data.py 2125-2141. *)
Definition hard_mask (data : list Z) : mask :=
  let a := map (fun z => wrap16 (Z.abs z)) data in
  (MGrp "or" [("incoming", MArr (map (Z.eqb 21) a));
             ("intermediate", MArr (map (Z.eqb 22) a));
             ("outgoing", MArr (map (Z.eqb 23) a));
             ("outgoing_nonperturbative_diffraction", MArr (map (Z.eqb 24) a))])%string%Z.

(** ColorArray.color / .anticolor, data.py 1872-1880: the two columns. *)
Definition column {A} (i : nat) (x : nd A) : res (list A) :=
  match x with Mat _ rows => mapM (fun r => get r i) rows | _ => Err ValueError end.
Definition color_of (x : nd Z) : res (list Z) := column 0 x.
Definition anticolor_of (x : nd Z) : res (list Z) := column 1 x.
