(** Model of subscripts with Ellipsis, None (numpy.newaxis) and tuples of any length (continues TupleKeys.v). __getitem__ of the array
    classes hands the key to numpy and gives the result to the constructor (data.py MaskArray 524-527, PdgArray 1178-1181, MomentumArray
    1460-1463, ColorArray 1886-1889, HelicityArray 1974-1977, StatusArray 2056-2059, AdjacencyList 2477-2480). *)
From Verif Require Import Prelude Dict Keys MaskTypes Arrays TupleKeys.

(** One item of the subscript; a key that is no tuple is a tuple of one item. *)
Inductive item := IKey (k : key) | IEll | INone.
Definition is_ell (i : item) : bool := match i with IEll => true | _ => false end.
Definition is_none (i : item) : bool := match i with INone => true | _ => false end.
Definition keys_of (its : list item) : list key := flat_map (fun i => match i with IKey k => [k] | _ => [] end) its.
Definition full : key := KSlice None None None.

(** An array of any number of dimensions, its elements in row-major order. *)
Record arr (A : Type) := Arr { shape : list nat; flat : list A }.
Arguments Arr {A} shape flat. Arguments shape {A} a. Arguments flat {A} a.
Definition dims {A} (x : nd A) : list nat := match x with Sc _ => [] | Vec l => [length l] | Mat c rows => [length rows; c] end.
Definition arr_of {A} (x : nd A) : arr A := Arr (dims x) (elems x).

(** numpy: the Ellipsis, or the end, stands for as many [:] as there are axes left.  Two of them, or too many keys: IndexError. *)
Definition expand (ndim : nat) (its : list item) : res (list item) :=
  let given := length (keys_of its) in
  let ells := length (filter is_ell its) in
  if Nat.ltb 1 ells || Nat.ltb ndim given then Err IndexError
  else
    let pad := repeat (IKey full) (ndim - given) in
    Ok (if Nat.eqb ells 0 then its ++ pad else flat_map (fun i => if is_ell i then pad else [i]) its).
(** The keys without the new axes: one for each axis. *)
Definition nd_take {A} (x : nd A) (ks : list key) : res (nd A) :=
  match x, ks with
  | Vec _, [k] => nd_get x k
  | Mat _ _, [k1; k2] => nd_get2 x k1 k2
  | _, _ => Err IndexError
  end.
(** Each None is an axis of length 1 where it stands; an integer has no axis; the other keys have the axes of the result, in order. *)
Fixpoint place (its : list item) (ds : list nat) : list nat :=
  match its with
  | [] => []
  | IKey (KInt _) :: r => place r ds
  | IKey _ :: r => match ds with d :: ds => d :: place r ds | [] => place r [] end
  | INone :: r => 1 :: place r ds
  | IEll :: r => place r ds
  end.
(** numpy moves the common axis of two arrays (or an array and an integer) to the front when a None or an Ellipsis (even of no axes) stands between them. *)
Definition arrayish (k : key) : bool := advanced k || is_int k.
Fixpoint apart (its : list item) : bool :=
  match its with
  | IKey _ :: IKey _ :: _ => false
  | IKey _ :: _ => true
  | _ :: r => apart r
  | [] => false
  end.
Definition moved (its : list item) : bool :=
  match keys_of its with
  | [a; b] => arrayish a && arrayish b && (advanced a || advanced b) && apart its
  | _ => false
  end.
Definition nd_getx {A} (x : nd A) (its : list item) : res (arr A) :=
  full_its <- expand (length (dims x)) its ;;
  y <- nd_take x (keys_of full_its) ;;
  Ok (Arr (if moved its then dims y ++ repeat 1 (length (filter is_none its)) else place full_its (dims y)) (elems y)).

(** The converter, data.py 422-443, of an array of any number of dimensions; [cast] is [np.asarray(_, dtype)]. *)
Definition newx {A B} (cast : A -> B) (num_cols : nat) (a : arr A) : res (arr B) :=
  let is_flat := match shape a with _ :: d :: _ => Nat.eqb d 1 | _ => true end in
  let vals := map cast (flat a) in
  if is_flat && Nat.eqb num_cols 1 then Ok (Arr [length vals] vals)
  else match shape a with
       | [] => Err IndexError
       | n :: rest =>
           let cols := if is_flat then n else hd 0 rest in
           if negb (Nat.eqb n 0) && negb (Nat.eqb cols num_cols) then Err ValueError else Ok (Arr (shape a) vals)
       end.
(** [a.reshape(-1, c)] *)
Definition reshapex {A} (c : nat) (a : arr A) : res (arr A) :=
  if Nat.eqb (length (flat a) mod c) 0 then Ok (Arr [length (flat a) / c; c] (flat a)) else Err ValueError.

Definition pdg_getx (x : nd Z) (its : list item) : res (arr Z) := y <- nd_getx x its ;; newx wrap32 1 y.            (* data.py 1178-1181 *)
Definition helicity_getx (x : nd Z) (its : list item) : res (arr Z) := y <- nd_getx x its ;; newx wrap16 1 y.       (* data.py 1974-1977 *)
Definition status_getx (x : nd Z) (its : list item) : res (arr Z) := y <- nd_getx x its ;; newx wrap16 1 y.         (* data.py 2056-2059 *)
Definition maskarr_getx (x : nd bool) (its : list item) : res (arr bool) := y <- nd_getx x its ;; newx (fun b => b) 1 y. (* data.py 524-527 *)
Definition color_getx (x : nd Z) (its : list item) : res (arr Z) := y <- nd_getx x its ;; newx wrap32 2 y.          (* data.py 1886-1889 *)
Definition pmu_getx {A} (x : nd A) (its : list item) : res (arr A) :=
  y <- nd_getx x its ;; z <- newx (fun a => a) 4 y ;; reshapex 4 z.                                                   (* data.py 1460-1463, 1342-1343 *)
Definition adj_getx (x : nd Z) (its : list item) : res (arr Z) :=
  y <- nd_getx x its ;; z <- reshapex 2 y ;; newx wrap32 2 z.                                                         (* data.py 2477-2480 *)
