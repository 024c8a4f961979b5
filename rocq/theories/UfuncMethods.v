(** Model of the remaining courses of _array_ufunc (data.py 166-234): ufuncs with two results (divmod), and the methods
    "accumulate", "outer" and "at" (continues ArrayOps.v). *)
From Verif Require Import Prelude Dict Keys MaskTypes Arrays ArrayOps.

(** * Two results: divmod *)

(** numpy's integer floor division and remainder; a zero divisor gives 0 (with a warning). *)
Definition np_floordiv (a b : Z) : Z := if (b =? 0)%Z then 0%Z else (a / b)%Z.
Definition np_mod (a b : Z) : Z := if (b =? 0)%Z then 0%Z else (a mod b)%Z.

(** data.py 223-225: [tuple(class_type(x) for x in result)]. The operation runs in the wider type of the operands ([w]). If the
    second operand is an array of another class, its own __array_ufunc__ computes the inner call and has already put both
    results into ITS class ([onew]); unlike a single result (232) a tuple is not asked for a shape, so there is no error. *)
Definition ufunc_divmod (w : Z -> Z) (new onew : nd Z -> res (nd Z)) (x : nd Z) (o : operand Z) : res (nd Z * nd Z) :=
  let run y := q <- nd_bin (fun a b => w (np_floordiv a b)) x y ;; r <- nd_bin (fun a b => w (np_mod a b)) x y ;; Ok (q, r) in
  match o with
  | OArr y | ORaw y => p <- run y ;; q <- new (fst p) ;; r <- new (snd p) ;; Ok (q, r)
  | OOther y => p <- run y ;; q <- onew (fst p) ;; r <- onew (snd p) ;; q <- new q ;; r <- new r ;; Ok (q, r)
  end.
(** PdgArray (1162-1163) with a StatusArray as the other class; StatusArray (2040-2041) with a PdgArray. *)
Definition pdg_divmod : nd Z -> operand Z -> res (nd Z * nd Z) :=
  ufunc_divmod wrap32 (fun r => pdg_new (Plain r)) (fun r => status_new (Plain r)).
Definition status_divmod : nd Z -> operand Z -> res (nd Z * nd Z) :=
  ufunc_divmod wrap32 (fun r => status_new (Plain r)) (fun r => pdg_new (Plain r)).

(** * accumulate *)

(** [ufunc.accumulate] on one axis: the running results. *)
Fixpoint running {A} (f : A -> A -> A) (acc : A) (l : list A) : list A :=
  match l with [] => [] | x :: l => let a := f acc x in a :: running f a l end.
Definition accumulate {A} (f : A -> A -> A) (l : list A) : list A :=
  match l with [] => [] | x :: l => x :: running f x l end.

(** np.add.accumulate on a flat class: numpy accumulates in int64 (exact here), the class constructor casts (234). *)
Definition pdg_accumulate (f : Z -> Z -> Z) (x : list Z) : res (nd Z) := pdg_new (Plain (Vec (accumulate f x))).
(** np.logical_or.accumulate and the like on a mask: a boolean array, so MaskArray(result) (228-229). *)
Definition mask_accumulate (f : bool -> bool -> bool) (x : list bool) : res (nd bool) := mask_new (Plain (Vec (accumulate f x))).
(** On four-momenta, axis 0 (the default): running sums of records, in the class (234); axis 1: along each record, a bare
    array (232-233); other axes: numpy's AxisError, a ValueError, except that -1 and -2 count from the last, and -1 is not 1. *)
Definition pmu_accumulate {A} (f : A -> A -> A) (axis : Z) (x : list (list A)) : res (uout A A) :=
  if ((axis =? 0) || (axis =? -2))%Z then z <- pmu_new (Plain (Mat 4 (accumulate (map2 f) x))) ;; Ok (UArr z)
  else if (axis =? 1)%Z then Ok (URaw (Mat 4 (map (accumulate f) x)))
  else if (axis =? -1)%Z then z <- pmu_new (Plain (Mat 4 (map (accumulate f) x))) ;; Ok (UArr z)
  else Err ValueError.

(** * outer *)

(** [ufunc.outer(x, y)] on flat arrays: the matrix of all pairs, then the class constructor (229, 234). *)
Definition outer {A B C} (f : A -> B -> C) (x : list A) (y : list B) : nd C := Mat (length y) (map (fun a => map (f a) y) x).
Definition pdg_outer (f : Z -> Z -> Z) (x y : list Z) : res (nd Z) := pdg_new (Plain (outer (fun a b => wrap32 (f a b)) x y)).
Definition pdg_outer_cmp (f : Z -> Z -> bool) (x y : list Z) : res (nd bool) := mask_new (Plain (outer f x y)).

(** * at *)

(** [ufunc.at(x, idx, v)]: x[i] = f(x[i], v[j]) for every j-th index i in turn, repeated indices included; all indices are checked first.
    Returns None (226-227); the new contents of [_data] are given. *)
Fixpoint at_loop {A B} (f : A -> B -> A) (x : list A) (ivs : list (nat * B)) : res (list A) :=
  match ivs with
  | [] => Ok x
  | (i, v) :: r => a <- get x i ;; at_loop f (set_nth x i (f a v)) r
  end.
Definition ufunc_at {A B} (f : A -> B -> A) (x : list A) (idx : list Z) (v : nd B) : res (list A) :=
  ps <- mapM (norm_idx (length x)) idx ;;
  match v with
  | Sc b => at_loop f x (map (fun p => (p, b)) ps)
  | Vec l => if Nat.eqb (length l) (length ps) then at_loop f x (combine ps l)
             else match l with [b] => at_loop f x (map (fun p => (p, b)) ps) | _ => Err ValueError end
  | Mat _ _ => Err ValueError
  end.
(** PdgArray: the sum is stored in int32. *)
Definition pdg_at (f : Z -> Z -> Z) : list Z -> list Z -> nd Z -> res (list Z) := ufunc_at (fun a b => wrap32 (f a b)).
