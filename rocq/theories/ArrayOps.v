(** Model of numpy operators and reductions on the particle data arrays
    (_array_ufunc, data.py 166-234), of their == / != (_array_eq_prep,
    _array_eq, _array_ne, 237-274), of PdgArray.from_name (1091-1135) and of
    MaskGroup.from_numpy_structured (735-741). *)
From Verif Require Import Prelude Dict Keys MaskTypes Arrays.

(** * numpy broadcasting *)

(** The common extent of two axes. *)
Definition bdim (a b : nat) : res nat :=
  if Nat.eqb a b then Ok a else if Nat.eqb a 1 then Ok b else if Nat.eqb b 1 then Ok a else Err ValueError.

(** Binary operation on two vectors, stretching an extent of one. *)
Definition bc {A B C} (f : A -> B -> C) (x : list A) (y : list B) : res (list C) :=
  if Nat.eqb (length x) (length y) then Ok (map2 f x y)
  else match x, y with
       | [a], _ => Ok (map (f a) y)
       | _, [b] => Ok (map (fun a => f a b) x)
       | _, _ => Err ValueError
       end.

(** Binary ufunc on arrays of at most two dimensions; a vector is aligned with
    the last axis of a matrix. *)
Definition nd_bin {A B C} (f : A -> B -> C) (x : nd A) (y : nd B) : res (nd C) :=
  match x, y with
  | Sc a, Sc b => Ok (Sc (f a b))
  | Sc a, _ => Ok (nd_map (f a) y)
  | _, Sc b => Ok (nd_map (fun a => f a b) x)
  | Vec l, Vec m => r <- bc f l m ;; Ok (Vec r)
  | Vec l, Mat c rows =>
      cc <- bdim (length l) c ;; r <- mapM (bc f l) rows ;; Ok (Mat cc r)
  | Mat c rows, Vec m =>
      cc <- bdim c (length m) ;; r <- mapM (fun l => bc f l m) rows ;; Ok (Mat cc r)
  | Mat c1 r1, Mat c2 r2 =>
      cc <- bdim c1 c2 ;; ps <- bc pair r1 r2 ;;
      r <- mapM (fun p => bc f (fst p) (snd p)) ps ;; Ok (Mat cc r)
  end.

(** * _array_ufunc, method "__call__" with one array of the class *)

(** The second operand: an array of the same class (unwrapped to [_data], 215),
    a number, sequence or ndarray (passed through), or an array of another
    graphicle class, whose own __array_ufunc__ then computes the inner call. *)
Inductive operand (A : Type) :=
| OArr (x : nd A)
| ORaw (x : nd A)
| OOther (x : nd A).
Arguments OArr {A} x. Arguments ORaw {A} x. Arguments OOther {A} x.

Inductive uout (A B : Type) :=
| UArr (x : nd A)          (* an array of the class, 234 *)
| URaw (x : nd B).         (* a bare numpy value, 232-233 *)
Arguments UArr {A B} x. Arguments URaw {A B} x.

(** Non-boolean result, data.py 230-234 (binary ufunc: kwargs has no axis).
    [new] is the class constructor applied to a bare array, [onew] that of the
    other operand's class; the inner call returns an object of that class,
    which has no attribute [shape] (232): AttributeError. *)
Definition ufunc_arith {A B} (f : A -> A -> B) (new onew : nd B -> res (nd A)) (x : nd A)
    (o : operand A) : res (uout A B) :=
  match o with
  | OArr y | ORaw y =>
      r <- nd_bin f x y ;;
      match r with Sc _ => Ok (URaw r) | _ => z <- new r ;; Ok (UArr z) end
  | OOther y =>
      r <- nd_bin f x y ;; _ <- onew r ;; Err AttributeError
  end.

(** Boolean result, data.py 228-229: [MaskArray(result)].  The inner call on
    an array of another class returns a MaskArray, which is not an ndarray and
    has no [shape]: AttributeError. *)
Definition ufunc_cmp {A} (f : A -> A -> bool) (x : nd A) (o : operand A) : res (nd bool) :=
  match o with
  | OArr y | ORaw y => r <- nd_bin f x y ;; mask_new (Plain r)
  | OOther y => r <- nd_bin f x y ;; _ <- mask_new (Plain r) ;; Err AttributeError
  end.

(** The classes.  numpy integer arithmetic keeps the low bits of the exact
    result in the operands' type (scalars must fit that type). *)
Definition pdg_arith (f : Z -> Z -> Z) : nd Z -> operand Z -> res (uout Z Z) :=
  ufunc_arith (fun a b => wrap32 (f a b)) (fun r => pdg_new (Plain r)) (fun r => status_new (Plain r)).
Definition helicity_arith (f : Z -> Z -> Z) : nd Z -> operand Z -> res (uout Z Z) :=
  ufunc_arith (fun a b => wrap16 (f a b)) (fun r => helicity_new (Plain r)) (fun r => status_new (Plain r)).
Definition status_arith (f : Z -> Z -> Z) : nd Z -> operand Z -> res (uout Z Z) :=
  ufunc_arith (fun a b => wrap16 (f a b)) (fun r => status_new (Plain r)) (fun r => helicity_new (Plain r)).
Definition pmu_arith {A} (f : A -> A -> A) : nd A -> operand A -> res (uout A A) :=
  ufunc_arith f (fun r => pmu_new (Plain r)) (fun r => pmu_new (Plain r)).

(** [x / y] on integer classes: np.true_divide gives float64, the class
    constructor casts it back by truncation toward zero (converter, 431).  For
    integers of at most 32 bits the float64 quotient truncates to the exact
    integer quotient: a non-integer quotient a/b is at least 1/|b| away from
    the next integer, the rounding error at most 2^-22/|b|.  (Division by
    zero, cast of an infinity, is excluded from every statement.) *)
Definition helicity_div : nd Z -> operand Z -> res (uout Z Z) :=
  ufunc_arith Z.quot (fun r => helicity_new (Plain r)) (fun r => status_new (Plain r)).
Definition pdg_div : nd Z -> operand Z -> res (uout Z Z) :=
  ufunc_arith Z.quot (fun r => pdg_new (Plain r)) (fun r => status_new (Plain r)).

(** Unary ufuncs (abs, negative), data.py 220 and 230-235. *)
Definition ufunc_unary {A} (f : A -> A) (new : nd A -> res (nd A)) (x : nd A) : res (uout A A) :=
  match nd_map f x with Sc a => Ok (URaw (Sc a)) | r => z <- new r ;; Ok (UArr z) end.
Definition pdg_unary (f : Z -> Z) : nd Z -> res (uout Z Z) :=
  ufunc_unary (fun z => wrap32 (f z)) (fun r => pdg_new (Plain r)).
Definition pmu_unary {A} (f : A -> A) : nd A -> res (uout A A) :=
  ufunc_unary f (fun r => pmu_new (Plain r)).

(** * Reductions: method "reduce" of np.add ([np.sum]) *)

(** [np.add.reduce(x, axis)]; an axis that does not exist is AxisError, a
    subclass of ValueError.  (Floating-point association order is not modelled;
    [add] is arbitrary and folded from the right.) *)
Definition np_sum {A} (add : A -> A -> A) (zero : A) (axis : option Z) (x : nd A) : res (nd A) :=
  let total l := fold_right add zero l in
  match x, axis with
  | _, None => Ok (Sc (total (elems x)))
  | Vec l, Some a => if ((a =? 0) || (a =? -1))%Z then Ok (Sc (total l)) else Err ValueError
  | Mat c rows, Some a =>
      if ((a =? 0) || (a =? -2))%Z then Ok (Vec (fold_right (map2 add) (repeat zero c) rows))
      else if ((a =? 1) || (a =? -1))%Z then Ok (Vec (map total rows))
      else Err ValueError
  | Sc _, Some _ => Err ValueError
  end.

(** data.py 232-234: a 0-d result, or any result when the [axis] argument is
    the integer 1, stays bare; the rest is wrapped in the class. *)
Definition ufunc_sum {A} (add : A -> A -> A) (zero : A) (new : nd A -> res (nd A)) (axis : option Z)
    (x : nd A) : res (uout A A) :=
  r <- np_sum add zero axis x ;;
  match r with
  | Sc _ => Ok (URaw r)
  | _ => if match axis with Some a => (a =? 1)%Z | None => false end then Ok (URaw r)
         else z <- new r ;; Ok (UArr z)
  end.

Definition pmu_sum {A} (add : A -> A -> A) (zero : A) : option Z -> nd A -> res (uout A A) :=
  ufunc_sum add zero (fun r => pmu_new (Plain r)).

(** Flat integer classes and masks are summed in int64, which holds the exact
    total of fewer than 2^31 entries; only the 0-d results exist. *)
Definition flat_sum (x : list Z) : res (uout Z Z) :=
  ufunc_sum Z.add 0%Z (fun r => pdg_new (Plain r)) None (Vec x).
Definition mask_sum (x : list bool) : res (uout Z Z) :=
  ufunc_sum Z.add 0%Z (fun r => pdg_new (Plain r)) None (Vec (map (fun b : bool => if b then 1%Z else 0%Z) x)).

(** * Equality *)

(** _array_eq_prep / _array_eq / _array_ne, data.py 237-274, for the flat
    classes (PdgArray 1168-1176, HelicityArray 1985-1993, StatusArray
    2067-2075): any ArrayBase is unwrapped, everything else goes to numpy
    unchanged.  (numpy >= 1.25: operands that do not broadcast raise
    ValueError.) *)
Definition flat_eq (x : nd Z) (o : operand Z) : res (nd bool) :=
  match o with OArr y | ORaw y | OOther y => r <- nd_bin Z.eqb x y ;; mask_new (Plain r) end.
Definition flat_ne (x : nd Z) (o : operand Z) : res (nd bool) :=
  match o with OArr y | ORaw y | OOther y => r <- nd_bin (fun a b => negb (Z.eqb a b)) x y ;; mask_new (Plain r) end.

(** What a MomentumArray (4 fields) or ColorArray (2 fields) is compared with. *)
Inductive recop (A : Type) :=
| RSame (rows : list (list A))      (* an array of the same class *)
| RFlat (l : list A)                (* a sequence of numbers *)
| RNested (k : nat) (rows : list (list A)) (* a sequence of sequences, each of length [k] *)
| RNotSeq.                          (* any numpy array (structured too), or a number *)
Arguments RSame {A} rows. Arguments RFlat {A} l. Arguments RNested {A} k rows. Arguments RNotSeq {A}.

Section RecEq.
  Context {A : Type} (eqb : A -> A -> bool).

  (** numpy compares structured records field by field. *)
  Fixpoint rec_eqb (x y : list A) : bool :=
    match x, y with
    | [], [] => true
    | a :: x', b :: y' => eqb a b && rec_eqb x' y'
    | _, _ => false
    end.

  (** data.py 245-260 with [c] the number of fields.  A structured dtype never
      equals np.void (248), so every ndarray takes the branch 252-258 and is
      not a Sequence.  [np.array(other).view(dtype)] (259) groups [c] columns
      of the last axis into one record. *)
  Definition eq_prep (c : nat) (o : recop A) : res (nd (list A)) :=
    match o with
    | RSame rows => Ok (Vec rows)
    | RFlat l => if Nat.eqb (length l) c then Ok (Vec [l]) else Err ValueError
    | RNested k rows =>
        if Nat.eqb (length rows) c then
          if Nat.eqb (k mod c) 0 then Ok (Mat (k / c) (map (fun r => chunks (length r) c r) rows))
          else Err ValueError
        else Err ValueError
    | RNotSeq => Err ValueError
    end.

  Definition rec_eq (c : nat) (x : list (list A)) (o : recop A) : res (nd bool) :=
    y <- eq_prep c o ;; r <- nd_bin rec_eqb (Vec x) y ;; mask_new (Plain r).
  Definition rec_ne (c : nat) (x : list (list A)) (o : recop A) : res (nd bool) :=
    y <- eq_prep c o ;; r <- nd_bin (fun a b => negb (rec_eqb a b)) (Vec x) y ;; mask_new (Plain r).
End RecEq.

(** * PdgArray.from_name, data.py 1091-1135, and the [name] property, 1232-1234,
    1241-1244.  [table] is the lookup table of the mcpid package, one
    (code, name) pair per record.  [.loc[names]] lists, for every requested name
    in order, all records of that name; a missing name is a KeyError, which
    from_name turns into ValueError. *)
Definition loc (table : list (Z * string)) (name : string) : res (list Z) :=
  match map fst (filter (fun p => String.eqb (snd p) name) table) with
  | [] => Err KeyError
  | l => Ok l
  end.

Definition from_name (table : list (Z * string)) (names : list string) : res (nd Z) :=
  match mapM (loc table) names with
  | Ok l => pdg_new (Plain (Vec (concat l)))
  | Err _ => Err ValueError
  end.

(** The record of a code; a code outside the table is a KeyError. *)
Definition name_of (table : list (Z * string)) (z : Z) : res string :=
  match find (fun p => Z.eqb (fst p) z) table with Some p => Ok (snd p) | None => Err KeyError end.
Definition pdg_names (table : list (Z * string)) (x : list Z) : res (list string) := mapM (name_of table) x.

(** MaskGroup.from_numpy_structured, data.py 735-741: one mask per field, in
    field order, with the default agg_op "and".  A boolean structured array of
    [length cols] fields is given by its columns. *)
Definition from_numpy_structured (fields : list (string * list bool)) : mask :=
  MGrp "and" (dict_of (map (fun p => (fst p, MArr (snd p))) fields)).
