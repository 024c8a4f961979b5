(** Specification of memory sharing: who can observe a write.  Independent of the model in Memory.v. *)
From Coq Require Import List Arith Bool ZArith.
From Verif Require Import Prelude Keys.
Import ListNotations.

(** The classes whose instances wrap one numpy array. *)
Inductive cls := Pdg | Pmu | Color | Helicity | Status | Final | Edges.

(** Four-momenta, colours and edges are two-dimensional arrays: one row per record.  The others are flat. *)
Definition two_dim (c : cls) : bool := match c with Pmu | Color | Edges => true | _ => false end.

(** Positions i, i+1, i+2, ... *)
Definition consecutive (ps : list nat) : Prop := forall j p q, nth_error ps j = Some p -> nth_error ps (S j) = Some q -> q = S p.

(** When [x[k]], which selects the positions [ps], is a window on the memory of [x]: slices of neighbouring records in
    ascending order, and single records of the two-dimensional classes.  Everything else is a copy. *)
Definition shares (c : cls) (k : key) (ps : list nat) : Prop :=
  match k with
  | KSlice _ _ _ => consecutive ps
  | KInt _ => two_dim c = true
  | KMask _ | KList _ => False
  end.

(** Assigning again what has just been assigned has no effect: [f] sets a record, or some of its fields. *)
Definition setter {T} (f : T -> T) : Prop := forall x, f (f x) = f x.

(** [l'] is [l] with the records at the positions [ps] set by [f], all others as they were. *)
Definition updated {T} (f : T -> T) (ps : list nat) (l l' : list T) : Prop :=
  length l' = length l /\
  forall p x, nth_error l p = Some x ->
    (In p ps -> nth_error l' p = Some (f x)) /\ (~ In p ps -> nth_error l' p = Some x).
