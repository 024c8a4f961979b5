(** Vocabulary for the adjacency-matrix properties.  Imports no model file. *)
From Verif Require Import Prelude SpecReal SpecDist.
Open Scope R_scope.

(** A rectangular matrix. *)
Definition shape {A} (n m : nat) (M : list (list A)) : Prop := length M = n /\ Forall (fun r => length r = m) M.

(** IEEE comparison [a < b]: false when either is NaN. *)
Definition ieee_lt (a b : ext) : Prop :=
  match a, b with
  | NaN, _ | _, NaN => False
  | NInf, NInf => False | NInf, _ => True
  | Fin x, Fin y => x < y | Fin _, PInf => True | Fin _, NInf => False
  | PInf, _ => False
  end.
(** numpy's sorting order: NaN is last. *)
Definition sort_le (a b : ext) : Prop :=
  match a, b with
  | _, NaN => True | NaN, _ => False
  | NInf, _ => True | _, PInf => True
  | Fin x, Fin y => x <= y
  | _, _ => False
  end.

(** [near] are [k] of the [n] positions, and no position left out has a smaller value than one of them. *)
Definition nearest (n k : nat) (f : nat -> ext) (near : list nat) : Prop :=
  NoDup near /\ length near = k /\ (forall i, In i near -> (i < n)%nat) /\
  forall i i', In i near -> (i' < n)%nat -> ~ In i' near -> sort_le (f i) (f i').
(** The same among the positions other than [self]. *)
Definition nearest_others (n k : nat) (self : nat) (f : nat -> ext) (near : list nat) : Prop :=
  NoDup near /\ length near = k /\ (forall i, In i near -> (i < n)%nat /\ i <> self) /\
  forall i i', In i near -> (i' < n)%nat -> i' <> self -> ~ In i' near -> sort_le (f i) (f i').
