(** What a reference shows: the mask value a reader sees through it, and the
    objects it can reach.  Depends only on the heap representation. *)
From Verif Require Import Prelude Dict MaskTypes MaskHeap.

(** The value observed through reference [l] in heap [h]. *)
Inductive shows (h : heap) : nat -> mask -> Prop :=
| shows_arr l b d :
    nth_error h l = Some (OArr b) -> nth_error h b = Some (OBuf d) -> shows h l (MArr d)
| shows_grp l agg kids ms :
    nth_error h l = Some (OGrp agg kids) -> shows_kids h kids ms -> shows h l (MGrp agg ms)
with shows_kids (h : heap) : list (string * nat) -> list (string * mask) -> Prop :=
| shows_nil : shows_kids h [] []
| shows_cons k c m kids ms :
    shows h c m -> shows_kids h kids ms -> shows_kids h ((k, c) :: kids) ((k, m) :: ms).

(** Objects reachable from a reference. *)
Inductive reach (h : heap) : nat -> nat -> Prop :=
| reach_refl l : reach h l l
| reach_buf l b x : nth_error h l = Some (OArr b) -> reach h b x -> reach h l x
| reach_kid l agg kids k c x :
    nth_error h l = Some (OGrp agg kids) -> In (k, c) kids -> reach h c x -> reach h l x.

(** Nesting depth of a mask value (the recursion depth its traversal needs). *)
Fixpoint depth (m : mask) : nat :=
  match m with
  | MArr _ => 1
  | MGrp _ kids => S (fold_right (fun p n => Nat.max (depth (snd p)) n) 0 kids)
  end.

(** Every group's dictionary has distinct keys (a Python dict cannot do otherwise). *)
Definition hwf (h : heap) : Prop :=
  forall x agg kids, nth_error h x = Some (OGrp agg kids) -> NoDup (dkeys kids).

(** Every reference stored in the heap refers to an object (Python guarantees it). *)
Definition heap_ok (h : heap) : Prop :=
  forall x, x < length h ->
    match nth_error h x with
    | Some (OArr b) => b < length h
    | Some (OGrp _ kids) => forall k c, In (k, c) kids -> c < length h
    | _ => True
    end.
