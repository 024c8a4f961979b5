(** Vocabulary for the hierarchy properties.  Imports no model file. *)
From Verif Require Import Prelude SpecArray SpecAdj SpecHard.

(** [k] numbers satisfy P. *)
Definition card (P : nat -> Prop) (k : nat) : Prop :=
  exists l, NoDup l /\ (forall x, In x l <-> P x) /\ length l = k.

(** A i j: parton i is a hard ancestor of parton j.  The closest ancestor of j
    is the one with the fewest descendants, the first one on ties. *)
Definition closest (A : nat -> nat -> Prop) (i j : nat) : Prop :=
  A i j /\ forall i', A i' j -> exists k k', card (A i) k /\ card (A i') k' /\ (k < k' \/ (k = k' /\ i <= i')).

(** Ancestry given by a boolean matrix (nobody is its own ancestor). *)
Definition anc_of (rows : list (list bool)) (i j : nat) : Prop := i <> j /\ entry rows i j = Some true.

(** Ancestry among the hard partons of an event: the j-th hard parton's record
    descends from the i-th's. *)
Definition anc_ev (ev : event) (i j : nat) : Prop :=
  i <> j /\ exists p q, nth_error (hard_rows ev) i = Some p /\ nth_error (hard_rows ev) j = Some q /\ descends (e_edges ev) p q.

(** A root of the tree: a parton with children and no parent. *)
Definition root (link : nat -> nat -> Prop) (r : nat) : Prop := (exists c, link r c) /\ forall p, ~ link p r.

(** A path in the tree, from a root downwards. *)
Inductive down (link : nat -> nat -> Prop) : nat -> list nat -> Prop :=
| D_one x : down link x [x]
| D_cons x y l : link x y -> down link y l -> down link x (x :: l).
Definition chain (link : nat -> nat -> Prop) (l : list nat) : Prop := exists r, root link r /\ down link r l.

(** The ascending list of the children of x. *)
Definition children (link : nat -> nat -> Prop) (x : nat) (cs : list nat) : Prop :=
  StronglySorted lt cs /\ forall c, In c cs <-> link x c.

(** The event has an intermediate hard parton (status 22). *)
Definition has_intermediate (ev : event) : Prop := exists z, In z (e_status ev) /\ Z.abs z = 22%Z.

(** No two particles end at the same vertex from which nothing starts: every
    final particle has an end vertex of its own. *)
Definition own_end (es : edges) : Prop := forall p q a b c,
  nth_error es p = Some (a, c) -> nth_error es q = Some (b, c) -> ~ src_of es c -> p = q.

(** The first True position. *)
Definition first_true (m : list bool) (f : nat) : Prop :=
  nth_error m f = Some true /\ forall i, nth_error m i = Some true -> f <= i.

(** [e] is the only particle ending at vertex [v]. *)
Definition sole_entry (es : edges) (v : Z) (e : nat) : Prop :=
  (exists a, nth_error es e = Some (a, v)) /\ forall e' a, nth_error es e' = Some (a, v) -> e' = e.
