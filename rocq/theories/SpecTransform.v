(** Vocabulary for rotations and splittings.  Imports no model file. *)
From Verif Require Import Prelude SpecReal SpecShapes.
Open Scope R_scope.

(** 3-vectors and 3x3 matrices (rows). *)
Definition vadd (a b : vec) : vec := Vec (vx a + vx b) (vy a + vy b) (vz a + vz b).
Definition vscale (c : R) (a : vec) : vec := Vec (c * vx a) (c * vy a) (c * vz a).
Definition vdot (a b : vec) : R := vx a * vx b + vy a * vy b + vz a * vz b.
Definition vcross (a b : vec) : vec := Vec (vy a * vz b - vz a * vy b) (vz a * vx b - vx a * vz b) (vx a * vy b - vy a * vx b).
Record mat3 := Mat3 { row0 : vec; row1 : vec; row2 : vec }.
Definition mapply (M : mat3) (v : vec) : vec := Vec (vdot (row0 M) v) (vdot (row1 M) v) (vdot (row2 M) v).
Definition det3 (M : mat3) : R := vdot (row0 M) (vcross (row1 M) (row2 M)).

(** [f] rotates every vector by angle [a], right-handed, about the unit vector [n]. *)
Definition rotates (f : vec -> vec) (a : R) (n : vec) : Prop :=
  (forall c, f (vscale c n) = vscale c n) /\
  (forall v, vdot n v = 0 -> f v = vadd (vscale (cos a) v) (vscale (sin a) (vcross n v))) /\
  (forall u v, f (vadd u v) = vadd (f u) (f v)).

Definition vec_of (p : mom) : vec := Vec (px p) (py p) (pz p).
(** [i] is the first position of the largest (smallest) transverse momentum. *)
Definition first_hardest (l : list mom) (i : nat) : Prop :=
  exists p, nth_error l i = Some p /\ (forall j q, nth_error l j = Some q -> pt_sq q <= pt_sq p) /\
  (forall j q, (j < i)%nat -> nth_error l j = Some q -> pt_sq q < pt_sq p).
Definition first_softest (l : list mom) (i : nat) : Prop :=
  exists p, nth_error l i = Some p /\ (forall j q, nth_error l j = Some q -> pt_sq p <= pt_sq q) /\
  (forall j q, (j < i)%nat -> nth_error l j = Some q -> pt_sq p < pt_sq q).
(** Parallel vectors: one is a multiple of the other. *)
Definition vparallel (a b : vec) : Prop := vcross a b = Vec 0 0 0.
