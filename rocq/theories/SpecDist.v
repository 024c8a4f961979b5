(** Specification vocabulary for distances and clustering coefficients.  Imports no model file. *)
From Verif Require Import Prelude SpecReal.
Open Scope R_scope.

(** Entry (i, j) of a matrix. *)
Definition at2 {A} (M : list (list A)) (i j : nat) : option A :=
  match nth_error M i with Some row => nth_error row j | None => None end.
(** Extended distances: non-negative, possibly infinite, never NaN. *)
Definition ext_nonneg (d : ext) : Prop := match d with Fin x => 0 <= x | PInf => True | _ => False end.
(** [a <= b + c] for such distances. *)
Definition tri_le (a b c : ext) : Prop :=
  match a, b, c with Fin x, Fin y, Fin z => x <= y + z | _, PInf, _ | _, _, PInf => True | _, _, _ => False end.

(** [f] is the difference of the azimuths of [p] and [q], wrapped to (-pi, pi]. *)
Definition azimuth_gap (p q : mom) (f : R) : Prop :=
  -PI < f <= PI /\ forall a b, azimuth_of (px p) (py p) a -> azimuth_of (px q) (py q) b -> same_angle f (a - b).

(** Fraction of the ordered pairs of distinct neighbours of [i] that are themselves linked. *)
Definition neighbours (n : nat) (near : nat -> nat -> bool) (i : nat) : list nat :=
  filter (fun j => (negb (Nat.eqb i j) && near i j)%bool) (seq 0 n).
Definition linked_pairs (near : nat -> nat -> bool) (nb : list nat) : list (nat * nat) :=
  filter (fun ab => (negb (Nat.eqb (fst ab) (snd ab)) && near (fst ab) (snd ab))%bool) (list_prod nb nb).
Definition coefficient (n : nat) (near : nat -> nat -> bool) (i : nat) (c : R) : Prop :=
  let nb := neighbours n near i in
  if Nat.ltb (length nb) 2 then c = 0
  else c * (INR (length nb) * (INR (length nb) - 1)) = INR (length (linked_pairs near nb)).
