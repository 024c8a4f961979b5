(** Specification vocabulary for the numpy ufunc methods on arrays.  Independent of the model in UfuncMethods.v. *)
From Coq Require Import List Arith Bool ZArith.
Import ListNotations.

(** Division with remainder as Python defines it: the remainder has the sign of the divisor. *)
Definition floor_quotient (a b q r : Z) : Prop := (a = b * q + r /\ (0 <= r < b \/ b < r <= 0))%Z.

(** [y] is the result of combining the first [i + 1] elements of [x] from the left. *)
Definition combines_first {A} (f : A -> A -> A) (i : nat) (x : list A) (y : A) : Prop :=
  exists a rest, firstn (S i) x = a :: rest /\ y = fold_left f rest a.

(** The values whose index names position [p] of an array of length [n] (negative indices count from the end), in order. *)
Definition hits {B} (n : nat) (idx : list Z) (vs : list B) (p : nat) : list B :=
  map snd (filter (fun iv => Z.eqb (fst iv mod Z.of_nat n) (Z.of_nat p)) (combine idx vs)).

Definition zsum (l : list Z) : Z := fold_right Z.add 0%Z l.
