(** Vocabulary for the assignment properties.  Imports no model file. *)
From Verif Require Import Prelude SpecReal.
From Coq Require Import Sorted.
Open Scope R_scope.

Definition mean (l : list R) : R := rsum l / INR (length l).
Definition variance (l : list R) : R := mean (map (fun x => (x - mean l) * (x - mean l)) l).

(** Cost of pairing two objects [d] apart in the plane and [dpt] in transverse momentum, given the
    variances of the two quantities: 0 when both vanish, below 2. *)
Definition pair_cost (d var_d dpt var_pt : R) : R :=
  2 - exp (- (d * d) / (2 * var_d)) - exp (- (dpt * dpt) / (2 * var_pt)).

(** A maximal matching of [n1] rows and [n2] columns: no row and no column twice. *)
Definition matching (n1 n2 : nat) (a : list (nat * nat)) : Prop :=
  NoDup (map fst a) /\ NoDup (map snd a) /\ (forall i j, In (i, j) a -> (i < n1 /\ j < n2)%nat) /\ length a = Nat.min n1 n2.
Definition total (c : nat -> nat -> R) (a : list (nat * nat)) : R := rsum (map (fun p => c (fst p) (snd p)) a).
(** scipy's contract: a cheapest maximal matching, listed by ascending row. *)
Definition best_matching (n1 n2 : nat) (c : nat -> nat -> R) (a : list (nat * nat)) : Prop :=
  matching n1 n2 a /\ StronglySorted lt (map fst a) /\ forall b, matching n1 n2 b -> total c a <= total c b.

(** [f] sends the first [n1] numbers to distinct numbers below [n2]. *)
Definition injection_below (n1 n2 : nat) (f : nat -> nat) : Prop :=
  (forall i, (i < n1)%nat -> (f i < n2)%nat) /\ (forall i j, (i < n1)%nat -> (j < n1)%nat -> f i = f j -> i = j).
