(** Vocabulary for the floating-point properties (C138 onwards): IEEE 754 binary64 numbers, as formalised
    by the Flocq library, the real number each stands for, and relative accuracy. Imports no model file. *)
From Coq Require Import ZArith Reals List.
From Flocq Require Import Core BinarySingleNaN.
Import ListNotations.
Open Scope R_scope.

(** A double: +-0, +-inf, NaN or (-1)^s m 2^e with 53 significant bits (one NaN, payloads are not distinguished). *)
Definition f64 := binary_float 53 1024.

(** The real number a finite double stands for (0 for infinities and NaN). *)
Definition val (x : f64) : R := B2R x.
Definition fin (x : f64) : Prop := is_finite x = true.
Definition infinite (x : f64) : Prop := exists s, x = B754_infinity s.
Definition negative (x : f64) : bool := Bsign x.      (* the sign bit; -0.0 counts as negative *)

(** Half an ulp of 1: the largest relative error of one correctly rounded operation. *)
Definition u : R := / 2 ^ 53.
(** The smallest normal double, 2^-1022. *)
Definition min_normal : R := / 2 ^ 1022.
(** 2^1023, half of the first power of two that is not representable. *)
Definition huge : R := 2 ^ 1023.

(** [r] equals [e] up to [k] units of relative rounding error. *)
Definition within (k : R) (r e : R) : Prop := Rabs (r - e) <= k * u * Rabs e.

(** sign(d) * sqrt(|d|) *)
Definition signed_root (d : R) : R := if Rlt_dec d 0 then - sqrt (- d) else sqrt d.

(** The double nearest to a real number, ties to the even significand (the IEEE default), overflow aside. *)
Definition nearest (x : R) : R := round radix2 (FLT_exp (-1074) 53) ZnearestE x.

(** The total weight of the positions where [P] holds of the two masks. *)
Fixpoint weight_where (P : bool -> bool -> bool) (uu vv : list bool) (ww : list R) : R :=
  match uu, vv, ww with
  | a :: uu, b :: vv, w :: ww => (if P a b then w else 0) + weight_where P uu vv ww
  | _, _, _ => 0
  end.
(** The exact (weighted) Jaccard distance of two masks. *)
Definition jaccard_of (uu vv : list bool) (ww : list R) : R :=
  weight_where xorb uu vv ww / weight_where orb uu vv ww.

(** [r] is between [e] times f^k and [e] divided by f^k, where f = 1 - u: k roundings in the same direction. *)
Definition up_to_roundings (k : nat) (r e : R) : Prop := (1 - u) ^ k * e <= r <= e / (1 - u) ^ k.

(** A routine that returns the double nearest to sqrt(a^2 + b^2), as C's hypot does when it is correctly rounded. *)
Definition correct_hypot (hypot : f64 -> f64 -> f64) : Prop :=
  forall a b, fin a -> fin b -> sqrt (val a * val a + val b * val b) <= huge ->
  fin (hypot a b) /\ val (hypot a b) = nearest (sqrt (val a * val a + val b * val b)) /\ negative (hypot a b) = false.

(** Sums of the values, and of their magnitudes. *)
Definition total (l : list f64) : R := fold_right Rplus 0 (map val l).
Definition total_abs (l : list f64) : R := fold_right Rplus 0 (map (fun x => Rabs (val x)) l).
