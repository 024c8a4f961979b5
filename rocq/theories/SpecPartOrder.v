(** Vocabulary for C211: two ways of measuring that order the partons alike.  Imports no model file. *)
From Verif Require Import Prelude SpecAdj SpecPart.

(** At every hadronisation vertex, for every hadron descending from it, the two distances compare any two of the particles ending there alike.
    The two may be measured between different kinds of objects, and have different values. *)
Definition order_alike {P D P' D'} (dist : P -> P -> D) (lt : D -> D -> bool) (pmu : list P) (dist' : P' -> P' -> D') (lt' : D' -> D' -> bool) (pmu' : list P')
    (es : edges) (status : list Z) (final : list bool) : Prop :=
  forall v i k1 k2 p1 p2 h q1 q2 g, hadron_vertex es status v -> final_desc es final v i -> incident es v k1 -> incident es v k2 ->
    nth_error pmu k1 = Some p1 -> nth_error pmu k2 = Some p2 -> nth_error pmu i = Some h ->
    nth_error pmu' k1 = Some q1 -> nth_error pmu' k2 = Some q2 -> nth_error pmu' i = Some g ->
    lt (dist p1 h) (dist p2 h) = lt' (dist' q1 g) (dist' q2 g).
