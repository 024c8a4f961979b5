(** Vocabulary for the distance by which hadrons are shared out.  Imports no model file. *)
From Coq Require Import Reals.
From Verif Require Import Prelude SpecReal SpecDist SpecEdge SpecAdj SpecPart.
Open Scope R_scope.

(** The distance of hadron [h] from parton [p] (of non-zero pT): pT(p)^e times the distance in pseudorapidity and azimuth. *)
Definition weighted_is (e : R) (p h : mom) (x : ext) : Prop :=
  exists a b f, eta_is p a /\ eta_is h b /\ gap_is p h f /\
    x = match dist_is a b f with Fin y => Fin (Rpower (sqrt (pt_sq p)) e * y) | d => d end.
(** Order of distances that may be infinite. *)
Definition closer (x y : ext) : Prop :=
  match x, y with Fin a, Fin b => a < b | Fin _, PInf => True | _, _ => False end.

(** Every particle ending at [v] has transverse momentum. *)
Definition partons_fine (es : edges) (pmu : list mom) (v : Z) : Prop :=
  forall k p, incident es v k -> nth_error pmu k = Some p -> 0 < pt_sq p.

(** Of the particles ending at [v], number [k] is at the least weighted distance from particle [i], the first of them on ties. *)
Definition claims (e : R) (es : edges) (pmu : list mom) (v : Z) (i k : nat) : Prop :=
  incident es v k /\ exists p h x, nth_error pmu k = Some p /\ nth_error pmu i = Some h /\ weighted_is e p h x /\
    forall k' p' x', incident es v k' -> nth_error pmu k' = Some p' -> weighted_is e p' h x' ->
      ~ closer x' x /\ ((k' < k)%nat -> closer x x').
