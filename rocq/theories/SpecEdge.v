(** Vocabulary for degenerate kinematics: momenta along the beam, at rest, on or outside the light
    cone.  Imports no model file. *)
From Verif Require Import Prelude SpecReal SpecDist.
Open Scope R_scope.

(** The tolerance within which an energy counts as equal to |pz|. *)
Definition cone_tol : R := / 10000000000.
(** The same momentum with the opposite energy. *)
Definition flip_e (p : mom) : mom := Mom (px p) (py p) (pz p) (- en p).

(** Rapidity of any momentum whatever. *)
Inductive rap_is (p : mom) : ext -> Prop :=
| rap_timelike : cone_tol < en p - Rabs (pz p) -> rap_is p (Fin (true_rap p))
| rap_cone_fwd : Rabs (en p - Rabs (pz p)) <= cone_tol -> 0 <= pz p -> rap_is p PInf
| rap_cone_bwd : Rabs (en p - Rabs (pz p)) <= cone_tol -> pz p < 0 -> rap_is p NInf
| rap_spacelike : cone_tol < Rabs (pz p) - en p -> - Rabs (pz p) < en p -> rap_is p NaN
| rap_negcone_fwd : cone_tol < Rabs (pz p) - en p -> en p = - pz p -> 0 < pz p -> rap_is p PInf
| rap_negcone_bwd : cone_tol < Rabs (pz p) - en p -> en p = pz p -> pz p < 0 -> rap_is p NInf
| rap_negative : cone_tol < Rabs (pz p) - en p -> en p < - Rabs (pz p) -> rap_is p (Fin (true_rap (flip_e p))).
(** Pseudorapidity of any momentum whatever. *)
Inductive eta_is (p : mom) : ext -> Prop :=
| eta_transverse : 0 < pt_sq p -> eta_is p (Fin (pseudo_rap p))
| eta_fwd : pt_sq p = 0 -> 0 < pz p -> eta_is p PInf
| eta_bwd : pt_sq p = 0 -> pz p < 0 -> eta_is p NInf
| eta_rest : pt_sq p = 0 -> pz p = 0 -> eta_is p NaN.
Definition coord_is (pseudo : bool) : mom -> ext -> Prop := if pseudo then eta_is else rap_is.

(** The wrapped azimuth gap; 0 if one of the two has no azimuth. *)
Definition gap_is (p q : mom) (f : R) : Prop :=
  (0 < pt_sq p /\ 0 < pt_sq q /\ azimuth_gap p q f) \/ ((pt_sq p = 0 \/ pt_sq q = 0) /\ f = 0).
(** Distance of two points whose first coordinates may be infinite or undefined: an undefined
    difference counts as 0. *)
Definition dist_is (a b : ext) (f : R) : ext :=
  match a, b with
  | Fin x, Fin y => Fin (sqrt ((x - y) * (x - y) + f * f))
  | Fin _, (PInf | NInf) | (PInf | NInf), Fin _ | PInf, NInf | NInf, PInf => PInf
  | _, _ => Fin (Rabs f)
  end.
