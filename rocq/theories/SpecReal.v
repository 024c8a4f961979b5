(** Real-number vocabulary for the kinematics properties.  Imports no model file.
    Exact arithmetic: rounding is not modelled. *)
From Verif Require Import Prelude.
From Coq Require Export Reals Lra.
Open Scope R_scope.

(** A four-momentum. *)
Record mom := Mom { px : R; py : R; pz : R; en : R }.

(** Textbook quantities. *)
Definition p_sq (p : mom) : R := px p * px p + py p * py p + pz p * pz p.   (* |p|^2 *)
Definition pt_sq (p : mom) : R := px p * px p + py p * py p.                (* pT^2 *)
(** Minkowski product. *)
Definition mink (p q : mom) : R := en p * en q - px p * px q - py p * py q - pz p * pz q.
Definition dot3 (p q : mom) : R := px p * px q + py p * py q + pz p * pz q.

(** [s] is sign(x) sqrt|x|: the number of x's sign whose square is |x|. *)
Definition signed_root (x s : R) : Prop := s * s = Rabs x /\ 0 <= s * x.

(** [a] is an azimuth of the transverse vector (x, y), in (-pi, pi]. *)
Definition azimuth_of (x y a : R) : Prop :=
  -PI < a <= PI /\ x = sqrt (x * x + y * y) * cos a /\ y = sqrt (x * x + y * y) * sin a.

(** Equality of angles modulo a full turn. *)
Definition same_angle (a b : R) : Prop := exists k : Z, a = b + 2 * PI * IZR k.

(** IEEE doubles seen as extended reals. *)
Inductive ext := Fin (r : R) | PInf | NInf | NaN.

(** Sums of momenta. *)
Definition mzero : mom := Mom 0 0 0 0.
Definition madd (p q : mom) : mom := Mom (px p + px q) (py p + py q) (pz p + pz q) (en p + en q).
Fixpoint msum (l : list mom) : mom := match l with [] => mzero | p :: r => madd p (msum r) end.
Fixpoint rsum (l : list R) : R := match l with [] => 0 | x :: r => x + rsum r end.

(** Rapidity of a momentum with E > |pz|. *)
Definition true_rap (p : mom) : R := / 2 * ln ((en p + pz p) / (en p - pz p)).
(** Pseudorapidity of a momentum with pT > 0. *)
Definition pseudo_rap (p : mom) : R := / 2 * ln ((sqrt (p_sq p) + pz p) / (sqrt (p_sq p) - pz p)).

(** [q] is [p] boosted along z by rapidity [d]. *)
Definition boosted (d : R) (p q : mom) : Prop :=
  px q = px p /\ py q = py p /\ pz q = cosh d * pz p + sinh d * en p /\ en q = cosh d * en p + sinh d * pz p.
(** [q] is [p] rotated about z by angle [a]. *)
Definition rotated (a : R) (p q : mom) : Prop :=
  px q = cos a * px p - sin a * py p /\ py q = sin a * px p + cos a * py p /\ pz q = pz p /\ en q = en p.
Definition flip_z (p : mom) : mom := Mom (px p) (py p) (- pz p) (en p).
