(** Textbook event shapes.  Imports no model file. *)
From Verif Require Import Prelude SpecReal.
Open Scope R_scope.

Record vec := Vec { vx : R; vy : R; vz : R }.
Definition vopp (n : vec) : vec := Vec (- vx n) (- vy n) (- vz n).
(** Unit vector with the given azimuth and inclination. *)
Definition unit_axis (azimuth inclination : R) : vec :=
  Vec (sin inclination * cos azimuth) (sin inclination * sin azimuth) (cos inclination).

Definition vnorm_sq (n : vec) : R := vx n * vx n + vy n * vy n + vz n * vz n.

Definition norm3 (p : mom) : R := sqrt (p_sq p).
Definition along (p : mom) (n : vec) : R := px p * vx n + py p * vy n + pz p * vz n.
(** |p x n|^2 *)
Definition cross_sq (p : mom) (n : vec) : R :=
  let a := py p * vz n - pz p * vy n in
  let b := pz p * vx n - px p * vz n in
  let c := px p * vy n - py p * vx n in
  a * a + b * b + c * c.
Definition total_norm (l : list mom) : R := rsum (map norm3 l).
Definition thrust_along (l : list mom) (n : vec) : R := rsum (map (fun p => Rabs (along p n)) l) / total_norm l.
Definition spherocity_along (l : list mom) (n : vec) : R :=
  let s := 4 / PI * (rsum (map (fun p => sqrt (cross_sq p n)) l) / total_norm l) in s * s.
(** sin^2 of the angle between two momenta. *)
Definition sin_sq (p q : mom) : R := let c := dot3 p q / (norm3 p * norm3 q) in 1 - c * c.
Definition c_textbook (l : list mom) : R :=
  3 / 2 * rsum (map (fun p => rsum (map (fun q => norm3 p * norm3 q * sin_sq p q) l)) l) / (total_norm l * total_norm l).
(** [q]'s 3-momentum is a multiple of [p]'s. *)
Definition parallel (p q : mom) : Prop := exists c, px q = c * px p /\ py q = c * py p /\ pz q = c * pz p.

(** Weighted sizes of sets given as masks. *)
Definition weight_of (w : list R) (m : list bool) : R := rsum (map2 (fun (b : bool) x => if b then x else 0) m w).
Definition union (u v : list bool) := map2 orb u v.
Definition sym_diff (u v : list bool) := map2 xorb u v.
