(** resultant_coords, calculate.py 90-133, and centroid_prune about its default centre, select.py 977-998, in IEEE doubles (continues
    Floats11.v). Simplification: events of at least one particle (the sum of none is zero, whose pseudorapidity is NaN). *)
From Coq Require Import ZArith List Bool Permutation.
From Flocq Require Import Core BinarySingleNaN.
From Verif Require Import Prelude Keys SpecIEEE Kinem Coords Floats Floats2 Floats3 Floats7 Floats10 Floats11.
Import ListNotations.

(** np.sum of one component, calculate.py:129: added in some order (see [order] in Floats.v). *)
Definition f_adds_to (l : list f64) (s : f64) : Prop := exists t, Permutation (leaves t) l /\ s = f_sum t.
(** data.py 1549-1572 phi of one particle: NaN where np.isclose(pt, 0.0, atol=ZERO_TOL), which is |pt| <= ZERO_TOL. *)
Definition f_phi (hypot atan2 : f64 -> f64 -> f64) (zero_tol x y : f64) : f64 :=
  if fle (fabs (hypot x y)) zero_tol then B754_nan else atan2 y x.
(** calculate.py 129-132. *)
Definition f_resultant_coords (hypot atan2 : f64 -> f64 -> f64) (arctanh log : f64 -> f64) (zero_tol : f64)
    (pmu : list fmom) (pseudo : bool) (rap phi : f64) : Prop :=
  exists x y z e, f_adds_to (map mx pmu) x /\ f_adds_to (map my pmu) y /\ f_adds_to (map mz pmu) z /\ f_adds_to (map me pmu) e /\
    rap = (if pseudo then f_eta hypot arctanh x y z else f_rapidity log zero_tol e z) /\
    phi = f_phi hypot atan2 zero_tol x y.
(** select.py 977-998 with centre=None: the coordinates of the sum of the particles under the mask, 982-983. *)
Definition f_centroid_prune_default (hypot atan2 : f64 -> f64 -> f64) (arctanh log : f64 -> f64) (cexp : fcomplex -> fcomplex) (zero_tol : f64)
    (pmu : list fmom) (radius : f64) (mask : option (list bool)) (out : res (list bool)) : Prop :=
  match (match mask with None => Ok pmu | Some m => getkey pmu (KMask m) end) with
  | Err e => out = Err e
  | Ok sel => exists eta_mid phi_mid, f_resultant_coords hypot atan2 arctanh log zero_tol sel true eta_mid phi_mid /\
      f_centroid_prune hypot atan2 arctanh cexp pmu radius mask eta_mid phi_mid out
  end.
