(** The partition in doubles from the momenta of the event (continues Floats8.v). *)
From Flocq Require Import Core IEEE754.BinarySingleNaN.
From Verif Require Import Prelude SpecIEEE Floats Floats3 SpecAdj MaskTypes Partition Floats8.

(** data.py 1522-1538 and 1482-1485 (with 1487-1492): pt, eta and the complex transverse momentum of one particle. The modulus of a complex number is the C library's hypot. *)
Definition track_of (hypot : f64 -> f64 -> f64) (arctanh : f64 -> f64) (p : fmom) : track :=
  Track (hypot (mx p) (my p)) (f_eta hypot arctanh (mx p) (my p) (mz p)) (mx p, my p).
(** matrix.py 219-259, one entry, of a parton and a hadron. *)
Definition f_parton_hadron (pow hypot atan2 : f64 -> f64 -> f64) (arctanh : f64 -> f64) (pt_exp : f64) (p h : fmom) : f64 :=
  f_weighted pow hypot atan2 pt_exp (track_of hypot arctanh p) (track_of hypot arctanh h).
(** select.py 424-476, of an event whose particles have the given momenta. *)
Definition f_partition_mom (pow hypot atan2 : f64 -> f64 -> f64) (arctanh : f64 -> f64) (pt_exp : f64) (es : edges) (status : list Z) (final : list bool) (pmu : list fmom) (hier : mask) : res mask :=
  f_partition pow hypot atan2 pt_exp es status final (map (track_of hypot arctanh) pmu) hier.
