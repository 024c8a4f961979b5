(** parton_hadron_distance and the choice of the nearest parton in doubles (continues Floats.v). *)
From Flocq Require Import Core IEEE754.BinarySingleNaN.
From Verif Require Import Prelude SpecIEEE Floats SpecAdj MaskTypes Partition.

(** What matrix.py 257-259 reads of a particle: its pt, its pseudorapidity and its complex transverse momentum. *)
Record track := Track { t_pt : f64; t_eta : f64; t_pol : fcomplex }.
(** One entry of the matrix, matrix.py 257-259 with calculate.py 263-298: [np.power(pt, pt_exp)] times delta_R.  numpy's power is a parameter. *)
Definition f_weighted (pow hypot atan2 : f64 -> f64 -> f64) (pt_exp : f64) (p h : track) : f64 :=
  fmul (pow (t_pt p) pt_exp) (f_delta hypot atan2 (t_eta p) (t_eta h) (t_pol p) (t_pol h)).
(** The comparison of [np.argmin], select.py 418, on doubles: a NaN comes first. *)
Definition f_argmin_lt (x y : f64) : bool :=
  if is_nan x then negb (is_nan y) else if is_nan y then false else flt x y.
(** partition_descendants, select.py 424-476, of an event whose particles have the given coordinates. *)
Definition f_partition (pow hypot atan2 : f64 -> f64 -> f64) (pt_exp : f64) (es : edges) (status : list Z) (final : list bool) (tracks : list track) (hier : mask) : res mask :=
  partition_descendants (f_weighted pow hypot atan2 pt_exp) f_argmin_lt es status final tracks hier.
