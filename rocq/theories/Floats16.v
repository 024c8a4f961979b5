(** soft_hard_axis and split_hardest in doubles (continues Floats7.v). *)
From Coq Require Import ZArith List.
From Flocq Require Import Core BinarySingleNaN.
From Verif Require Import Prelude SpecIEEE Floats Floats2 Floats3 Floats7 Floats8 Floats10 Partition.
Import ListNotations.

(** data.py 1482-1495 and 1522-1525, the transverse momenta of an event: [np.abs] of the complex x, y parts. *)
Definition f_pts (hypot : f64 -> f64 -> f64) (l : list fmom) : list f64 := map (fun p => hypot (mx p) (my p)) l.
(** The comparison of [np.argmax], transform.py 87 and 256: a NaN comes first. *)
Definition f_argmax_lt (x y : f64) : bool :=
  if is_nan x then negb (is_nan y) else if is_nan y then false else flt y x.
(** [np.cross] of the first three columns, transform.py 88. *)
Definition f_cross3 (s h : fmom) : rec3 :=
  (fsub (fmul (my s) (mz h)) (fmul (mz s) (my h)),
   fsub (fmul (mz s) (mx h)) (fmul (mx s) (mz h)),
   fsub (fmul (mx s) (my h)) (fmul (my s) (mx h))).
(** _axis_to_angles, transform.py 49-54, giving (theta, phi); cmath's polar and phase use the C library's hypot and atan2.  Simplified:
    the OverflowError of cmath.polar for a modulus too large for a double is not modelled. *)
Definition f_axis_to_angles (hypot atan2 : f64 -> f64 -> f64) (v : rec3) : f64 * f64 :=
  let pt := hypot (rx v) (ry v) in
  (atan2 (rz v) pt, atan2 (ry v) (rx v)).
(** soft_hard_axis, transform.py 66-89. *)
Definition f_soft_hard_axis (hypot atan2 : f64 -> f64 -> f64) (l : list fmom) : res (f64 * f64) :=
  i <- argmin f_argmin_lt (f_pts hypot l) ;;
  softest <- get l i ;;
  j <- argmin f_argmax_lt (f_pts hypot l) ;;
  hardest <- get l j ;;
  Ok (f_axis_to_angles hypot atan2 (f_cross3 softest hardest)).
(** split_hardest, transform.py 190-263. [out] is a possible outcome: BLAS may sum the products of the rotation in any order. *)
Definition f_split_hardest (fsin fcos : f64 -> f64) (hypot atan2 : f64 -> f64 -> f64) (l : list fmom) (z angle : f64) (axis : option (f64 * f64)) (out : res (list fmom)) : Prop :=
  if flt fzero z && fle z fhalf then
    let prep :=
      a <- (match axis with
            | Some a => Ok a
            | None => if Nat.ltb (length l) 2 then Err ValueError else f_soft_hard_axis hypot atan2 l
            end) ;;
      hard_idx <- argmin f_argmax_lt (f_pts hypot l) ;;
      hard <- get l hard_idx ;;
      Ok (a, hard_idx, hard) in
    match prep with
    | Err e => out = Err e
    | Ok (a, hard_idx, hard) => exists c0 c1, f_split_value fsin fcos hard z angle (fst a) (snd a) (c0, c1) /\
        out = Ok (firstn hard_idx l ++ skipn (S hard_idx) l ++ [c0; c1])
    end
  else out = Err ValueError.
