(** Boosts and rotations of momenta in IEEE doubles: MomentumArray.shift_rapidity (data.py 1597-1621)
    and shift_phi (data.py 1713-1740), operation by operation on one momentum.

    Simplification: cosh, sinh and the complex exponential are whatever the C library returns (arguments);
    products and differences are rounded one by one (no fused multiply-add). *)
From Verif Require Import Prelude SpecIEEE Floats.
From Flocq Require Import IEEE754.BinarySingleNaN.

(** (x, y, z, e). *)
Definition fmom : Type := f64 * f64 * f64 * f64.
Definition mx (p : fmom) : f64 := fst (fst (fst p)).
Definition my (p : fmom) : f64 := snd (fst (fst p)).
Definition mz (p : fmom) : f64 := snd (fst p).
Definition me (p : fmom) : f64 := snd p.

(** data.py 1616-1621. *)
Definition f_shift_rapidity (cosh sinh : f64 -> f64) (shift : f64) (p : fmom) : fmom :=
  let c := cosh (fneg shift) in
  let s := sinh (fneg shift) in
  (mx p, my p, fsub (fmul c (mz p)) (fmul s (me p)), fsub (fmul c (me p)) (fmul s (mz p))).

(** data.py 1732-1740: [rot_op * self._xy_pol]; z and energy are copied. *)
Definition f_shift_phi (cexp : f64 -> fcomplex) (shift : f64) (p : fmom) : fmom :=
  let xy := cmul (cexp shift) (mx p, my p) in
  (fst xy, snd xy, mz p, me p).
