(** Model of rotation_matrix and split_momentum (transform.py) in IEEE doubles.  Simplifications: sin and cos are parameters;
    numpy's matrix products are modelled by every order of addition, with and without fused multiply-add. *)
From Coq Require Import ZArith Reals List Bool Permutation.
From Flocq Require Import Core BinarySingleNaN.
From Verif Require Import Prelude SpecIEEE Floats Floats2 Floats3.
Import ListNotations.

(** a * b + c with one rounding, as BLAS may compute it inside the matrix products of transform.py 130 and 183-185. *)
Definition ffma (a b c : f64) : f64 := @Bfma 53 1024 prec_pos prec_emax mode_NE a b c.

(** numpy's matmul (transform.py 130, 183-185) sums products through BLAS or its own loops: the accumulator starts at the first product or
    at 0.0, and every further product is added after rounding or by a fused multiply-add.  [dot_value ps s]: s is a possible result for
    the factors ps, the last one added first in the list. *)
Inductive dot_value : list (f64 * f64) -> f64 -> Prop :=
| D_zero : dot_value [] fzero
| D_first a b : dot_value [(a, b)] (fmul a b)
| D_add a b ps s : dot_value ps s -> dot_value ((a, b) :: ps) (fadd s (fmul a b))
| D_fma a b ps s : dot_value ps s -> dot_value ((a, b) :: ps) (ffma a b s).

(** A possible value of one entry of the products of transform.py 130 and 183-185: any order of the three products. *)
Definition f_dot3_value (a b : rec3) (s : f64) : Prop :=
  exists ps, Permutation ps [(rx a, rx b); (ry a, ry b); (rz a, rz b)] /\ dot_value ps s.

(** The (3, 3) arrays of doubles of transform.py 124-132 (rows). *)
Record fmat := FMat { fr0 : rec3; fr1 : rec3; fr2 : rec3 }.
(** Column [i], as the product of transform.py 130 reads its right factor. *)
Definition fcol (i : nat) (A : fmat) : rec3 :=
  let f := match i with O => rx | 1%nat => ry | _ => rz end in (f (fr0 A), f (fr1 A), f (fr2 A)).
(** [w] is a possible value of [v @ A.T], transform.py 183-185. *)
Definition f_mapply_value (A : fmat) (v w : rec3) : Prop :=
  f_dot3_value v (fr0 A) (rx w) /\ f_dot3_value v (fr1 A) (ry w) /\ f_dot3_value v (fr2 A) (rz w).
(** [C] is a possible value of [A @ B], transform.py 130. *)
Definition f_matmul_value (A B C : fmat) : Prop :=
  f_mapply_value A (fcol 0 B) (fcol 0 C) /\ f_mapply_value A (fcol 1 B) (fcol 1 C) /\ f_mapply_value A (fcol 2 B) (fcol 2 C).
(** [c * A], transform.py 130. *)
Definition f_smul (c : f64) (A : fmat) : fmat :=
  let r := fun v => (fmul c (rx v), fmul c (ry v), fmul c (rz v)) in FMat (r (fr0 A)) (r (fr1 A)) (r (fr2 A)).
(** [A + B], transform.py 130. *)
Definition f_matadd (A B : fmat) : fmat :=
  let r := fun v w => (fadd (rx v) (rx w), fadd (ry v) (ry w), fadd (rz v) (rz w)) in FMat (r (fr0 A) (fr0 B)) (r (fr1 A) (fr1 B)) (r (fr2 A) (fr2 B)).

(** _angles_to_axis, transform.py 44-46 and calculate.py 460-465. *)
Definition f_axis (fsin fcos : f64 -> f64) (theta phi : f64) : rec3 :=
  (fmul (fsin theta) (fcos phi), fmul (fsin theta) (fsin phi), fcos theta).

(** transform.py 125-128: the skew-symmetric array of the axis. *)
Definition f_skew (n : rec3) : fmat :=
  let u01 := fneg (rz n) in let u02 := ry n in let u12 := fneg (rx n) in
  FMat (fzero, u01, u02) (fneg u01, fzero, u12) (fneg u02, fneg u12, fzero).

(** rotation_matrix, transform.py 123-132 ([_cos_sin], 61-63, multiplies cosine and sine by 1.0, which is exact). *)
Definition f_rotation_value (fsin fcos : f64 -> f64) (angle theta phi : f64) (M : fmat) : Prop :=
  let skew_sym := f_skew (f_axis fsin fcos theta phi) in
  exists sq, f_matmul_value skew_sym skew_sym sq /\
    let rot := f_matadd (f_smul (fsin angle) skew_sym) (f_smul (fsub fone (fcos angle)) sq) in
    M = FMat (fadd (rx (fr0 rot)) fone, ry (fr0 rot), rz (fr0 rot))
             (rx (fr1 rot), fadd (ry (fr1 rot)) fone, rz (fr1 rot))
             (rx (fr2 rot), ry (fr2 rot), fadd (rz (fr2 rot)) fone).

(** split_momentum of one momentum, transform.py 174-187: the first child is [z] times the parent, its 3-momentum rotated; the second is
    the parent minus the first. *)
Definition f_split_value (fsin fcos : f64 -> f64) (parent : fmom) (z angle theta phi : f64) (c : fmom * fmom) : Prop :=
  exists M v, f_rotation_value fsin fcos angle theta phi M /\
    f_mapply_value M (fmul (mx parent) z, fmul (my parent) z, fmul (mz parent) z) v /\
    let c0 := (rx v, ry v, rz v, fmul (me parent) z) in
    c = (c0, (fsub (mx parent) (mx c0), fsub (my parent) (my c0), fsub (mz parent) (mz c0), fsub (me parent) (me c0))).

(** weighted_centroid, calculate.py 82-85: [(rap * pt).sum() / pt.sum()] of coordinates [rs] and weights [ws]; both sums in any order
    ([tn], [td]).  The azimuth is wrapped afterwards (line 86). *)
Definition f_centroid_value (rs ws : list f64) (c : f64) : Prop :=
  exists tn td, Permutation (leaves tn) (map2 fmul rs ws) /\ Permutation (leaves td) ws /\ c = fdiv (f_sum tn) (f_sum td).
