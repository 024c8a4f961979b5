(** Models in IEEE 754 binary64 arithmetic (round to nearest, ties to even) of the compiled numeric kernels of
    calculate.py and of the float steps of transform.py and data.py: the exact-arithmetic models are in
    Kinem.v, DeltaR.v, Shapes.v, Transform.v. Numba's default mode neither re-associates nor contracts
    operations. log, atan2, hypot are arguments: their results are whatever the C library returns. *)
From Coq Require Import ZArith Reals List Bool Lia.
From Flocq Require Import Core BinarySingleNaN.
From Verif Require Import SpecIEEE.
Import ListNotations.

(** The two side conditions Flocq's operations take as arguments: 0 < 53 and 53 < 1024. *)
Definition prec_pos : Prec_gt_0 53 := eq_refl.
Definition prec_emax : Prec_lt_emax 53 1024 := eq_refl.

(** The operations + - * / sqrt abs - on doubles. *)
Definition fadd (x y : f64) : f64 := @Bplus 53 1024 prec_pos prec_emax mode_NE x y.
Definition fsub (x y : f64) : f64 := @Bminus 53 1024 prec_pos prec_emax mode_NE x y.
Definition fmul (x y : f64) : f64 := @Bmult 53 1024 prec_pos prec_emax mode_NE x y.
Definition fdiv (x y : f64) : f64 := @Bdiv 53 1024 prec_pos prec_emax mode_NE x y.
Definition fsqrt (x : f64) : f64 := @Bsqrt 53 1024 prec_pos prec_emax mode_NE x.
Definition fabs (x : f64) : f64 := Babs x.
Definition fneg (x : f64) : f64 := Bopp x.

(** Comparisons: false whenever an operand is NaN. *)
Definition flt (x y : f64) : bool := Bltb x y.
Definition feq (x y : f64) : bool := Beqb x y.

(** m * 2^e as a double literal. *)
Definition lit (m e : Z) : f64 := @binary_normalize 53 1024 prec_pos prec_emax mode_NE m e false.
Definition fzero : f64 := B754_zero false.
Definition fone : f64 := lit 1 0.
Definition fhalf : f64 := lit 1 (-1).
Definition finf : f64 := B754_infinity false.

(** math.copysign: the magnitude of x with the sign bit of s (NaN stays NaN). *)
Definition copysign (x s : f64) : f64 :=
  match x with
  | B754_nan => B754_nan
  | _ => if Bool.eqb (Bsign x) (Bsign s) then x else Bopp x
  end.

(** calculate.py:225-260 _root_diff_two_squares, one element. *)
Definition root_diff (x1 x2 : f64) : f64 :=
  let x1_ := fabs x1 in
  let x2_ := fabs x2 in
  let diff := fsub x1_ x2_ in
  let sqrt_diff := copysign (fsqrt (fabs diff)) diff in
  let sqrt_sum := fsqrt (fadd x1_ x2_) in
  fmul sqrt_diff sqrt_sum.

(** data.py:1580-1595 mass and mass_t of one particle; |p| is computed by numpy's complex abs (hypot), data.py:1488-1501. *)
Definition f_mass_t (e z : f64) : f64 := root_diff e z.
Definition f_mass (hypot : f64 -> f64 -> f64) (x y z e : f64) : f64 := root_diff e (hypot z (hypot x y)).

(** calculate.py:214-222 _rapidity, one particle. The division cannot divide by zero: |diff| > zero_tol >= 0. *)
Definition f_rapidity (log : f64 -> f64) (zero_tol e_val z_val : f64) : f64 :=
  let z_val_abs := fabs z_val in
  let diff := fsub e_val z_val_abs in
  let rap_val := if flt zero_tol (fabs diff) then fmul fhalf (log (fdiv (fadd e_val z_val_abs) diff)) else finf in
  copysign rap_val z_val.

(** A complex number: (real part, imaginary part). *)
Definition fcomplex : Type := f64 * f64.
Definition conj (p : fcomplex) : fcomplex := (fst p, fneg (snd p)).
Definition cmul (p q : fcomplex) : fcomplex :=
  (fsub (fmul (fst p) (fst q)) (fmul (snd p) (snd q)), fadd (fmul (fst p) (snd q)) (fmul (snd p) (fst q))).

(** calculate.py:291-297 (and 326-332, the symmetric variant): one entry of the matrix of delta_R. *)
Definition f_delta (hypot atan2 : f64 -> f64 -> f64) (rap_1 rap_2 : f64) (pol_1 pol_2 : fcomplex) : f64 :=
  let drap := fsub rap_1 rap_2 in
  let drap := if is_nan drap then fzero else drap in
  let prod := cmul pol_1 (conj pol_2) in
  let dphi := atan2 (snd prod) (fst prod) in
  hypot drap dphi.

(** calculate.py:870-880 _jaccard_distance. zip stops at the shortest; a bool times a float is 1.0 or 0.0 times it. *)
Definition of_bool (b : bool) : f64 := if b then fone else fzero.
Fixpoint jaccard_loop (uu vv : list bool) (ww : list f64) (union_sum difference_sum : f64) : f64 * f64 :=
  match uu, vv, ww with
  | a :: uu, b :: vv, w :: ww =>
      let nonzero := (a || b)%bool in
      let unequal_nonzero := (nonzero && negb (Bool.eqb a b))%bool in
      jaccard_loop uu vv ww (fadd union_sum (fmul w (of_bool nonzero))) (fadd difference_sum (fmul w (of_bool unequal_nonzero)))
  | _, _, _ => (union_sum, difference_sum)
  end.
Definition f_jaccard (uu vv : list bool) (weights : option (list f64)) : f64 :=
  let ww := match weights with Some ww => ww | None => repeat fone (length uu) end in
  let s := jaccard_loop uu vv ww fzero fzero in
  if feq (fst s) fzero then fzero else fdiv (snd s) (fst s).

(** max of two floats that are not NaN. *)
Definition fmax (x y : f64) : f64 := if flt x y then y else x.
(** calculate.py:433-440 _three_norm. None: ZeroDivisionError (numba's python error model). *)
Definition f_three_norm (x y z : f64) : option f64 :=
  let max_component := fmax (fmax (fabs x) (fabs y)) (fabs z) in
  if feq max_component fzero then None else
  let max_recip := fdiv fone max_component in
  let x := fmul x max_recip in
  let y := fmul y max_recip in
  let z := fmul z max_recip in
  Some (fmul max_component (fsqrt (fadd (fadd (fmul x x) (fmul y y)) (fmul z z)))).

(** np.sum (calculate.py:186, 429): numpy adds in an order that depends on length, memory layout and CPU (pairwise
    blocks, vector lanes). An order of addition of the numbers at the leaves. *)
Inductive order := Leaf (x : f64) | Node (l r : order).
Fixpoint leaves (t : order) : list f64 := match t with Leaf x => [x] | Node l r => leaves l ++ leaves r end.
Fixpoint f_sum (t : order) : f64 := match t with Leaf x => x | Node l r => fadd (f_sum l) (f_sum r) end.

(** transform.py:178-187 split_momentum, one component: [rotated] is this component of the first child after scaling by z
    and rotation (whatever their rounding); the second child is the parent minus the first. *)
Definition f_children (parent rotated : f64) : f64 * f64 := (rotated, fsub parent rotated).
(** transform.py:180: the energy is not rotated. *)
Definition f_energies (z parent : f64) : f64 * f64 := f_children parent (fmul parent z).

(** data.py:1499-1539 eta of one particle: arctanh(z / |p|). *)
Definition f_cos (hypot : f64 -> f64 -> f64) (x y z : f64) : f64 := fdiv z (hypot z (hypot x y)).
Definition f_eta (hypot : f64 -> f64 -> f64) (arctanh : f64 -> f64) (x y z : f64) : f64 := arctanh (f_cos hypot x y z).

(** calculate.py:183-190 combined_mass from the summed components (the sums: C145): squares, product with the metric (-1,-1,-1,1), added
    in any order, square root; a negative square makes np.sqrt warn, which becomes 0.0. (An overflowing square also warns and gives 0.0:
    Floats6.v.) *)
Definition f_minkowski (x y z e : f64) : list f64 :=
  [fmul (fmul x x) (lit (-1) 0); fmul (fmul y y) (lit (-1) 0); fmul (fmul z z) (lit (-1) 0); fmul (fmul e e) fone].
Definition f_combined (t : order) : f64 := let s := f_sum t in if flt s fzero then fzero else fsqrt s.
