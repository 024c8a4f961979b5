(** Model of transform.py. *)
From Verif Require Import Prelude SpecReal SpecShapes SpecTransform RealBase Kinem Shapes Partition.
Open Scope R_scope.

(** SphericalAngle, transform.py 19-28. *)
Record angles := Angles { theta_ : R; phi_ : R }.

(** _angles_to_axis, transform.py 44-46, and calculate.py 443-464. *)
Definition t_angles_to_axis (a : angles) : vec := angles_to_axis (phi_ a) (theta_ a).
(** _axis_to_angles, transform.py 49-54. *)
Definition axis_to_angles (v : vec) : angles :=
  let pt := sqrt (vx v * vx v + vy v * vy v) in
  let phi := atan2 (vy v) (vx v) in
  let theta := atan2 (vz v) pt in
  Angles theta phi.

(** [np.argmin] / [np.argmax] of the transverse momenta. *)
Definition rltb (a b : R) : bool := if Rlt_dec a b then true else false.
Definition pt_argmin (l : list mom) : res nat := argmin rltb (map pt l).
Definition pt_argmax (l : list mom) : res nat := argmin (fun a b => rltb b a) (map pt l).

(** soft_hard_axis, transform.py 66-89. *)
Definition soft_hard_axis (l : list mom) : res angles :=
  i <- pt_argmin l ;;
  softest <- get l i ;;
  j <- pt_argmax l ;;
  hardest <- get l j ;;
  let axis := Vec (py softest * pz hardest - pz softest * py hardest)
                  (pz softest * px hardest - px softest * pz hardest)
                  (px softest * py hardest - py softest * px hardest) in
  Ok (axis_to_angles axis).

(** [K @ K], [c * K], [K + L] on 3x3 arrays. *)
Definition col (i : nat) (M : mat3) : vec :=
  let f := match i with O => vx | 1%nat => vy | _ => vz end in Vec (f (row0 M)) (f (row1 M)) (f (row2 M)).
Definition matmul (A B : mat3) : mat3 :=
  let r := fun a => Vec (vdot a (col 0 B)) (vdot a (col 1 B)) (vdot a (col 2 B)) in Mat3 (r (row0 A)) (r (row1 A)) (r (row2 A)).
Definition smul (c : R) (A : mat3) : mat3 := Mat3 (vscale c (row0 A)) (vscale c (row1 A)) (vscale c (row2 A)).
Definition matadd (A B : mat3) : mat3 := Mat3 (vadd (row0 A) (row0 B)) (vadd (row1 A) (row1 B)) (vadd (row2 A) (row2 B)).

(** rotation_matrix, transform.py 92-132.  The upper triangle is set to (-z, y, -x), the lower one
    to its negative; 1 is added to the diagonal at the end. *)
Definition rotation_matrix (angle : R) (axis : angles) : mat3 :=
  let n := t_angles_to_axis axis in
  let u01 := - vz n in let u02 := vy n in let u12 := - vx n in
  let skew_sym := Mat3 (Vec 0 u01 u02) (Vec (- u01) 0 u12) (Vec (- u02) (- u12) 0) in
  let rot := matadd (smul (sin angle) skew_sym) (smul (1 - cos angle) (matmul skew_sym skew_sym)) in
  Mat3 (Vec (vx (row0 rot) + 1) (vy (row0 rot)) (vz (row0 rot)))
       (Vec (vx (row1 rot)) (vy (row1 rot) + 1) (vz (row1 rot)))
       (Vec (vx (row2 rot)) (vy (row2 rot)) (vz (row2 rot) + 1)).

(** split_momentum, transform.py 135-187.  [v @ R.T] is the product of every row of R with v.  An
    empty array fails at [children[0, :]]. *)
Definition split_momentum (l : list mom) (z angle : R) (axis : angles) : res (list mom) :=
  match l with
  | [] => Err IndexError
  | [parent] =>
      let c0 := Mom (px parent * z) (py parent * z) (pz parent * z) (en parent * z) in
      let v := mapply (rotation_matrix angle axis) (vec_of c0) in
      let c0 := Mom (vx v) (vy v) (vz v) (en c0) in
      Ok [c0; Mom (px parent - px c0) (py parent - py c0) (pz parent - pz c0) (en parent - en c0)]
  | _ => Err ValueError
  end.

(** split_hardest, transform.py 190-263. *)
Definition split_hardest (l : list mom) (z angle : R) (axis : option angles) : res (list mom) :=
  if (if Rlt_dec 0 z then (if Rle_dec z (1 / 2) then true else false) else false) then
    axis <- (match axis with
             | Some a => Ok a
             | None => if Nat.ltb (length l) 2 then Err ValueError else soft_hard_axis l
             end) ;;
    hard_idx <- pt_argmax l ;;
    hard <- get l hard_idx ;;
    children <- split_momentum [hard] z angle axis ;;
    Ok (firstn hard_idx l ++ skipn (S hard_idx) l ++ children)
  else Err ValueError.
