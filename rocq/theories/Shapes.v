(** Model of the event-shape functions and jaccard_distance of calculate.py.  The kernels are compiled
    by numba with the default (python) error model: dividing by zero raises ZeroDivisionError. *)
From Verif Require Import Prelude Keys SpecReal SpecShapes RealBase.
Open Scope R_scope.

Definition fdiv (a b : R) : res R := if Req_EM_T b 0 then Err ZeroDivisionError else Ok (a / b).

(** _three_norm, calculate.py 433-440. *)
Definition three_norm (x y z : R) : res R :=
  let max_component := Rmax (Rmax (Rabs x) (Rabs y)) (Rabs z) in
  max_recip <- fdiv 1 max_component ;;
  let x := x * max_recip in
  let y := y * max_recip in
  let z := z * max_recip in
  Ok (max_component * sqrt (x * x + y * y + z * z)).

(** _angles_to_axis, calculate.py 443-464. *)
Definition angles_to_axis (azimuth inclination : R) : vec :=
  Vec (sin inclination * cos azimuth) (sin inclination * sin azimuth) (cos inclination).

(** _thrust_with_grad, calculate.py 471-527. *)
Record tacc := TAcc { th_abs : R; th_phi : R; th_theta : R; th_norm : R }.
Definition thrust_step (azimuth inclination : R) (s : tacc) (p : mom) : res tacc :=
  let st := sin inclination in let ct := cos inclination in
  let sp := sin azimuth in let cp := cos azimuth in
  let '(ax_x, ax_y, ax_z) := (st * cp, st * sp, ct) in
  let x := px p in let y := py p in let z := pz p in
  let grad_phi := y * st * cp - x * st * sp in
  let grad_theta := x * ct * cp + y * ct * sp - z * st in
  let dot_prod := ax_x * x + ax_y * y + ax_z * z in
  let dot_prod_sign := copysign 1 dot_prod in
  n <- three_norm x y z ;;
  Ok (TAcc (th_abs s + Rabs dot_prod) (th_phi s + dot_prod_sign * grad_phi)
           (th_theta s + dot_prod_sign * grad_theta) (th_norm s + n)).
Definition thrust_with_grad (azimuth inclination : R) (l : list mom) : res (R * (R * R)) :=
  s <- foldM (thrust_step azimuth inclination) l (TAcc 0 0 0 0) ;;
  f <- fdiv (th_abs s) (th_norm s) ;;
  Ok (- f, (- (th_phi s / th_norm s), - (th_theta s / th_norm s))).

(** _spherocity_with_grad, calculate.py 630-700. *)
Record sacc := SAcc { sp_cross : R; sp_norm : R; sp_theta : R; sp_phi : R }.
Definition spherocity_step (phi theta : R) (s : sacc) (p : mom) : res sacc :=
  let cos_phi := cos phi in let sin_phi := sin phi in
  let cos_theta := cos theta in let sin_theta := sin theta in
  let cos_2phi := 2 * cos_phi * cos_phi - 1 in
  let sin_2phi := 2 * cos_phi * sin_phi in
  let cos_2theta := 2 * cos_theta * cos_theta - 1 in
  let sin_2theta := 2 * cos_theta * sin_theta in
  let '(ax_x, ax_y, ax_z) := (sin_theta * cos_phi, sin_theta * sin_phi, cos_theta) in
  let x := px p in let y := py p in let z := pz p in
  n <- three_norm x y z ;;
  let cross_x := y * ax_z - z * ax_y in
  let cross_y := z * ax_x - x * ax_z in
  let cross_z := x * ax_y - y * ax_x in
  cross_norm <- three_norm cross_x cross_y cross_z ;;
  let x_sq := x * x in let y_sq := y * y in
  recip <- fdiv 1 cross_norm ;;
  Ok (SAcc (sp_cross s + cross_norm) (sp_norm s + n)
    (sp_theta s + recip * (-2 * cos_2theta * (x * y * cos_phi + y * z * sin_phi)
        - / 2 * sin_2theta * ((x_sq + y_sq) + (x_sq - y_sq) * cos_2phi - 2 * z * z + 2 * x * y * sin_2phi)))
    (sp_phi s + recip * (/ 2 * (cos_2theta - 1) * (2 * x * y * cos_2phi - (x_sq - y_sq) * sin_2phi)
        - sin_2theta * (y * z * cos_phi - x * z * sin_phi)))).
Definition spherocity_with_grad (phi theta : R) (l : list mom) : res (R * (R * R)) :=
  s <- foldM (spherocity_step phi theta) l (SAcc 0 0 0 0) ;;
  f <- fdiv 4 (PI * sp_norm s) ;;
  let scale_factor := f * f in
  Ok (scale_factor * sp_cross s * sp_cross s,
      (scale_factor * sp_cross s * sp_phi s, scale_factor * sp_cross s * sp_theta s)).

(** thrust and spherocity, calculate.py 571-623, 744-795: the optimiser is an oracle that returns some
    point of the box [-pi/2, pi/2]^2 with the objective's value there. *)
Definition half_pi : R := / 2 * PI.
Definition in_box (a i : R) : Prop := (- half_pi <= a <= half_pi) /\ (- half_pi <= i <= half_pi).
Definition thrust (opt : R * R) (l : list mom) : res (R * vec) :=
  r <- thrust_with_grad (fst opt) (snd opt) l ;; Ok (- fst r, angles_to_axis (fst opt) (snd opt)).
Definition spherocity (opt : R * R) (l : list mom) : res (R * vec) :=
  r <- spherocity_with_grad (fst opt) (snd opt) l ;; Ok (fst r, angles_to_axis (fst opt) (snd opt)).

(** _c_parameter, calculate.py 799-811: the inner loop runs over the suffix starting at i. *)
Definition c_inner (p : mom) (norm_i : R) (out : R) (q : mom) : res R :=
  norm_j <- three_norm (px q) (py q) (pz q) ;;
  let norm_prod := norm_i * norm_j in
  let d := px p * px q + py p * py q + pz p * pz q in
  t <- fdiv (d * d) norm_prod ;;
  Ok (out + 2 * (norm_prod - t)).
Fixpoint c_outer (l : list mom) (out norm_sum : R) : res (R * R) :=
  match l with
  | [] => Ok (out, norm_sum)
  | p :: r =>
      norm_i <- three_norm (px p) (py p) (pz p) ;;
      out' <- foldM (c_inner p norm_i) (p :: r) out ;;
      c_outer r out' (norm_sum + norm_i)
  end.
Definition c_parameter (l : list mom) : res R :=
  r <- c_outer l 0 0 ;;
  fdiv (3 / 2 * fst r) (snd r * snd r).

(** _jaccard_distance, calculate.py 848-880: [zip] stops at the shortest argument. *)
Definition jaccard_step (s : R * R) (e : bool * bool * R) : R * R :=
  let '(u, v, w) := e in
  let nonzero := (u || v)%bool in
  let unequal := (nonzero && xorb u v)%bool in
  (fst s + w * (if nonzero then 1 else 0), snd s + w * (if unequal then 1 else 0)).
Definition jaccard_distance (u v : list bool) (w : option (list R)) : R :=
  let w := match w with None => repeat 1 (length u) | Some w => w end in
  let s := fold_left jaccard_step (combine (combine u v) w) (0, 0) in
  if Req_EM_T (fst s) 0 then 0 else snd s / fst s.
