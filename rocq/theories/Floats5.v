(** The objectives of thrust and spherocity in IEEE doubles (continues Floats2.v; the exact-arithmetic models are in
    Shapes.v). sin and cos are arguments: their results are whatever the C library returns. None: ZeroDivisionError. *)
From Coq Require Import ZArith Reals List Bool Lia.
From Flocq Require Import Core BinarySingleNaN.
From Verif Require Import SpecIEEE Floats Floats2.
Import ListNotations.

Fixpoint ofold {A} (f : A -> rec3 -> option A) (l : list rec3) (acc : A) : option A :=
  match l with [] => Some acc | q :: l => obind (f acc q) (ofold f l) end.

(** calculate.py:471-527 _thrust_with_grad. The accumulators abs_dot_sum, grad_phi_sum, grad_theta_sum, norm_sum. *)
Record f_tacc := FTAcc { ft_abs : f64; ft_phi : f64; ft_theta : f64; ft_norm : f64 }.
(** lines 510-523, the body of the loop; the argument holds sin_theta, cos_theta, sin_phi, cos_phi (505-506). *)
Definition f_thrust_step (sin_theta cos_theta sin_phi cos_phi : f64) (s : f_tacc) (p : rec3) : option f_tacc :=
  let ax_x := fmul sin_theta cos_phi in
  let ax_y := fmul sin_theta sin_phi in
  let ax_z := cos_theta in
  let x := rx p in let y := ry p in let z := rz p in
  let grad_phi := fsub (fmul (fmul y sin_theta) cos_phi) (fmul (fmul x sin_theta) sin_phi) in
  let grad_theta := fsub (fadd (fmul (fmul x cos_theta) cos_phi) (fmul (fmul y cos_theta) sin_phi)) (fmul z sin_theta) in
  let dot_prod := fadd (fadd (fmul ax_x x) (fmul ax_y y)) (fmul ax_z z) in
  let dot_prod_sign := copysign fone dot_prod in
  obind (f_norm3 p) (fun n =>
  Some (FTAcc (fadd (ft_abs s) (fabs dot_prod)) (fadd (ft_phi s) (fmul dot_prod_sign grad_phi))
              (fadd (ft_theta s) (fmul dot_prod_sign grad_theta)) (fadd (ft_norm s) n))).
(** lines 504-509, 524-528. The gradient is an array, whose division does not raise. *)
Definition f_thrust_with_grad (sin cos : f64 -> f64) (azimuth inclination : f64) (l : list rec3) : option (f64 * (f64 * f64)) :=
  obind (ofold (f_thrust_step (sin inclination) (cos inclination) (sin azimuth) (cos azimuth)) l (FTAcc fzero fzero fzero fzero)) (fun s =>
  obind (fdiv_py (ft_abs s) (ft_norm s)) (fun func_val =>
  Some (fneg func_val, (fneg (fdiv (ft_phi s) (ft_norm s)), fneg (fdiv (ft_theta s) (ft_norm s)))))).
(** thrust, calculate.py:606-623: the value returned is minus the objective at the point where the optimiser stopped. *)
Definition f_thrust (sin cos : f64 -> f64) (azimuth inclination : f64) (l : list rec3) : option f64 :=
  obind (f_thrust_with_grad sin cos azimuth inclination l) (fun r => Some (fneg (fst r))).

(** math.pi *)
Definition fpi : f64 := lit 7074237752028440 (-51).
Definition ftwo : f64 := lit 2 0.

(** calculate.py:630-700 _spherocity_with_grad. *)
Record f_sacc := FSAcc { fs_cross : f64; fs_norm : f64; fs_theta : f64; fs_phi : f64 }.
(** lines 668-695, the body of the loop. *)
Definition f_spherocity_step (cos_phi sin_phi cos_theta sin_theta : f64) (s : f_sacc) (p : rec3) : option f_sacc :=
  let cos_2phi := fsub (fmul (fmul ftwo cos_phi) cos_phi) fone in
  let sin_2phi := fmul (fmul ftwo cos_phi) sin_phi in
  let cos_2theta := fsub (fmul (fmul ftwo cos_theta) cos_theta) fone in
  let sin_2theta := fmul (fmul ftwo cos_theta) sin_theta in
  let ax_x := fmul sin_theta cos_phi in
  let ax_y := fmul sin_theta sin_phi in
  let ax_z := cos_theta in
  let x := rx p in let y := ry p in let z := rz p in
  obind (f_norm3 p) (fun n =>
  let cross_x := fsub (fmul y ax_z) (fmul z ax_y) in
  let cross_y := fsub (fmul z ax_x) (fmul x ax_z) in
  let cross_z := fsub (fmul x ax_y) (fmul y ax_x) in
  obind (f_three_norm cross_x cross_y cross_z) (fun cross_norm =>
  let x_sq := fmul x x in let y_sq := fmul y y in
  obind (fdiv_py fone cross_norm) (fun cross_norm_recip =>
  let phi_term :=
    fmul cross_norm_recip
      (fsub (fmul (fmul fhalf (fsub cos_2theta fone)) (fsub (fmul (fmul (fmul ftwo x) y) cos_2phi) (fmul (fsub x_sq y_sq) sin_2phi)))
            (fmul sin_2theta (fsub (fmul (fmul y z) cos_phi) (fmul (fmul x z) sin_phi)))) in
  let theta_term :=
    fmul cross_norm_recip
      (fsub (fmul (fmul (fneg ftwo) cos_2theta) (fadd (fmul (fmul x y) cos_phi) (fmul (fmul y z) sin_phi)))
            (fmul (fmul fhalf sin_2theta)
               (fadd (fsub (fadd (fadd x_sq y_sq) (fmul (fsub x_sq y_sq) cos_2phi)) (fmul (fmul ftwo z) z))
                     (fmul (fmul (fmul ftwo x) y) sin_2phi)))) in
  Some (FSAcc (fadd (fs_cross s) cross_norm) (fadd (fs_norm s) n) (fadd (fs_theta s) theta_term) (fadd (fs_phi s) phi_term))))).
(** lines 656-667, 696-700. numba evaluates the square as one product. *)
Definition f_spherocity_with_grad (sin cos : f64 -> f64) (phi theta : f64) (l : list rec3) : option (f64 * (f64 * f64)) :=
  obind (ofold (f_spherocity_step (cos phi) (sin phi) (cos theta) (sin theta)) l (FSAcc fzero fzero fzero fzero)) (fun s =>
  obind (fdiv_py (lit 4 0) (fmul fpi (fs_norm s))) (fun f =>
  let scale_factor := fmul f f in
  let part := fmul scale_factor (fs_cross s) in
  Some (fmul part (fs_cross s), (fmul part (fs_phi s), fmul part (fs_theta s))))).
