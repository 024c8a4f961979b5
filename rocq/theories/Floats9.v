(** The cost matrix of arg_closest in doubles: _assignment_cost, calculate.py 915-941 (continues Floats.v). *)
From Coq Require Import ZArith List Permutation.
From Flocq Require Import Core BinarySingleNaN.
From Verif Require Import Prelude SpecIEEE Floats.

(** np.var in compiled code (calculate.py 931, 936): the mean, the squared deviations, their mean. Under parallel=True the two sums are
    made by several threads, so the order of the additions is any. (The sums start from 0.0: adding it changes nothing but the sign of a zero.)
    Not modelled: no values at all, where the mean divides by zero. *)
Definition f_mean (t : order) (n : nat) : f64 := fdiv (f_sum t) (lit (Z.of_nat n) 0).
Definition f_var (xs : list f64) (v : f64) : Prop :=
  exists t1 t2, Permutation (leaves t1) xs /\
    let m := f_mean t1 (length xs) in
    Permutation (leaves t2) (map (fun x => let val := fsub x m in fmul val val) xs) /\ v = f_mean t2 (length xs).
(** calculate.py 938-941, one entry. [-0.5 * r * d * d] associates to the left. math.expm1 is a parameter. *)
Definition f_exponent (r d : f64) : f64 := fmul (fmul (fmul (lit (-1) (-1)) r) d) d.
Definition f_cost (expm1 : f64 -> f64) (var_dR_recip var_pt_recip dR_val dpt : f64) : f64 :=
  let dR_cost := expm1 (f_exponent var_dR_recip dR_val) in
  let pt_cost := expm1 (f_exponent var_pt_recip dpt) in
  fneg (fadd dR_cost pt_cost).
(** [abs] of a complex number, calculate.py 930, 935. *)
Definition f_abs (hypot : f64 -> f64 -> f64) (p : fcomplex) : f64 := hypot (fst p) (snd p).
(** One row, calculate.py 934-941. A zero variance divides by zero inside the parallel loop: what the row then holds is left unspecified. *)
Definition f_cost_row (hypot : f64 -> f64 -> f64) (expm1 : f64 -> f64) (var_pt_recip : f64) (row : list f64) (pol_1 : fcomplex) (pt_2 c : list f64) : Prop :=
  exists var_dR, f_var row var_dR /\ length c = length row /\
    (feq var_dR fzero = false ->
     c = map (fun e => f_cost expm1 (fdiv fone var_dR) var_pt_recip (fst e) (fsub (f_abs hypot pol_1) (snd e))) (combine row pt_2)).
(** calculate.py 920-941. The distances: _delta_R, calculate.py 289-298. *)
Definition f_distances (hypot atan2 : f64 -> f64 -> f64) (rap_1 rap_2 : list f64) (pol_1 pol_2 : list fcomplex) : list (list f64) :=
  map (fun a => map (fun b => f_delta hypot atan2 (fst a) (fst b) (snd a) (snd b)) (combine rap_2 pol_2)) (combine rap_1 pol_1).
Definition f_assignment_cost (hypot atan2 : f64 -> f64 -> f64) (expm1 : f64 -> f64) (rap_1 rap_2 : list f64) (pol_1 pol_2 : list fcomplex)
    (out : res (list (list f64))) : Prop :=
  let dist_matrix := f_distances hypot atan2 rap_1 rap_2 pol_1 pol_2 in
  let pt_2 := map (f_abs hypot) pol_2 in
  exists var_pt, f_var pt_2 var_pt /\
    if feq var_pt fzero then out = Err ZeroDivisionError
    else exists C, out = Ok C /\
      Forall2 (fun e c => f_cost_row hypot expm1 (fdiv fone var_pt) (fst e) (snd e) pt_2 c) (combine dist_matrix pol_1) C.
