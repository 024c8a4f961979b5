(** arg_closest in doubles, select.py 1165-1234 (continues Floats9.v). *)
From Coq Require Import ZArith List Permutation Reals.
From Flocq Require Import Core BinarySingleNaN.
From Verif Require Import Prelude SpecIEEE SpecAssign Floats Floats3 Floats9.
Import ListNotations.

(** scipy.optimize.linear_sum_assignment, select.py 1232: rejects a matrix with NaN (no entry can be infinite here), else returns a best
    matching. Simplified: scipy's own additions are taken to be exact. *)
Definition f_linear_sum_assignment (n1 n2 : nat) (C : list (list f64)) (out : res (list (nat * nat))) : Prop :=
  if forallb (forallb (fun x => is_finite x)) C
  then exists a, best_matching n1 n2 (fun i j => val (nth j (nth i C []) fzero)) a /\ out = Ok a
  else out = Err ValueError.
(** data.py 1540-1548, one particle; [tol] is ZERO_TOL. *)
Definition rap_of_mom (log : f64 -> f64) (tol : f64) (p : fmom) : f64 := f_rapidity log tol (me p) (mz p).
(** data.py 1482-1485: the transverse momentum as a complex number. *)
Definition pol_of_mom (p : fmom) : fcomplex := (mx p, my p).
(** arg_closest, select.py 1225-1234. What it does to the cached rapidities is modelled in Assign.v. *)
Definition f_arg_closest (hypot atan2 : f64 -> f64 -> f64) (log expm1 : f64 -> f64) (tol : f64) (focus cand : list fmom) (out : res (list nat)) : Prop :=
  exists M, f_assignment_cost hypot atan2 expm1 (map (rap_of_mom log tol) focus) (map (rap_of_mom log tol) cand) (map pol_of_mom focus) (map pol_of_mom cand) M /\
    match M with
    | Err e => out = Err e
    | Ok C => exists r, f_linear_sum_assignment (length focus) (length cand) C r /\ out = (a <- r ;; Ok (map snd a))
    end.
