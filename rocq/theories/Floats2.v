(** More of calculate.py in IEEE doubles (continues Floats.v): the C-parameter. *)
From Coq Require Import ZArith Reals List Bool Lia.
From Flocq Require Import Core BinarySingleNaN.
From Verif Require Import SpecIEEE Floats.
Import ListNotations.

(** Division in numba's python error model: a zero divisor raises ZeroDivisionError (None). *)
Definition fdiv_py (x y : f64) : option f64 := if feq y fzero then None else Some (fdiv x y).
Definition obind {A B} (x : option A) (f : A -> option B) : option B := match x with Some a => f a | None => None end.

(** The x, y, z fields of one record. *)
Definition rec3 : Type := f64 * f64 * f64.
Definition rx (p : rec3) : f64 := fst (fst p).
Definition ry (p : rec3) : f64 := snd (fst p).
Definition rz (p : rec3) : f64 := snd p.
Definition f_norm3 (p : rec3) : option f64 := f_three_norm (rx p) (ry p) (rz p).

(** calculate.py:806-811, the body of the inner loop. *)
Definition f_dot (p q : rec3) : f64 := fadd (fadd (fmul (rx p) (rx q)) (fmul (ry p) (ry q))) (fmul (rz p) (rz q)).
Definition f_term (norm_prod quot : f64) : f64 := fmul (lit 2 0) (fsub norm_prod quot).
Definition f_c_inner (p : rec3) (norm_i : f64) (output : f64) (q : rec3) : option f64 :=
  obind (f_norm3 q) (fun norm_j =>
  let norm_prod := fmul norm_i norm_j in
  let i_dot_j := f_dot p q in
  obind (fdiv_py (fmul i_dot_j i_dot_j) norm_prod) (fun quot =>
  Some (fadd output (f_term norm_prod quot)))).
Fixpoint f_fold (f : f64 -> rec3 -> option f64) (l : list rec3) (acc : f64) : option f64 :=
  match l with [] => Some acc | q :: l => obind (f acc q) (f_fold f l) end.
(** calculate.py:800-811, the outer loop: the inner one runs over the suffix that starts at the current particle. *)
Fixpoint f_c_outer (l : list rec3) (output norm_sum : f64) : option (f64 * f64) :=
  match l with
  | [] => Some (output, norm_sum)
  | p :: r =>
      obind (f_norm3 p) (fun norm_i =>
      obind (f_fold (f_c_inner p norm_i) (p :: r) output) (fun output' =>
      f_c_outer r output' (fadd norm_sum norm_i)))
  end.
(** calculate.py:798-812 _c_parameter. *)
Definition f_c_parameter (l : list rec3) : option f64 :=
  obind (f_c_outer l fzero fzero) (fun r =>
  fdiv_py (fmul (lit 3 (-1)) (fst r)) (fmul (snd r) (snd r))).
