(** combined_mass with its floating-point warnings (continues Floats.v). *)
From Coq Require Import ZArith Reals List Bool.
From Flocq Require Import Core BinarySingleNaN.
From Verif Require Import SpecIEEE Floats.
Import ListNotations.

(** No addition of a sum of finite numbers overflows. *)
Fixpoint quiet (t : order) : bool := (is_finite (f_sum t) && match t with Leaf _ => true | Node l r => quiet l && quiet r end)%bool.

(** calculate.py:184-191 combined_mass of finite momenta, without weights: [warnings.filterwarnings("error")] turns every
    RuntimeWarning of line 188 into an exception, which line 189 turns into 0.0: an overflow in one of the four sums (tx, ty, tz, te:
    the orders in which numpy adds each column), an overflow in a square, or the square root of a negative number. An overflow in
    the product with the metric has no course of its own: with finite squares it can only lead to -infinity, whose root warns. *)
Definition f_combined_mass (tx ty tz te t : order) : f64 :=
  if (quiet tx && quiet ty && quiet tz && quiet te &&
      forallb (fun s => is_finite (fmul s s)) [f_sum tx; f_sum ty; f_sum tz; f_sum te])%bool
  then f_combined t else fzero.
