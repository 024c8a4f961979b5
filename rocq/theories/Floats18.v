(** combined_mass with weights in IEEE doubles (continues Floats6.v). *)
From Coq Require Import ZArith List Bool Permutation.
From Flocq Require Import Core BinarySingleNaN.
From Verif Require Import Prelude SpecIEEE Floats Floats3 Floats6.
Import ListNotations.

(** calculate.py:181 [weight * data], one row of four weights per particle (the other shapes broadcast to this: Kinem.v [weigh]). *)
Definition f_wmul (w p : fmom) : fmom := (fmul (mx w) (mx p), fmul (my w) (my p), fmul (mz w) (mz p), fmul (me w) (me p)).
(** calculate.py 173-191 of finite momenta and finite products; numpy adds in some order. *)
Definition f_weighted_mass (ws ps : list fmom) (m : f64) : Prop :=
  let data := map2 f_wmul ws ps in
  exists tx ty tz te t,
    Permutation (leaves tx) (map mx data) /\ Permutation (leaves ty) (map my data) /\ Permutation (leaves tz) (map mz data) /\ Permutation (leaves te) (map me data) /\
    Permutation (leaves t) (f_minkowski (f_sum tx) (f_sum ty) (f_sum tz) (f_sum te)) /\ m = f_combined_mass tx ty tz te t.
