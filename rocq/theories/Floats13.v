(** cluster_coeff_distbn in the arithmetic the code uses: double precision distances, single precision coefficients (continues Floats4.v and
    Floats12.v). *)
From Coq Require Import ZArith List Bool.
From Flocq Require Import Core BinarySingleNaN.
From Verif Require Import Prelude Keys SpecIEEE Kinem DeltaR Matrix Floats Floats3 Floats4 Floats12.
Import ListNotations.

(** cluster_coeff_distbn, calculate.py 386-389, pseudo=True (the default). Every schedule of the parallel loops gives these arrays. *)
Definition f_cluster_coeff_distbn (hypot atan2 : f64 -> f64 -> f64) (arctanh : f64 -> f64) (pmu : list fmom) (radius : f64) : list f32 :=
  let adj := map (map (fun x => flt x radius)) (f_affinity hypot atan2 arctanh pmu) in
  let adj := fill_diagonal adj false in
  f_clust_coeffs adj.
