(** Clustering coefficients in the arithmetic the code uses: calculate.py 338-349 (_clust_coeffs) counts the links in
    IEEE 754 single precision ([np.sum(..., dtype=np.float32)]), divides in double precision (numba: float32 / int64
    is float64) and stores the quotient in a float32 array. The exact-arithmetic model is [DeltaR.clust_coeff].

    Simplifications: numba's [sum] adds the elements one by one in order, starting from 0.0, in the type asked for
    (numba/np/arraymath.py, array_sum_impl_dtype); the number of neighbour pairs fits int64. *)
From Coq Require Import ZArith Reals List Bool.
From Flocq Require Import Core BinarySingleNaN.
From Verif Require Import Prelude Keys SpecIEEE Floats DeltaR.
Import ListNotations.

(** Single precision. *)
Notation f32 := (binary_float 24 128).
Definition prec32_pos : Prec_gt_0 24 := eq_refl.
Definition prec32_emax : Prec_lt_emax 24 128 := eq_refl.
Definition sadd (x y : f32) : f32 := @Bplus 24 128 prec32_pos prec32_emax mode_NE x y.
Definition s_of_bool (b : bool) : f32 := if b then @binary_normalize 24 128 prec32_pos prec32_emax mode_NE 1 0 false else B754_zero false.
(** Conversions between the two formats. *)
Definition widen (x : f32) : f64 :=
  match x with
  | B754_zero s => B754_zero s
  | B754_infinity s => B754_infinity s
  | B754_nan => B754_nan
  | B754_finite s m e _ => @binary_normalize 53 1024 prec_pos prec_emax mode_NE (cond_Zopp s (Zpos m)) e s
  end.
Definition narrow (x : f64) : f32 :=
  match x with
  | B754_zero s => B754_zero s
  | B754_infinity s => B754_infinity s
  | B754_nan => B754_nan
  | B754_finite s m e _ => @binary_normalize 24 128 prec32_pos prec32_emax mode_NE (cond_Zopp s (Zpos m)) e s
  end.

(** [np.sum(bools, dtype=np.float32)]. *)
Definition s_count (l : list bool) : f32 := fold_left (fun c b => sadd c (s_of_bool b)) l (B754_zero false).

(** calculate.py 341-348, one node. *)
Definition f_clust_coeff (adj : list (list bool)) (node_idx : nat) : f32 :=
  let neibs := positions (nth node_idx adj []) in
  let num_neibs := length neibs in
  if Nat.ltb num_neibs 2 then B754_zero false
  else
    let num_interlinks_x2 := s_count (map (fun ab => adj_at adj (fst ab) (snd ab)) (list_prod neibs neibs)) in
    narrow (fdiv (widen num_interlinks_x2) (lit (Z.of_nat num_neibs * (Z.of_nat num_neibs - 1)) 0)).
Definition f_clust_coeffs (adj : list (list bool)) : list f32 := map (f_clust_coeff adj) (seq 0 (length adj)).
