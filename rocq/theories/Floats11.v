(** centroid_prune in IEEE doubles, select.py 940-998, with a given centre (continues Coords.v and Floats.v). *)
From Coq Require Import ZArith List Bool.
From Flocq Require Import Core BinarySingleNaN.
From Verif Require Import Prelude Keys SpecIEEE Kinem Coords Floats Floats3 Floats7.
Import ListNotations.

(** numpy's product of two complex numbers: two products and a sum per component, where one of the products may be fused with the sum
    (numpy's vectorised loops fuse where the processor can, and not for the last few elements, so each element is free to differ). *)
Definition f_times (p q w : fcomplex) : Prop :=
  let '(a, b) := p in let '(c, d) := q in
  (fst w = fsub (fmul a c) (fmul b d) \/ fst w = ffma a c (fneg (fmul b d)) \/ fst w = ffma (fneg b) d (fmul a c)) /\
  (snd w = fadd (fmul a d) (fmul b c) \/ snd w = ffma a d (fmul b c) \/ snd w = ffma b c (fmul a d)).

(** select.py 992-993, one particle. [pmu.eta]: f_eta (Floats.v). *)
Definition f_prune_dist (hypot atan2 : f64 -> f64 -> f64) (arctanh : f64 -> f64) (cexp : fcomplex -> fcomplex)
    (eta_mid phi_mid : f64) (p : fmom) (dist : f64) : Prop :=
  let phi_mid_ := cexp (fzero, phi_mid) in
  exists w, f_times (mx p, my p) (conj phi_mid_) w /\
    dist = hypot (fsub (f_eta hypot arctanh (mx p) (my p) (mz p)) eta_mid) (atan2 (snd w) (fst w)).

(** select.py 977-998 with a centre. *)
Definition f_centroid_prune (hypot atan2 : f64 -> f64 -> f64) (arctanh : f64 -> f64) (cexp : fcomplex -> fcomplex)
    (pmu : list fmom) (radius : f64) (mask : option (list bool)) (eta_mid phi_mid : f64) (out : res (list bool)) : Prop :=
  match (match mask with None => Ok pmu | Some m => getkey pmu (KMask m) end) with
  | Err e => out = Err e
  | Ok sel => exists is_within,
      Forall2 (fun p b => exists dist, f_prune_dist hypot atan2 arctanh cexp eta_mid phi_mid p dist /\ b = flt dist radius) sel is_within /\
      out = Ok (match mask with None => is_within | Some m => scatter m is_within end)
  end.
