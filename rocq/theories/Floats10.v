(** MomentumArray.from_spherical_uniform in IEEE doubles. The random numbers, the library's arccos and complex exponential are parameters. *)
From Coq Require Import ZArith Reals List Bool.
From Flocq Require Import Core BinarySingleNaN.
From Verif Require Import Prelude SpecIEEE Floats Floats3 Floats5.
Import ListNotations.

(** data.py 1408-1423, one row. numpy multiplies a real (or purely imaginary) number and a complex one as two complex numbers; fusing the
    products and the sum in one operation (numpy with FMA) gives the same numbers here, because one of the two products is always zero. *)
Definition times_i (t : f64) : fcomplex := cmul (fzero, fone) (t, fzero).
Definition f_spherical_one (arccos : f64 -> f64) (cexp : fcomplex -> fcomplex) (energy p_mag r angle : f64) : fmom :=
  let theta_polar := cmul (p_mag, fzero) (cexp (times_i (arccos (fsub fone (fmul ftwo r))))) in
  let phi_polar := cmul (fst theta_polar, fzero) (cexp (times_i angle)) in
  (fst phi_polar, snd phi_polar, snd theta_polar, energy).

(** The random numbers of one row: energy (1397), mass (1400 or 1406, drawn only for the rows that get one), massless draw (1404), the number
    behind the polar angle (1409) and the azimuth (1412). *)
Record fdraw := Fdraw { fd_e : f64; fd_m : f64; fd_u : f64; fd_r : f64; fd_phi : f64 }.
(** Python's <= on floats: false with a NaN. *)
Definition fle (x y : f64) : bool := flt x y || feq x y.

(** data.py 1391-1423. *)
Definition f_from_spherical (arccos : f64 -> f64) (cexp : fcomplex -> fcomplex) (massless : f64) (ds : list fdraw) : res (list fmom) :=
  if negb (fle fzero massless && fle massless fone) then Err ValueError
  else Ok (map (fun d =>
    let p_mag := if feq massless fzero then root_diff (fd_e d) (fd_m d)
                 else if flt massless fone then (if flt (fd_u d) massless then fd_e d else root_diff (fd_e d) (fd_m d))
                 else fd_e d in
    f_spherical_one arccos cexp (fd_e d) p_mag (fd_r d) (fd_phi d)) ds).
