(** Model of MomentumArray's derived quantities and transforms (data.py 1308-1803) and of
    the kinematic helpers in calculate.py, in exact real arithmetic. *)
From Verif Require Import Prelude Keys SpecReal RealBase.
Open Scope R_scope.

(** ZERO_TOL, data.py 98. *)
Definition ZERO_TOL : R := / 10000000000.

(** ** Extended-real arithmetic of IEEE doubles *)
Definition eadd (a b : ext) : ext :=
  match a, b with
  | Fin x, Fin y => Fin (x + y)
  | NaN, _ | _, NaN => NaN
  | PInf, NInf | NInf, PInf => NaN
  | PInf, _ | _, PInf => PInf
  | NInf, _ | _, NInf => NInf
  end.
Definition eopp (a : ext) : ext := match a with Fin x => Fin (- x) | PInf => NInf | NInf => PInf | NaN => NaN end.
Definition esub (a b : ext) : ext := eadd a (eopp b).
(** [np.hypot(a, b)] for a real second argument. *)
Definition ehypot (a : ext) (b : R) : ext :=
  match a with Fin x => Fin (sqrt (x * x + b * b)) | PInf | NInf => PInf | NaN => NaN end.
(** [math.copysign(v, s)]. *)
Definition ecopysign (v : ext) (s : R) : ext :=
  match v with Fin x => Fin (copysign x s) | PInf | NInf => if Rlt_dec s 0 then NInf else PInf | NaN => NaN end.

(** _root_diff_two_squares, calculate.py 225-256. *)
Definition root_diff_two_squares (x1 x2 : R) : R :=
  let x1_ := Rabs x1 in
  let x2_ := Rabs x2 in
  let diff := x1_ - x2_ in
  copysign (sqrt (Rabs diff)) diff * sqrt (x1_ + x2_).

(** [pt] and [_spatial_mag], data.py 1482-1525: moduli of complex numbers. *)
Definition pt (p : mom) : R := sqrt (px p * px p + py p * py p).
Definition spatial_mag (p : mom) : R := sqrt (pz p * pz p + pt p * pt p).

(** eta, data.py 1527-1538: [np.arctanh(z / |p|)], 0/0 is NaN, arctanh(+-1) is +-inf. *)
Definition eta (p : mom) : ext :=
  if Req_EM_T (spatial_mag p) 0 then NaN
  else let t := pz p / spatial_mag p in
       if Req_EM_T t 1 then PInf else if Req_EM_T t (-1) then NInf else Fin (arctanh t).

(** _rapidity, calculate.py 193-222, one element; log of 0 is -inf and of a negative number NaN. *)
Definition log_ext (x : R) : ext := if Rlt_dec 0 x then Fin (ln x) else if Req_EM_T x 0 then NInf else NaN.
Definition half (a : ext) : ext := match a with Fin x => Fin (/ 2 * x) | o => o end.
Definition rapidity (tol : R) (p : mom) : ext :=
  let z_abs := Rabs (pz p) in
  let diff := en p - z_abs in
  let rap_val := if Rlt_dec tol (Rabs diff) then half (log_ext ((en p + z_abs) / diff)) else PInf in
  ecopysign rap_val (pz p).

(** phi, data.py 1550-1572. *)
Definition phi (p : mom) : ext := if Rle_dec (Rabs (pt p)) ZERO_TOL then NaN else Fin (atan2 (py p) (px p)).
(** theta, data.py 1575-1578. *)
Definition theta (p : mom) : R := atan2 (pt p) (pz p).
(** mass, mass_t, data.py 1579-1595. *)
Definition mass (p : mom) : R := root_diff_two_squares (en p) (spatial_mag p).
Definition mass_t (p : mom) : R := root_diff_two_squares (en p) (pz p).

(** ** Transforms *)
(** A shift: one number for all elements, or one per element. *)
Inductive shift := Scalar (s : R) | Each (s : list R).
(** numpy broadcasting of a per-element shift against [n] elements, written back in place. *)
Definition spread (n : nat) (s : shift) : res (list R) :=
  match s with
  | Scalar x => Ok (repeat x n)
  | Each [x] => Ok (repeat x n)
  | Each l => if Nat.eqb (length l) n then Ok l else Err ValueError
  end.

(** shift_rapidity, data.py 1597-1621. *)
Definition boost (d : R) (p : mom) : mom :=
  Mom (px p) (py p) (cosh (- d) * pz p - sinh (- d) * en p) (cosh (- d) * en p - sinh (- d) * pz p).
Definition shift_rapidity (s : shift) (l : list mom) : res (list mom) :=
  ds <- spread (length l) s ;; Ok (map2 boost ds l).

(** shift_phi, data.py 1713-1738: complex multiplication by exp(i shift). *)
Definition rotate (a : R) (p : mom) : mom :=
  Mom (cos a * px p - sin a * py p) (cos a * py p + sin a * px p) (pz p) (en p).
Definition shift_phi (s : shift) (l : list mom) : res (list mom) :=
  ds <- spread (length l) s ;; Ok (map2 rotate ds l).

(** Momenta with possibly non-finite z and energy. *)
Record emom := EMom { epx : R; epy : R; epz : ext; een : ext }.
(** [pt * sinh(eta)] with IEEE infinities (0 * inf = NaN). *)
Definition esinh_times (r : R) (x : ext) : ext :=
  match x with
  | Fin v => Fin (r * sinh v)
  | PInf => if Req_EM_T r 0 then NaN else PInf
  | NInf => if Req_EM_T r 0 then NaN else NInf
  | NaN => NaN
  end.
(** shift_eta(experimental=True), data.py 1684-1689. *)
Definition shift_eta_one (d : R) (p : mom) : emom :=
  EMom (px p) (py p) (esinh_times (pt p) (eadd (eta p) (Fin d))) NaN.
Definition shift_eta_exp (s : shift) (l : list mom) : res (list emom) :=
  ds <- spread (length l) s ;; Ok (map2 shift_eta_one ds l).

(** resultant_coords, calculate.py 90-132, the rapidity coordinate: np.sum over axis 0. *)
Definition resultant_rap (pseudo : bool) (l : list mom) : ext :=
  if pseudo then eta (msum l) else rapidity ZERO_TOL (msum l).
(** [math.isclose(a, b, rel_tol=0.0, abs_tol)]: identical infinities are close. *)
Definition isclose (a b : ext) (abs_tol : R) : bool :=
  match a, b with
  | Fin x, Fin y => if Req_EM_T x y then true else if Rle_dec (Rabs (x - y)) abs_tol then true else false
  | PInf, PInf | NInf, NInf => true
  | _, _ => false
  end.

(** shift_eta(experimental=False), data.py 1690-1711.  [NonFinite]: an infinite or NaN
    correction was applied, so the momenta are no longer finite numbers (not modelled further). *)
Inductive eta_out := EtaOut (l : list mom) (warned : bool) | NonFinite.
Fixpoint eta_loop (target : ext) (abs_tol : R) (fuel : nat) (eta_mid : ext) (l : list mom) : eta_out :=
  match fuel with
  | O => EtaOut l true
  | S fuel' =>
      if isclose eta_mid target abs_tol then EtaOut l false
      else match esub target (resultant_rap false l) with
           | Fin c => let l' := map (boost c) l in
                      eta_loop target abs_tol fuel' (resultant_rap true l') l'
           | _ => NonFinite
           end
  end.
Definition shift_eta (s : R) (max_corrections : nat) (abs_tol : R) (l : list mom) : eta_out :=
  let eta_mid := resultant_rap true l in
  eta_loop (eadd eta_mid (Fin s)) abs_tol max_corrections eta_mid l.

(** ** Distances *)
(** One entry of _delta_R, calculate.py 291-297. *)
Definition delta_phi (p q : mom) : R :=
  atan2 (py p * px q - px p * py q) (px p * px q + py p * py q).
Definition delta_entry (rap : mom -> ext) (p q : mom) : ext :=
  let drap := esub (rap p) (rap q) in
  let drap := match drap with NaN => Fin 0 | d => d end in
  ehypot drap (delta_phi p q).
(** delta_R, data.py 1742-1796, for two different arrays: _delta_R, calculate.py 263-298. *)
Definition delta_R (rap : mom -> ext) (l r : list mom) : list (list ext) :=
  map (fun p => map (fun q => delta_entry rap p q) r) l.

(** ** Sums *)
(** combined_mass, calculate.py 135-187.  [weight]: none, a table with one row of four weights per
    particle (a single row is broadcast), or a flat vector, which numpy broadcasts along the columns. *)
Inductive weights := NoWeight | Table (ws : list mom) | Flat (ws : list R).
Definition wmul (w p : mom) : mom := Mom (px w * px p) (py w * py p) (pz w * pz p) (en w * en p).
Definition weigh (l : list mom) (weight : weights) : res (list mom) :=
  match weight with
  | NoWeight => Ok l
  | Table ws => if Nat.eqb (length ws) (length l) then Ok (map2 wmul ws l)
                else match ws with [w] => Ok (map (wmul w) l)
                     | _ => match l with [p] => Ok (map (fun w => wmul w p) ws) | _ => Err ValueError end end
  | Flat [a; b; c; d] => Ok (map (wmul (Mom a b c d)) l)
  | Flat [a] => Ok (map (wmul (Mom a a a a)) l)
  | Flat _ => Err ValueError
  end.
Definition combined_mass (l : list mom) (weight : weights) : res R :=
  dat <- weigh l weight ;;
  let s := msum dat in
  let m2 := px s * px s * -1 + py s * py s * -1 + pz s * pz s * -1 + en s * en s * 1 in
  Ok (if Rlt_dec m2 0 then 0 else sqrt m2).

(** aggregate_momenta, calculate.py 402-430. *)
Definition aggregate_momenta (l : list mom) (masks : list (list bool)) : res (list mom) :=
  mapM (fun m => sel <- getkey l (KMask m) ;; Ok (msum sel)) masks.

(** weighted_centroid, calculate.py 45-87.  [emul]: product with a non-negative number, inf * 0 = NaN;
    [ediv]: 0/0 = NaN.  [cmath.phase(cmath.rect(1, nan))] is NaN. *)
Definition emul (e : ext) (r : R) : ext :=
  match e with
  | Fin x => Fin (x * r)
  | PInf => if Req_EM_T r 0 then NaN else PInf
  | NInf => if Req_EM_T r 0 then NaN else NInf
  | NaN => NaN
  end.
Definition ediv (e : ext) (r : R) : ext :=
  match e with
  | Fin x => if Req_EM_T r 0 then (if Rlt_dec 0 x then PInf else if Rlt_dec x 0 then NInf else NaN) else Fin (x / r)
  | o => o
  end.
Definition esum (l : list ext) : ext := fold_left eadd l (Fin 0).
Definition weighted_centroid (rap : mom -> ext) (l : list mom) : ext * ext :=
  let pt_sum := rsum (map pt l) in
  let rap_mid := ediv (esum (map (fun p => emul (rap p) (pt p)) l)) pt_sum in
  let phi_unbound := ediv (esum (map (fun p => emul (phi p) (pt p)) l)) pt_sum in
  (rap_mid, match phi_unbound with Fin x => Fin (atan2 (sin x) (cos x)) | _ => NaN end).

(** ** from_spherical_uniform, data.py 1347-1423 *)
(** One sample: the random numbers are parameters. [umass]: None for a massless element. *)
Definition spherical_one (energy : R) (umass : option R) (r : R) (ang : R) : mom :=
  let p_mag := match umass with None => energy | Some m => root_diff_two_squares energy m end in
  let th := acos (1 - 2 * r) in
  let re := p_mag * cos th in
  let im := p_mag * sin th in
  Mom (re * cos ang) (re * sin ang) im energy.
(** Outcome of the random generator for element i: energy, mass, the massless draw, cos and phi. *)
Record draw := Draw { d_e : R; d_m : R; d_u : R; d_r : R; d_phi : R }.
Definition from_spherical_uniform (massless : R) (ds : list draw) : res (list mom) :=
  if Rle_dec 0 massless then
    if Rle_dec massless 1 then
      Ok (map (fun d =>
        spherical_one (d_e d)
          (if Req_EM_T massless 0 then Some (d_m d)
           else if Rlt_dec massless 1 then (if Rlt_dec (d_u d) massless then None else Some (d_m d))
           else None) (d_r d) (d_phi d)) ds)
    else Err ValueError
  else Err ValueError.
