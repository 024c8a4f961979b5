(** Model of resultant_coords, centroid_prune and the cached coordinates of MomentumArray. *)
From Verif Require Import Prelude Keys SpecReal RealBase Kinem.
Open Scope R_scope.

(** resultant_coords, calculate.py 90-132. *)
Definition resultant_coords (pseudo : bool) (l : list mom) : ext * ext :=
  (resultant_rap pseudo l, phi (msum l)).

(** One particle of centroid_prune, select.py 992-993: [np.angle(xy * exp(i phi_mid).conj())];
    a NaN azimuth gives a NaN angle, and hypot(inf, NaN) = inf; comparisons with NaN are False. *)
Definition prune_dist (eta_mid phi_mid : ext) (p : mom) : ext :=
  let d := esub (eta p) eta_mid in
  match phi_mid with
  | Fin f => ehypot d (atan2 (py p * cos f - px p * sin f) (px p * cos f + py p * sin f))
  | _ => match d with PInf | NInf => PInf | _ => NaN end
  end.
Definition below (d : ext) (r : R) : bool :=
  match d with Fin x => if Rlt_dec x r then true else false | NInf => true | _ => false end.
(** [event_mask[mask] = is_within] on an array of False. *)
Fixpoint scatter (m : list bool) (vals : list bool) : list bool :=
  match m with
  | [] => []
  | true :: r => match vals with v :: vs => v :: scatter r vs | [] => false :: scatter r [] end
  | false :: r => false :: scatter r vals
  end.
(** centroid_prune, select.py 947-998. *)
Definition centroid_prune (l : list mom) (radius : R) (mask : option (list bool)) (centre : option (ext * ext)) : res (list bool) :=
  sel <- match mask with None => Ok l | Some m => getkey l (KMask m) end ;;
  let '(eta_mid, phi_mid) := match centre with None => resultant_coords true sel | Some c => c end in
  let is_within := map (fun p => below (prune_dist eta_mid phi_mid p) radius) sel in
  Ok (match mask with None => is_within | Some m => scatter m is_within end).

(** ** Cached properties, data.py 1482-1596 *)
Inductive attr := AX | AY | AZ | AE | APt | AEta | ARap | APhi | ATheta | AMass | AMassT.
Record obj := Obj {
  o_data : list mom;
  c_zt : option (list (R * R));   (* _zt_pol: z and |xy| *)
  c_mag : option (list R);        (* _spatial_mag *)
  c_eta : option (list ext);
  c_rap : option (list ext);
  c_phi : option (list ext);
  c_theta : option (list ext);
  c_mass : option (list ext);
  c_mass_t : option (list ext) }.
Definition fresh (d : list mom) : obj := Obj d None None None None None None None None.
(** numpy broadcasting of two one-dimensional arrays. *)
Definition bcast {A B C} (f : A -> B -> C) (a : list A) (b : list B) : res (list C) :=
  if Nat.eqb (length a) (length b) then Ok (map2 f a b)
  else match a, b with
       | [x], _ => Ok (map (f x) b)
       | _, [y] => Ok (map (fun x => f x y) a)
       | _, _ => Err ValueError
       end.
Definition mag2 (x : R * R) : R := sqrt (fst x * fst x + snd x * snd x).
Definition eta_of (z m : R) : ext :=
  if Req_EM_T m 0 then NaN
  else let t := z / m in if Req_EM_T t 1 then PInf else if Req_EM_T t (-1) then NInf else Fin (arctanh t).

(** _zt_pol, data.py 1487-1496: first access computes and stores. *)
Definition get_zt (o : obj) : list (R * R) * obj :=
  match c_zt o with
  | Some v => (v, o)
  | None => let v := map (fun p => (pz p, pt p)) (o_data o) in
            (v, Obj (o_data o) (Some v) (c_mag o) (c_eta o) (c_rap o) (c_phi o) (c_theta o) (c_mass o) (c_mass_t o))
  end.
(** _spatial_mag, data.py 1498-1500. *)
Definition get_mag (o : obj) : list R * obj :=
  match c_mag o with
  | Some v => (v, o)
  | None => let '(zt, o1) := get_zt o in
            let v := map mag2 zt in
            (v, Obj (o_data o1) (c_zt o1) (Some v) (c_eta o1) (c_rap o1) (c_phi o1) (c_theta o1) (c_mass o1) (c_mass_t o1))
  end.
(** Reading an attribute: the value (or exception) and the object afterwards. *)
Definition read (a : attr) (o : obj) : res (list ext) * obj :=
  match a with
  | AX => (Ok (map (fun p => Fin (px p)) (o_data o)), o)
  | AY => (Ok (map (fun p => Fin (py p)) (o_data o)), o)
  | AZ => (Ok (map (fun p => Fin (pz p)) (o_data o)), o)
  | AE => (Ok (map (fun p => Fin (en p)) (o_data o)), o)
  | APt => let '(zt, o1) := get_zt o in (Ok (map (fun x => Fin (snd x)) zt), o1)
  | AEta =>
      match c_eta o with
      | Some v => (Ok v, o)
      | None => let '(m, o1) := get_mag o in
          match bcast eta_of (map pz (o_data o1)) m with
          | Ok v => (Ok v, Obj (o_data o1) (c_zt o1) (c_mag o1) (Some v) (c_rap o1) (c_phi o1) (c_theta o1) (c_mass o1) (c_mass_t o1))
          | Err e => (Err e, o1)
          end
      end
  | ARap =>
      match c_rap o with
      | Some v => (Ok v, o)
      | None => let v := map (rapidity ZERO_TOL) (o_data o) in
          (Ok v, Obj (o_data o) (c_zt o) (c_mag o) (c_eta o) (Some v) (c_phi o) (c_theta o) (c_mass o) (c_mass_t o))
      end
  | APhi =>
      match c_phi o with
      | Some v => (Ok v, o)
      | None => let '(zt, o1) := get_zt o in
          let invalid := map (fun x => if Rle_dec (Rabs (snd x)) ZERO_TOL then true else false) zt in
          let phi_ := map (fun p => Fin (atan2 (py p) (px p))) (o_data o1) in
          let r := if existsb (fun b => b) invalid
                   then (if Nat.eqb (length invalid) (length phi_)
                         then Ok (map2 (fun (b : bool) x => if b then NaN else x) invalid phi_) else Err IndexError)
                   else Ok phi_ in
          match r with
          | Ok v => (Ok v, Obj (o_data o1) (c_zt o1) (c_mag o1) (c_eta o1) (c_rap o1) (Some v) (c_theta o1) (c_mass o1) (c_mass_t o1))
          | Err e => (Err e, o1)
          end
      end
  | ATheta =>
      match c_theta o with
      | Some v => (Ok v, o)
      | None => let '(zt, o1) := get_zt o in
          let v := map (fun x => Fin (atan2 (snd x) (fst x))) zt in
          (Ok v, Obj (o_data o1) (c_zt o1) (c_mag o1) (c_eta o1) (c_rap o1) (c_phi o1) (Some v) (c_mass o1) (c_mass_t o1))
      end
  | AMass =>
      match c_mass o with
      | Some v => (Ok v, o)
      | None => let '(m, o1) := get_mag o in
          match bcast (fun e k => Fin (root_diff_two_squares e k)) (map en (o_data o1)) m with
          | Ok v => (Ok v, Obj (o_data o1) (c_zt o1) (c_mag o1) (c_eta o1) (c_rap o1) (c_phi o1) (c_theta o1) (Some v) (c_mass_t o1))
          | Err e => (Err e, o1)
          end
      end
  | AMassT =>
      match c_mass_t o with
      | Some v => (Ok v, o)
      | None => let v := map (fun p => Fin (mass_t p)) (o_data o) in
          (Ok v, Obj (o_data o) (c_zt o) (c_mag o) (c_eta o) (c_rap o) (c_phi o) (c_theta o) (c_mass o) (Some v))
      end
  end.
(** Writing the components, through the data setter (data.py 1442-1444) or in place through the
    views returned by [data], [x], ...: no cache is dropped. *)
Definition assign (d : list mom) (o : obj) : obj :=
  Obj d (c_zt o) (c_mag o) (c_eta o) (c_rap o) (c_phi o) (c_theta o) (c_mass o) (c_mass_t o).
Inductive op := Read (a : attr) | Assign (d : list mom) | Copy.
(** One operation; [Copy] continues with [pmu.copy()], data.py 1478-1480. *)
Definition do_op (c : op) (o : obj) : option (attr * res (list ext)) * obj :=
  match c with
  | Read a => let '(v, o') := read a o in (Some (a, v), o')
  | Assign d => (None, assign d o)
  | Copy => (None, fresh (o_data o))
  end.
