(** Model of the properties PdgArray reads from the lookup table of the mcpid package: data.py 1232-1297.
    The table is an argument. Simplifications: a record holds the columns in doubles (strings elsewhere, see ArrayOps.v);
    [PdgRecords.properties(codes, fields)] returns a fresh array with one record per code, in order, and raises KeyError
    when a code is not in the table. *)
From Verif Require Import Prelude SpecIEEE Floats.

(** One record: charge, mass and width in MeV with their lower and upper bounds, isospin and the three parities. *)
Record prow := PRow { r_charge : f64; r_mass : f64; r_masslower : f64; r_massupper : f64; r_width : f64; r_widthlower : f64;
  r_widthupper : f64; r_i : f64; r_g : f64; r_p : f64; r_c : f64 }.

(** mcpid's PdgRecords.properties for one code. *)
Definition row_of (table : list (Z * prow)) (z : Z) : res prow :=
  match find (fun p => Z.eqb (fst p) z) table with Some p => Ok (snd p) | None => Err KeyError end.
(** __get_prop, data.py 1232-1234. *)
Definition get_prop {A} (col : prow -> A) (table : list (Z * prow)) (codes : list Z) : res (list A) :=
  rows <- mapM (row_of table) codes ;; Ok (map col rows).
(** __get_prop_range, data.py 1236-1239. *)
Definition get_prop_range (lo hi : prow -> f64) (table : list (Z * prow)) (codes : list Z) : res (list (f64 * f64)) :=
  get_prop (fun r => (lo r, hi r)) table codes.

(** data.py 1138: [__mega_to_giga = 1.0e-3], the double nearest to 1/1000. *)
Definition mega_to_giga : f64 := lit 4611686018427388 (-62).

(** data.py 1251-1253, 1283-1297. *)
Definition pdg_charge := get_prop r_charge.
Definition pdg_isospin := get_prop r_i.
Definition pdg_g_parity := get_prop r_g.
Definition pdg_space_parity := get_prop r_p.
Definition pdg_charge_parity := get_prop r_c.
(** data.py 1255-1258, 1271-1274: the column times the factor. *)
Definition pdg_mass (table : list (Z * prow)) (codes : list Z) : res (list f64) :=
  col <- get_prop r_mass table codes ;; Ok (map (fun x => fmul x mega_to_giga) col).
Definition pdg_width (table : list (Z * prow)) (codes : list Z) : res (list f64) :=
  col <- get_prop r_width table codes ;; Ok (map (fun x => fmul x mega_to_giga) col).
(** data.py 1260-1265, 1276-1281: both fields are multiplied in place. *)
Definition scale_range (rng : list (f64 * f64)) : list (f64 * f64) :=
  let rng := map (fun b => (fmul (fst b) mega_to_giga, snd b)) rng in
  map (fun b => (fst b, fmul (snd b) mega_to_giga)) rng.
Definition pdg_mass_bounds (table : list (Z * prow)) (codes : list Z) : res (list (f64 * f64)) :=
  rng <- get_prop_range r_masslower r_massupper table codes ;; Ok (scale_range rng).
Definition pdg_width_bounds (table : list (Z * prow)) (codes : list Z) : res (list (f64 * f64)) :=
  rng <- get_prop_range r_widthlower r_widthupper table codes ;; Ok (scale_range rng).
