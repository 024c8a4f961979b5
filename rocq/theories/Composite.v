(** Model of the composites ParticleSet (data.py 2210-2400) and Graphicle
    (2680-2889), with their shared helpers (2150-2192).  [F] is the type of
    the floating point numbers; nothing here computes with them. *)
From Verif Require Import Prelude Dict Keys MaskTypes Arrays.

(** data.py 2249-2254: fields in annotation order. *)
Record pset (F : Type) := mkP {
  p_pdg : nd Z; p_pmu : nd F; p_color : nd Z; p_hel : nd Z; p_status : nd Z; p_final : nd bool }.
Arguments mkP {F}. Arguments p_pdg {F}. Arguments p_pmu {F}. Arguments p_color {F}.
Arguments p_hel {F}. Arguments p_status {F}. Arguments p_final {F}.

(** AdjacencyList, data.py 2431-2432: edges and weights. *)
Record adjl (F : Type) := mkA { a_data : nd Z; a_weights : list F }.
Arguments mkA {F}. Arguments a_data {F}. Arguments a_weights {F}.

(** Graphicle, data.py 2707-2708. *)
Record graph (F : Type) := mkG { g_part : pset F; g_adj : adjl F }.
Arguments mkG {F}. Arguments g_part {F}. Arguments g_adj {F}.

(** Factory defaults: every array is [np.array((), dtype)]; MomentumArray
    reshapes it to (0, 4). *)
Definition empty_p {F} : pset F := mkP (Vec []) (Mat 4 []) (Vec []) (Vec []) (Vec []) (Vec []).
Definition empty_a {F} : adjl F := mkA (Vec []) [].

(** _truthy, data.py 455-457. *)
Definition truthy {A} (x : nd A) : bool := negb (Nat.eqb (nd_len x) 0).

(** One component of _composite_getitem (data.py 2174-2177): only non-empty
    components are sliced, the others take the class default. *)
Definition slice1 {A} (get : nd A -> key -> res (nd A)) (default x : nd A) (k : key) : res (nd A) :=
  if truthy x then get x k else Ok default.

(** ParticleSet.__getitem__, data.py 2256-2257. *)
Definition pset_get {F} (s : pset F) (k : key) : res (pset F) :=
  pdg <- slice1 pdg_get (Vec []) (p_pdg s) k ;;
  pmu <- slice1 pmu_get (Mat 4 []) (p_pmu s) k ;;
  color <- slice1 color_get (Vec []) (p_color s) k ;;
  hel <- slice1 helicity_get (Vec []) (p_hel s) k ;;
  status <- slice1 status_get (Vec []) (p_status s) k ;;
  final <- slice1 maskarr_get (Vec []) (p_final s) k ;;
  Ok (mkP pdg pmu color hel status final).

(** _composite_bool, data.py 2180-2181. *)
Definition pset_bool {F} (s : pset F) : bool :=
  truthy (p_pdg s) || truthy (p_pmu s) || truthy (p_color s) || truthy (p_hel s) ||
  truthy (p_status s) || truthy (p_final s).

(** _composite_len, data.py 2184-2185: the first positive length, else 0. *)
Definition first_pos (l : list nat) : nat :=
  match find (fun n => Nat.ltb 0 n) l with Some n => n | None => 0 end.
Definition pset_len {F} (s : pset F) : nat :=
  first_pos [nd_len (p_pdg s); nd_len (p_pmu s); nd_len (p_color s); nd_len (p_hel s);
             nd_len (p_status s); nd_len (p_final s)].

(** AdjacencyList.__getitem__ (2477-2480): a new instance, weights at default. *)
Definition adjl_get {F} (a : adjl F) (k : key) : res (adjl F) :=
  d <- adj_get (a_data a) k ;; Ok (mkA d []).

(** Graphicle.__getitem__, __bool__, __len__, data.py 2710-2717. *)
Definition graph_get {F} (g : graph F) (k : key) : res (graph F) :=
  p <- (if pset_bool (g_part g) then pset_get (g_part g) k else Ok empty_p) ;;
  a <- (if truthy (a_data (g_adj g)) then adjl_get (g_adj g) k else Ok empty_a) ;;
  Ok (mkG p a).
Definition graph_bool {F} (g : graph F) : bool := pset_bool (g_part g) || truthy (a_data (g_adj g)).
Definition graph_len {F} (g : graph F) : nat := first_pos [pset_len (g_part g); nd_len (a_data (g_adj g))].

(** _composite_copy, data.py 2188-2191, with the copy methods of the classes:
    [self.__class__(self._data.copy())] (517, 1191, 1478, 1882, 1970, 2086);
    AdjacencyList.copy (2482-2484) passes no weights. *)
Definition copy1 {A} (new : inp A -> res (nd A)) (default x : nd A) : res (nd A) :=
  if truthy x then new (Plain x) else Ok default.
Definition pset_copy {F} (s : pset F) : res (pset F) :=
  pdg <- copy1 pdg_new (Vec []) (p_pdg s) ;;
  pmu <- copy1 pmu_new (Mat 4 []) (p_pmu s) ;;
  color <- copy1 color_new (Vec []) (p_color s) ;;
  hel <- copy1 helicity_new (Vec []) (p_hel s) ;;
  status <- copy1 status_new (Vec []) (p_status s) ;;
  final <- copy1 mask_new (Vec []) (p_final s) ;;
  Ok (mkP pdg pmu color hel status final).
Definition adjl_copy {F} (a : adjl F) : res (adjl F) :=
  d <- adj_new (Plain (a_data a)) ;; Ok (mkA d []).
Definition graph_copy {F} (g : graph F) : res (graph F) :=
  p <- (if pset_bool (g_part g) then pset_copy (g_part g) else Ok empty_p) ;;
  a <- (if truthy (a_data (g_adj g)) then adjl_copy (g_adj g) else Ok empty_a) ;;
  Ok (mkG p a).

(** ParticleSet.from_numpy, data.py 2340-2390; [None] = argument omitted. *)
Definition optional {A} (new : inp A -> res (nd A)) (default : nd A) (v : option (inp A)) : res (nd A) :=
  match v with Some x => new x | None => Ok default end.
Definition from_numpy {F} (pdg : option (inp Z)) (pmu : option (inp F)) (color helicity status : option (inp Z))
    (final : option (inp bool)) : res (pset F) :=
  a <- optional pdg_new (Vec []) pdg ;;
  b <- optional pmu_new (Mat 4 []) pmu ;;
  c <- optional color_new (Vec []) color ;;
  d <- optional helicity_new (Vec []) helicity ;;
  e <- optional status_new (Vec []) status ;;
  f <- optional mask_new (Vec []) final ;;
  Ok (mkP a b c d e f).

(** ParticleSet.from_lhe_event, data.py 2310-2338. *)
Definition status_map : list (Z * Z) := [(-1, -21); (1, -23); (-2, -22); (2, -22); (3, -22); (-9, -12)]%Z.
(** one pass of the loop: [data[data == old] = new] *)
Definition replace_code (old new : Z) (l : list Z) : list Z := map (fun z => if Z.eqb z old then new else z) l.
Definition recode_loop (l : list Z) : list Z := fold_left (fun l p => replace_code (fst p) (snd p) l) status_map l.
Record lhe (F : Type) := mkL { l_pdg : inp Z; l_pmu : inp F; l_color : inp Z; l_hel : inp Z; l_status : inp Z }.
Arguments mkL {F}. Arguments l_pdg {F}. Arguments l_pmu {F}. Arguments l_color {F}. Arguments l_hel {F}. Arguments l_status {F}.
Definition from_lhe_event {F} (e : lhe F) : res (pset F) :=
  s <- from_numpy (Some (l_pdg e)) (Some (l_pmu e)) (Some (l_color e)) (Some (l_hel e)) (Some (l_status e)) None ;;
  Ok (mkP (p_pdg s) (p_pmu s) (p_color s) (p_hel s)
        (match p_status s with
         | Sc z => Sc z
         | Vec l => Vec (recode_loop l)
         | Mat c rows => Mat c (map recode_loop rows)
         end)
        (Vec (repeat false (pset_len s)))).

(** serialize: elements as tuples.  PdgArray / HelicityArray / StatusArray /
    MaskArray: [tuple(self.data.tolist())] (584, 1299, 1995, 2142);
    MomentumArray, ColorArray, AdjacencyList: [tuple(self)] (1798, 1907, 2654),
    whose __iter__ applies a named tuple to each row: TypeError unless the row
    has exactly that many items. *)
Inductive sval (F : Type) := SInts (l : list Z) | SBools (l : list bool) | SMom (l : list (F * F * F * F)) | SPairs (l : list (Z * Z)).
Arguments SInts {F}. Arguments SBools {F}. Arguments SMom {F}. Arguments SPairs {F}.

Definition ser_vec {A} (x : nd A) : res (list A) := match x with Vec l => Ok l | _ => Err TypeError end.
Definition tuple4 {A} (r : list A) : res (A * A * A * A) :=
  match r with [a; b; c; d] => Ok (a, b, c, d) | _ => Err TypeError end.
Definition tuple2 {A} (r : list A) : res (A * A) := match r with [a; b] => Ok (a, b) | _ => Err TypeError end.
Definition ser_rows {A B} (tup : list A -> res B) (x : nd A) : res (list B) :=
  match x with
  | Mat _ rows => mapM tup rows
  | Vec [] => Ok []
  | _ => Err TypeError
  end.

(** ParticleSet.serialize, data.py 2392-2399; Graphicle.serialize 2885-2889. *)
Definition pset_serialize {F} (s : pset F) : res (list (string * sval F)) :=
  a <- ser_vec (p_pdg s) ;; b <- ser_rows tuple4 (p_pmu s) ;; c <- ser_rows tuple2 (p_color s) ;;
  d <- ser_vec (p_hel s) ;; e <- ser_vec (p_status s) ;; f <- ser_vec (p_final s) ;;
  Ok [("pdg", SInts a); ("pmu", SMom b); ("color", SPairs c); ("helicity", SInts d);
      ("status", SInts e); ("final", SBools f)]%string.
Definition graph_serialize {F} (g : graph F) : res (list (string * sval F)) :=
  p <- pset_serialize (g_part g) ;; a <- ser_rows tuple2 (a_data (g_adj g)) ;;
  Ok (dset "adj"%string (SPairs a) p).

(** What numpy makes of a tuple of equal-length tuples. *)
Definition rows4 {F} (l : list (F * F * F * F)) : nd F :=
  match l with [] => Vec [] | _ => Mat 4 (map (fun '(a, b, c, d) => [a; b; c; d]) l) end.
Definition rows2 (l : list (Z * Z)) : nd Z :=
  match l with [] => Vec [] | _ => Mat 2 (map (fun '(a, b) => [a; b]) l) end.
Definition as_inp_z {F} (v : sval F) : inp Z :=
  match v with SInts l => Plain (Vec l) | SPairs l => Plain (rows2 l) | _ => Plain (Vec []) end.
Definition as_inp_f {F} (v : sval F) : inp F :=
  match v with SMom l => Plain (rows4 l) | _ => Plain (Vec []) end.
Definition as_inp_b {F} (v : sval F) : inp bool := match v with SBools l => Plain (Vec l) | _ => Plain (Vec []) end.

(** Rebuilding: [ParticleSet.from_numpy] applied to the serialised tuples (the caller's code). *)
Definition rebuild {F} (d : list (string * sval F)) : res (pset F) :=
  from_numpy (option_map as_inp_z (dget "pdg" d)) (option_map as_inp_f (dget "pmu" d))
    (option_map as_inp_z (dget "color" d)) (option_map as_inp_z (dget "helicity" d))
    (option_map as_inp_z (dget "status" d)) (option_map as_inp_b (dget "final" d)).

(** * C28: the status buffer of an LHE event, by reference.
    A caller's numpy vector: dtype int16 or another integer type, contiguous
    or a strided view.  [np.asarray(values, dtype="<i2")], [reshape(-1)] and
    [np.ascontiguousarray] (data.py 396-400, 432-437) return the same memory
    exactly when the vector is already contiguous int16. *)
Record buffer := mkB { b_int16 : bool; b_contig : bool; b_data : list Z }.
Definition status_ref (h : list buffer) (r : nat) : res (list buffer * nat) :=
  b <- get h r ;;
  if b_int16 b && b_contig b then Ok (h, r)
  else Ok (h ++ [mkB true true (map wrap16 (b_data b))], length h).
(** from_lhe_event's effect on memory: find the array the new object wraps,
    then run the recoding loop through it in place. *)
Definition lhe_status_effect (h : list buffer) (r : nat) : res (list buffer * nat) :=
  p <- status_ref h r ;;
  b <- get (fst p) (snd p) ;;
  Ok (set_nth (fst p) (snd p) (mkB (b_int16 b) (b_contig b) (recode_loop (b_data b))), snd p).
