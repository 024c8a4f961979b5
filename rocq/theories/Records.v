(** Model of the record-level protocols of the data classes: the Sequence
    methods inherited from collections.abc (base.py 137, 216), the tables shown
    by str() and in notebooks (_table_repr, data.py 295-346; _table_list
    2270-2294; _table_str 2296-2298, 2719-2726), equality of composites (attrs,
    2210, 2679), Graphicle.from_event and from_numpy (2739-2834), the nested
    dictionaries accepted by MaskGroup (_mask_dict_convert, 648-660), masks
    combined with things that are not masks (535-559), and in-place operators
    (_array_ufunc with [out], 192-235). *)
From Verif Require Import Prelude Dict Keys MaskTypes Mask Arrays ArrayOps Composite Adjacency.

(** * Sequence methods *)

(** [iter(array)] as Python natives: 514, 1153, 1959, 2053 (flat classes), and
    the named tuples of 1450, 1857, 2454 ([ser_rows], Composite.v). *)
Definition iter_flat {A} (x : nd A) : res (list A) := ser_vec x.

(** Sequence.__contains__ and Sequence.count (CPython collections.abc): both
    loop over [iter(self)] with [v is value or v == value]; the natives are
    fresh objects, so only the equality of natives matters. *)
Definition contains {E} (eqb : E -> E -> bool) (items : list E) (value : E) : bool :=
  existsb (fun v => eqb v value) items.
Definition count {E} (eqb : E -> E -> bool) (items : list E) (value : E) : nat :=
  length (filter (fun v => eqb v value) items).

(** Sequence.index(value, start, stop): reads [self[i]] for i = start, start+1,
    ... until IndexError, testing [bool(self[i] == value)].  [fuel] bounds the
    number of turns; [n + 1] turns always reach IndexError. *)
Fixpoint index_loop {V} (fuel : nat) (getitem : Z -> res V) (test : V -> res bool) (stop : option Z)
    (i : Z) : res Z :=
  match fuel with
  | 0 => Err RecursionError
  | S f =>
      if match stop with Some s => (i <? s)%Z | None => true end then
        match getitem i with
        | Err IndexError => Err ValueError
        | Err e => Err e
        | Ok v => b <- test v ;; if b : bool then Ok i else index_loop f getitem test stop (i + 1)%Z
        end
      else Err ValueError
  end.

Definition seq_index {V} (n : nat) (getitem : Z -> res V) (test : V -> res bool) (start : Z)
    (stop : option Z) : res Z :=
  let start' := if (start <? 0)%Z then Z.max (Z.of_nat n + start) 0 else start in
  let stop' := match stop with
               | Some s => Some (if (s <? 0)%Z then (s + Z.of_nat n)%Z else s)
               | None => None
               end in
  index_loop (S n) getitem test stop' start'.

(** [bool(self[i] == value)]: [==] gives a MaskArray, whose truth value is that
    of its length (_truthy, 455-457). *)
Definition test_flat (value : Z) (v : nd Z) : res bool :=
  m <- flat_eq v (ORaw (Sc value)) ;; Ok (truthy m).
(** The records of a stored multi-column array ([data] is a structured view). *)
Definition records {A} (c : nat) (v : nd A) : list (list A) :=
  match v with Sc _ => [] | Vec l => chunks (length l) c l | Mat _ rows => rows end.
Definition test_rec {A} (eqb : A -> A -> bool) (c : nat) (value : list A) (v : nd A) : res bool :=
  m <- rec_eq eqb c (records c v) (RFlat value) ;; Ok (truthy m).
(** A value that is neither an array nor a mask: _mask_compat is False (605). *)
Definition test_mask (v : nd bool) : res bool := Err ValueError.

Definition pdg_index (x : nd Z) (value : Z) : Z -> option Z -> res Z :=
  seq_index (nd_len x) (fun i => pdg_get x (KInt i)) (test_flat value).
Definition status_index (x : nd Z) (value : Z) : Z -> option Z -> res Z :=
  seq_index (nd_len x) (fun i => status_get x (KInt i)) (test_flat value).
Definition helicity_index (x : nd Z) (value : Z) : Z -> option Z -> res Z :=
  seq_index (nd_len x) (fun i => helicity_get x (KInt i)) (test_flat value).
Definition pmu_index {A} (eqb : A -> A -> bool) (x : nd A) (value : list A) : Z -> option Z -> res Z :=
  seq_index (nd_len x) (fun i => pmu_get x (KInt i)) (test_rec eqb 4 value).
Definition color_index (x : nd Z) (value : list Z) : Z -> option Z -> res Z :=
  seq_index (nd_len x) (fun i => color_get x (KInt i)) (test_rec Z.eqb 2 value).
Definition adj_index (x : nd Z) (value : list Z) : Z -> option Z -> res Z :=
  seq_index (nd_len x) (fun i => adj_get x (KInt i))
    (fun v => m <- adj_compare false v (OSeq value) ;; Ok (truthy m)).
Definition mask_index (x : nd bool) (value : bool) : Z -> option Z -> res Z :=
  seq_index (nd_len x) (fun i => maskarr_get x (KInt i)) test_mask.

(** Sequence.__reversed__: [self[i]] for i = len-1, ..., 0. *)
Definition reversed {V} (n : nat) (getitem : Z -> res V) : res (list V) :=
  mapM (fun i => getitem (Z.of_nat i)) (rev (seq 0 n)).

(** * Tables *)

Inductive cell (F : Type) := CName (s : string) | CInt (z : Z) | CFloat (f : F) | CBool (b : bool).
Arguments CName {F} s. Arguments CInt {F} z. Arguments CFloat {F} f. Arguments CBool {F} b.

(** [zip] of the columns (each given by the cells of its records), rows
    flattened by more_itertools.collapse: stops with the shortest column; no
    column, no row. *)
Fixpoint zip_rows {C} (cols : list (list (list C))) : list (list C) :=
  match cols with
  | [] => []
  | [c] => c
  | c :: r => map2 (@app C) c (zip_rows r)
  end.

(** _table_list, data.py 2270-2294: empty components are skipped; a code
    outside the PDG table is a KeyError. *)
Section Table.
  Context {F : Type} (names : list (Z * string)).

  Definition column_of {A} (x : nd A) (headers : list string) (cells : res (list (list (cell F)))) :
      res (option (list string * list (list (cell F)))) :=
    if truthy x then c <- cells ;; Ok (Some (headers, c)) else Ok None.

  Definition flat_cells {A} (f : A -> cell F) (x : nd A) : res (list (list (cell F))) :=
    l <- iter_flat x ;; Ok (map (fun a => [f a]) l).

  Definition table_list (s : pset F) : res (list string * list (list (cell F))) :=
    pdg <- column_of (p_pdg s) ["name"%string]
             (l <- iter_flat (p_pdg s) ;; ns <- pdg_names names l ;; Ok (map (fun n => [CName n]) ns)) ;;
    pmu <- column_of (p_pmu s) ["px"; "py"; "pz"; "energy"]%string
             (l <- ser_rows tuple4 (p_pmu s) ;;
              Ok (map (fun '(x, y, z, e) => [CFloat x; CFloat y; CFloat z; CFloat e]) l)) ;;
    color <- column_of (p_color s) ["color"; "anticolor"]%string
             (l <- ser_rows tuple2 (p_color s) ;; Ok (map (fun '(a, b) => [CInt a; CInt b]) l)) ;;
    hel <- column_of (p_hel s) ["helicity"%string] (flat_cells CInt (p_hel s)) ;;
    status <- column_of (p_status s) ["status"%string] (flat_cells CInt (p_status s)) ;;
    final <- column_of (p_final s) ["final"%string] (flat_cells CBool (p_final s)) ;;
    let cols := flat_map (fun o => match o with Some c => [c] | None => [] end)
                  [pdg; pmu; color; hel; status; final] in
    Ok (flat_map fst cols, zip_rows (map snd cols)).

  (** _table_repr, data.py 295-346, up to tabulate's layout: the header, the
      rows (an ellipsis cell is [None]) and the two numbers of the last line.
      [rows] is an iterator: [take] consumes the first five, [tail] sees the
      rest. *)
  Definition take_tail {A} (k : nat) (l : list A) : list A := skipn (length l - k) l.
  Record table := mkT { t_headers : list string; t_rows : list (list (option (cell F)));
                        t_particles : nat; t_attributes : nat }.
  Definition table_repr (headers : list string) (rows : list (list (cell F))) (num_rows : nat) : table :=
    let shown := map (map Some) in
    mkT headers
      (if Nat.ltb 60 num_rows
       then (shown (firstn 5 rows) ++ [repeat None (length headers)] ++ shown (take_tail 5 (skipn 5 rows)))%list
       else shown rows)
      num_rows (length headers).

  (** ParticleSet._table_str, 2296-2298; Graphicle._table_str, 2719-2726. *)
  Definition pset_table (s : pset F) : res table :=
    p <- table_list s ;; Ok (table_repr (fst p) (snd p) (pset_len s)).
  Definition graph_table (g : graph F) : res table :=
    p <- table_list (g_part g) ;;
    if truthy (a_data (g_adj g)) then
      es <- ser_rows tuple2 (a_data (g_adj g)) ;;
      Ok (table_repr (fst p ++ ["src"; "dst"]%string)
            (map2 (fun r '(a, b) => (r ++ [CInt a; CInt b])%list) (snd p) es) (graph_len g))
    else Ok (table_repr (fst p) (snd p) (graph_len g)).
End Table.
Arguments mkT {F}. Arguments t_headers {F}. Arguments t_rows {F}. Arguments t_particles {F}. Arguments t_attributes {F}.

(** * Equality of composites *)

(** attrs' generated __eq__ of ParticleSet (@define, 2210) compares the six
    components in order and stops at the first whose [==] is falsy.  (Two sets
    that share a component object are equal in it by identity in some attrs
    versions; here the components are distinct objects.) *)
Definition and_then (x : res (nd bool)) (y : res bool) : res bool :=
  m <- x ;; if truthy m then y else Ok false.
Definition mask_eq_nd (x y : nd bool) : res (nd bool) :=     (* _mask_eq, 592-616 *)
  if Nat.eqb (nd_len x) (nd_len y) then r <- nd_bin Bool.eqb x y ;; mask_new (Plain r) else Err ValueError.
Definition pset_eq {F} (eqb : F -> F -> bool) (s t : pset F) : res bool :=
  and_then (flat_eq (p_pdg s) (OArr (p_pdg t)))
  (and_then (rec_eq eqb 4 (records 4 (p_pmu s)) (RSame (records 4 (p_pmu t))))
  (and_then (rec_eq Z.eqb 2 (records 2 (p_color s)) (RSame (records 2 (p_color t))))
  (and_then (flat_eq (p_hel s) (OArr (p_hel t)))
  (and_then (flat_eq (p_status s) (OArr (p_status t)))
  (and_then (mask_eq_nd (p_final s) (p_final t)) (Ok true)))))).
(** Graphicle (@define, 2679): particles, then adj. *)
Definition graph_eq {F} (eqb : F -> F -> bool) (g h : graph F) : res bool :=
  b <- pset_eq eqb (g_part g) (g_part h) ;;
  if b : bool then and_then (adj_compare false (a_data (g_adj g)) (OAdj (a_data (g_adj h)))) (Ok true)
  else Ok false.

(** * Graphicle.from_numpy, data.py 2770-2834, and from_event, 2739-2764 *)

(** The weights field ("<f8", one column). *)
Definition weights_new {F} (v : inp F) : res (list F) :=
  x <- converter (fun a => a) 1 v ;; Ok (elems x).

Definition graph_from_numpy {F} (pdg : option (inp Z)) (pmu : option (inp F))
    (color helicity status : option (inp Z)) (final : option (inp bool)) (edges : option (inp Z))
    (weights : option (inp F)) : res (graph F) :=
  p <- from_numpy pdg pmu color helicity status final ;;
  match edges with
  | Some e =>
      d <- adj_new e ;;
      w <- match weights with Some w => weights_new w | None => Ok [] end ;;
      Ok (mkG p (mkA d w))
  | None => Ok (mkG p empty_a)
  end.

(** An attribute of the event object: absent (AttributeError), or present,
    possibly with the value None. *)
Inductive attr (A : Type) := Absent | Present (v : option (inp A)).
Arguments Absent {A}. Arguments Present {A} v.
Definition param {A} (a : attr A) : option (inp A) := match a with Absent => None | Present v => v end.

Record event (F : Type) := mkEv {
  ev_pdg : attr Z; ev_pmu : attr F; ev_color : attr Z; ev_helicity : attr Z; ev_status : attr Z;
  ev_final : attr bool; ev_edges : attr Z; ev_masks : option (list (string * inp bool)) }.
Arguments mkEv {F}. Arguments ev_pdg {F}. Arguments ev_pmu {F}. Arguments ev_color {F}. Arguments ev_helicity {F}.
Arguments ev_status {F}. Arguments ev_final {F}. Arguments ev_edges {F}. Arguments ev_masks {F}.

Definition final_param {F} (e : event F) : res (option (inp bool)) :=
  match ev_final e, ev_masks e with
  | Absent, Some masks => match dget "final"%string masks with Some m => Ok (Some m) | None => Err KeyError end
  | a, _ => Ok (param a)
  end.
Definition from_event {F} (e : event F) : res (graph F) :=
  final <- final_param e ;;
  graph_from_numpy (param (ev_pdg e)) (param (ev_pmu e)) (param (ev_color e)) (param (ev_helicity e))
    (param (ev_status e)) final (param (ev_edges e)) None.

(** * _mask_dict_convert, data.py 651-661, and MaskGroup(masks, agg_op) *)

(** What a dictionary given to MaskGroup may hold: a MaskArray or MaskGroup, a
    mapping, an array or sequence, or an iterator, which np.asarray reads as one
    object (its truth value is True). *)
Inductive source :=
| SMask (m : mask)
| SDict (kids : list (string * source))
| SRaw (v : inp bool)
| SIter (items : list bool).

(** MaskArray(val); a stored mask is a vector. *)
Definition mask_of (v : inp bool) : res mask := x <- mask_new v ;; Ok (MArr (elems x)).

Fixpoint convert (s : source) : res mask :=
  match s with
  | SMask m => Ok m
  | SDict kids =>
      l <- mapM (fun p => m <- convert (snd p) ;; Ok (fst p, m)) kids ;; Ok (MGrp "and" (dict_of l))
  | SRaw v => mask_of v
  | SIter _ => mask_of (Plain (Sc true))
  end.
Definition group_new (agg : string) (kids : list (string * source)) : res mask :=
  l <- mapM (fun p => m <- convert (snd p) ;; Ok (fst p, m)) kids ;; Ok (MGrp agg (dict_of l)).

(** * A mask combined with something that is not a mask *)

(** The other operand: a mask, a numpy boolean vector, or a Python bool or list
    of bools. *)
Inductive mother := OMask (m : mask) | ONumpy (l : list bool) | OBool (b : bool) | OList (l : list bool).

(** [mask & other], [mask | other] of MaskArray (535-559) and MaskGroup
    (825-847). *)
Definition mask_op (f : bool -> bool -> bool) (m : mask) (o : mother) : res mask :=
  match o with
  | OMask m2 => y <- data m2 ;; x <- data m ;; r <- broadcast2 f x y ;; Ok (MArr r)
  | ONumpy y => x <- data m ;; r <- broadcast2 f x y ;; Ok (MArr r)
  | OBool _ | OList _ => Err ValueError
  end.
(** [other & mask] for an other that is not a mask: bool and list do not know
    the operation, so the reflected method of NDArrayOperatorsMixin calls the
    ufunc; an ndarray calls it itself; _array_ufunc wraps the result.  A MaskGroup has neither: Python's TypeError for bool and list; an
    ndarray reads it through __array__ and the result is a bare ndarray. *)
Definition mask_rop (f : bool -> bool -> bool) (o : mother) (m : mask) : res mask :=
  match o, m with
  | OMask m1, _ => y <- data m ;; x <- data m1 ;; r <- broadcast2 f x y ;; Ok (MArr r)
  | ONumpy x, MArr y | OList x, MArr y => r <- broadcast2 f x y ;; Ok (MArr r)
  | OBool b, MArr y => Ok (MArr (map (f b) y))
  | ONumpy x, MGrp _ _ => y <- data m ;; r <- broadcast2 f x y ;; Ok (MArr r)
  | _, MGrp _ _ => Err TypeError
  end.

(** * In-place operators *)

(** [x op= y] is [ufunc(x, y, out=(x,))] (NDArrayOperatorsMixin): _array_ufunc
    passes [out=(x._data,)], so numpy writes the result into the buffer of [x],
    whose shape must be the broadcast shape, and wraps the same buffer.  The
    first component is the buffer afterwards, the second what the name [x] is
    rebound to.  With an array of another class the inner call has already
    written the buffer when the AttributeError of line 232 is raised. *)
Definition same_shape {A B} (x : nd A) (y : nd B) : bool :=
  match x, y with
  | Sc _, Sc _ => true
  | Vec l, Vec m => Nat.eqb (length l) (length m)
  | Mat c r, Mat d s => Nat.eqb c d && Nat.eqb (length r) (length s)
  | _, _ => false
  end.
Definition iop {A} (f : A -> A -> A) (new onew : nd A -> res (nd A)) (x : nd A) (o : operand A) : nd A * res (nd A) :=
  let y := match o with OArr y | ORaw y | OOther y => y end in
  match nd_bin f x y with
  | Err e => (x, Err e)
  | Ok r => if same_shape x r
            then (r, match o with
                     | OOther _ => _ <- onew r ;; Err AttributeError
                     | _ => new r
                     end)
            else (x, Err ValueError)
  end.
Definition pdg_iop (f : Z -> Z -> Z) : nd Z -> operand Z -> nd Z * res (nd Z) :=
  iop (fun a b => wrap32 (f a b)) (fun r => pdg_new (Plain r)) (fun r => status_new (Plain r)).
Definition status_iop (f : Z -> Z -> Z) : nd Z -> operand Z -> nd Z * res (nd Z) :=
  iop (fun a b => wrap16 (f a b)) (fun r => status_new (Plain r)) (fun r => helicity_new (Plain r)).
Definition pmu_iop {A} (f : A -> A -> A) : nd A -> operand A -> nd A * res (nd A) :=
  iop f (fun r => pmu_new (Plain r)) (fun r => pmu_new (Plain r)).
Definition maskarr_iop (f : bool -> bool -> bool) : nd bool -> operand bool -> nd bool * res (nd bool) :=
  iop f (fun r => mask_new (Plain r)) (fun r => mask_new (Plain r)).

(** Buffers: objects hold a reference, several may hold the same one
    (constructors keep the caller's buffer when its type fits). *)
Definition iop_heap {A} (op : nd A -> operand A -> nd A * res (nd A)) (h : list (nd A)) (r : nat)
    (o : operand A) : list (nd A) * res nat :=
  match nth_error h r with
  | None => (h, Err IndexError)
  | Some x => (set_nth h r (fst (op x o)), rmap (fun _ => r) (snd (op x o)))
  end.
(** [x op y] allocates a new buffer. *)
Definition bop_heap {A} (op : nd A -> operand A -> res (uout A A)) (h : list (nd A)) (r : nat)
    (o : operand A) : list (nd A) * res nat :=
  match nth_error h r with
  | None => (h, Err IndexError)
  | Some x => match op x o with
              | Ok (UArr y) | Ok (URaw y) => ((h ++ [y])%list, Ok (length h))
              | Err e => (h, Err e)
              end
  end.
