(** Reference-level model of the array classes and of ParticleSet / Graphicle: numpy buffers, the windows on them held by
    the wrapping objects, and the references held by composites, so that aliasing and in-place writes can be observed.
    The contents of one record (a code, a four-momentum, a pair) are the parameter T.
    Not modelled here: edge weights, cached coordinates (Coords.v) and cached sparse matrices (AdjCache.v), memory held
    by views other than the [data] of an object. *)
From Verif Require Import Prelude Keys SpecMemory.

Section Mem.
Context {T : Type}.

(** A caller's own ndarray ([ready]: it already has the dtype of the class it is meant for and is row-contiguous); an instance of
    an array class: its [_data] is a row-contiguous window (first record, number of records) on a buffer, because the converter
    ends in np.ascontiguousarray (data.py:377-400); a ParticleSet (2211-2254: six components in order); a Graphicle (2680-2708). *)
Inductive obj :=
| ONd (ready : bool) (b off n : nat)
| OArr (c : cls) (b off n : nat)
| OSet (kids : list nat)
| OGraph (part adj : nat).
Record st := mkSt { bufs : list (list T); objs : list obj }.
Definition hres (A : Type) := (st * res A)%type.

Definition new_buf (s : st) (l : list T) : st * nat := (mkSt (bufs s ++ [l]) (objs s), length (bufs s)).
Definition new_obj (s : st) (o : obj) : st * nat := (mkSt (bufs s) (objs s ++ [o]), length (objs s)).
(** An instance on a buffer of its own. *)
Definition fresh (s : st) (c : cls) (l : list T) : st * nat :=
  let (s1, b) := new_buf s l in new_obj s1 (OArr c b 0 (length l)).

(** The records seen through a window. *)
Definition window (s : st) (b off n : nat) : list T :=
  match nth_error (bufs s) b with Some l => firstn n (skipn off l) | None => [] end.

(** numpy: the result of basic slicing is contiguous when it has at most one row or takes neighbouring rows in ascending order. *)
Definition contiguous (ps : list nat) : bool :=
  match ps with [] => true | p :: _ => if list_eq_dec Nat.eq_dec ps (seq p (length ps)) then true else false end.

(** [self.__class__(self._data[key])], data.py:524-527, 1178-1181, 1460-1463, 1886-1889, 1974-1977, 2056-2059, 2477-2480: basic slicing is a view,
    an integer is a view of a row of a two-dimensional array and a scalar (no memory) of a flat one, masks and integer lists
    copy; then np.asarray (no copy, the dtype is right) and np.ascontiguousarray (a copy only if not contiguous).
    Simplification: color[i] is its one record (its _data is flat, C21). *)
Definition select (s : st) (c : cls) (b off n : nat) (k : key) : hres nat :=
  match resolve n k with
  | Err e => (s, Err e)
  | Ok ps =>
      let view := let (s1, o) := new_obj s (OArr c b (off + hd 0 ps) (length ps)) in (s1, Ok o) in
      match mapM (get (window s b off n)) ps with
      | Err e => (s, Err e)
      | Ok l =>
          let copy := let (s1, o) := fresh s c l in (s1, Ok o) in
          match k with
          | KSlice _ _ _ => if contiguous ps then view else copy
          | KInt _ => if two_dim c then view else copy
          | KMask _ | KList _ => copy
          end
      end
  end.
(** [copy] of the array classes: [self.__class__(self._data.copy())], 517-519, 1191-1193, 1478-1480, 1882-1884, 1970-1972, 2086-2088, 2482-2484. *)
Definition copy_arr (s : st) (c : cls) (b off n : nat) : hres nat :=
  let (s1, o) := fresh s c (window s b off n) in (s1, Ok o).

(** bool() of an array, 455-457, and of a ParticleSet, 2180-2181. *)
Definition nonempty1 (s : st) (o : nat) : bool :=
  match nth_error (objs s) o with Some (OArr _ _ _ n) => negb (Nat.eqb n 0) | _ => false end.
Definition nonempty (s : st) (o : nat) : bool :=
  match nth_error (objs s) o with
  | Some (OSet kids) => existsb (nonempty1 s) kids
  | _ => nonempty1 s o
  end.

(** One method applied to an array object. *)
Definition on_arr (f : st -> cls -> nat -> nat -> nat -> hres nat) (s : st) (o : nat) : hres nat :=
  match nth_error (objs s) o with
  | Some (OArr c b off n) => f s c b off n
  | _ => (s, Err AttributeError)
  end.
(** _composite_getitem (2174-2177) and _composite_copy (2188-2191) on one component: empty components are left out, so that
    the constructor's default, a new empty array, takes their place. *)
Definition component (f : st -> cls -> nat -> nat -> nat -> hres nat) (s : st) (c : cls) (o : nat) : hres nat :=
  if nonempty1 s o then on_arr f s o else let (s1, o') := fresh s c [] in (s1, Ok o').
Fixpoint components (f : st -> cls -> nat -> nat -> nat -> hres nat) (s : st) (cs : list cls) (kids : list nat) : hres (list nat) :=
  match cs, kids with
  | c :: cs, o :: kids =>
      match component f s c o with
      | (s1, Ok o') => match components f s1 cs kids with (s2, Ok os) => (s2, Ok (o' :: os)) | (s2, Err e) => (s2, Err e) end
      | (s1, Err e) => (s1, Err e)
      end
  | _, _ => (s, Ok [])
  end.
Definition set_classes : list cls := [Pdg; Pmu; Color; Helicity; Status; Final].
Definition on_set (f : st -> cls -> nat -> nat -> nat -> hres nat) (s : st) (kids : list nat) : hres nat :=
  match components f s set_classes kids with
  | (s1, Ok os) => let (s2, o) := new_obj s1 (OSet os) in (s2, Ok o)
  | (s1, Err e) => (s1, Err e)
  end.
(** The same for any object; for a Graphicle the components are its ParticleSet and its AdjacencyList. An empty ParticleSet has
    only empty components, so the default ParticleSet() is what [on_set] gives. *)
Definition on_obj (f : st -> cls -> nat -> nat -> nat -> hres nat) (s : st) (o : nat) : hres nat :=
  match nth_error (objs s) o with
  | Some (OArr c b off n) => f s c b off n
  | Some (OSet kids) => on_set f s kids
  | Some (OGraph p a) =>
      match nth_error (objs s) p with
      | Some (OSet kids) =>
          match on_set f s kids with
          | (s1, Ok p') =>
              match component f s1 Edges a with
              | (s2, Ok a') => let (s3, g) := new_obj s2 (OGraph p' a') in (s3, Ok g)
              | (s2, Err e) => (s2, Err e)
              end
          | (s1, Err e) => (s1, Err e)
          end
      | _ => (s, Err AttributeError)
      end
  | _ => (s, Err TypeError)
  end.
(** x[key] and x.copy(). *)
Definition getitem (s : st) (o : nat) (k : key) : hres nat := on_obj (fun s c b off n => select s c b off n k) s o.
Definition copy (s : st) (o : nat) : hres nat := on_obj copy_arr s o.

(** Attribute access: g.particles, g.adj, particles.pdg, ... (2250-2254, 2704-2705). *)
Definition kid (s : st) (o i : nat) : option nat :=
  match nth_error (objs s) o with
  | Some (OSet kids) => nth_error kids i
  | Some (OGraph p a) => nth_error [p; a] i
  | _ => None
  end.

(** Writing records: x.data[key] = v, x.data["e"][key] = v, and the same on a caller's ndarray: numpy writes into the buffer. *)
Definition modify (f : T -> T) (l : list T) (p : nat) : list T :=
  match nth_error l p with Some x => set_nth l p (f x) | None => l end.
Definition write_buf (s : st) (b : nat) (ps : list nat) (f : T -> T) : st :=
  match nth_error (bufs s) b with
  | Some l => mkSt (set_nth (bufs s) b (fold_left (modify f) ps l)) (objs s)
  | None => s
  end.
Definition write (s : st) (o : nat) (k : key) (f : T -> T) : hres unit :=
  match nth_error (objs s) o with
  | Some (OArr _ b off n) | Some (ONd _ b off n) =>
      match resolve n k with
      | Ok ps => (write_buf s b (map (Nat.add off) ps) f, Ok tt)
      | Err e => (s, Err e)
      end
  | _ => (s, Err TypeError)
  end.

(** The window a constructor (or the setter of [data]) ends up with for the object's or ndarray's data: the converter
    (403-452) copies only when the dtype or the layout must change. *)
Definition adopt (s : st) (src : nat) : hres (nat * nat * nat) :=
  match nth_error (objs s) src with
  | Some (OArr _ b off n) | Some (ONd true b off n) => (s, Ok (b, off, n))
  | Some (ONd false b off n) => let l := window s b off n in let (s1, b') := new_buf s l in (s1, Ok (b', 0, length l))
  | _ => (s, Err TypeError)
  end.
(** Cls(nd), Cls(x.data). *)
Definition construct (s : st) (c : cls) (src : nat) : hres nat :=
  match adopt s src with
  | (s1, Ok (b, off, n)) => let (s2, o) := new_obj s1 (OArr c b off n) in (s2, Ok o)
  | (s1, Err e) => (s1, Err e)
  end.
(** x.data = y.data (or an ndarray): the setter rebinds [_data] (578-582, 1187-1189, 1442-1444, 1868-1870, 1966-1968, 2082-2084). AdjacencyList has
    no setter (2511-2519). *)
Definition set_data (s : st) (o src : nat) : hres unit :=
  match nth_error (objs s) o with
  | Some (OArr Edges _ _ _) => (s, Err AttributeError)
  | Some (OArr c _ _ _) =>
      match adopt s src with
      | (s1, Ok (b, off, n)) => (mkSt (bufs s1) (set_nth (objs s1) o (OArr c b off n)), Ok tt)
      | (s1, Err e) => (s1, Err e)
      end
  | _ => (s, Err TypeError)
  end.
(** particles.pdg = x, g.adj = x: rebinds the attribute. Assigning an object of another class is not modelled (no change). *)
Definition is_arr (s : st) (o : nat) (c : cls) : bool :=
  match nth_error (objs s) o with
  | Some (OArr c' _ _ _) => match c, c' with
      | Pdg, Pdg | Pmu, Pmu | Color, Color | Helicity, Helicity | Status, Status | Final, Final | Edges, Edges => true | _, _ => false end
  | _ => false
  end.
Definition is_set (s : st) (o : nat) : bool := match nth_error (objs s) o with Some (OSet _) => true | _ => false end.
Definition set_field (s : st) (o i x : nat) : st :=
  match nth_error (objs s) o, i with
  | Some (OSet kids), _ =>
      match nth_error set_classes i with
      | Some c => if is_arr s x c then mkSt (bufs s) (set_nth (objs s) o (OSet (set_nth kids i x))) else s
      | None => s
      end
  | Some (OGraph p a), 0 => if is_set s x then mkSt (bufs s) (set_nth (objs s) o (OGraph x a)) else s
  | Some (OGraph p a), 1 => if is_arr s x Edges then mkSt (bufs s) (set_nth (objs s) o (OGraph p x)) else s
  | _, _ => s
  end.
(** ParticleSet.from_numpy / the constructor called with the six arrays (2341-2389), Graphicle(particles, adj). *)
Fixpoint construct_all (s : st) (cs : list cls) (src : list nat) : hres (list nat) :=
  match cs, src with
  | c :: cs, x :: src =>
      match construct s c x with
      | (s1, Ok o) => match construct_all s1 cs src with (s2, Ok os) => (s2, Ok (o :: os)) | (s2, Err e) => (s2, Err e) end
      | (s1, Err e) => (s1, Err e)
      end
  | [], [] => (s, Ok [])
  | _, _ => (s, Err TypeError)
  end.
Definition make_set (s : st) (src : list nat) : hres nat :=
  match construct_all s set_classes src with
  | (s1, Ok os) => let (s2, o) := new_obj s1 (OSet os) in (s2, Ok o)
  | (s1, Err e) => (s1, Err e)
  end.

(** A program: statements on variables (positions in the environment, a list of references). A statement that makes an object
    appends it to the environment. An exception is caught and the program goes on. *)
Inductive op :=
| Get (x : nat) (k : key)                        (* y = x[k] *)
| Copy (x : nat)                                 (* y = x.copy() *)
| Field (x i : nat)                              (* y = x.pdg, g.adj, ... *)
| Construct (c : cls) (x : nat)                  (* y = Cls(x) *)
| MakeSet (xs : list nat)                        (* y = ParticleSet.from_numpy(...) *)
| MakeGraph (p a : nat)                          (* y = Graphicle(p, a) *)
| Array (ready : bool) (l : list T)              (* y = a new ndarray *)
| Write (x : nat) (k : key) (f : T -> T)         (* x.data[k] = ... *)
| SetData (x y : nat)                            (* x.data = y.data *)
| SetField (x i y : nat).                        (* x.pdg = y *)

Definition push (env : list nat) (r : hres nat) : st * list nat :=
  match r with (s, Ok o) => (s, env ++ [o]) | (s, Err _) => (s, env) end.
Fixpoint all {A} (l : list (option A)) : option (list A) :=
  match l with [] => Some [] | Some x :: l => match all l with Some r => Some (x :: r) | None => None end | None :: _ => None end.
Definition step (s : st) (env : list nat) (o : op) : st * list nat :=
  let var x (k : nat -> st * list nat) := match nth_error env x with Some r => k r | None => (s, env) end in
  match o with
  | Get x k => var x (fun r => push env (getitem s r k))
  | Copy x => var x (fun r => push env (copy s r))
  | Field x i => var x (fun r => match kid s r i with Some r' => (s, env ++ [r']) | None => (s, env) end)
  | Construct c x => var x (fun r => push env (construct s c r))
  | MakeSet xs => match all (map (nth_error env) xs) with Some rs => push env (make_set s rs) | None => (s, env) end
  | MakeGraph p a => var p (fun rp => var a (fun ra => if is_set s rp && is_arr s ra Edges then let (s1, g) := new_obj s (OGraph rp ra) in (s1, env ++ [g]) else (s, env)))
  | Array ready l => let (s1, b) := new_buf s l in let (s2, r) := new_obj s1 (ONd ready b 0 (length l)) in (s2, env ++ [r])
  | Write x k f => var x (fun r => (fst (write s r k f), env))
  | SetData x y => var x (fun r => var y (fun r' => (fst (set_data s r r'), env)))
  | SetField x i y => var x (fun r => var y (fun r' => (set_field s r i r', env)))
  end.

(** Two programs that share no variable, interleaved arbitrarily: [true] is a statement of the first. *)
Definition step2 (p : st * list nat * list nat) (o : bool * op) : st * list nat * list nat :=
  let '(s, ea, eb) := p in
  if fst o then let (s', ea') := step s ea (snd o) in (s', ea', eb) else let (s', eb') := step s eb (snd o) in (s', ea, eb').
Definition run2 (p : st * list nat * list nat) (ops : list (bool * op)) : st * list nat * list nat := fold_left step2 ops p.

(** What a user reads: x.data, x.pdg.data, g.particles.pmu.data: the records at a path of attributes; None when there is no
    array there. *)
Fixpoint read (s : st) (o : nat) (path : list nat) : option (list T) :=
  match path with
  | [] => match nth_error (objs s) o with Some (OArr _ b off n) | Some (ONd _ b off n) => Some (window s b off n) | _ => None end
  | i :: path => match kid s o i with Some o' => read s o' path | None => None end
  end.

(** Every reference and every window is valid. *)
Definition valid (s : st) : Prop := forall o ob, nth_error (objs s) o = Some ob ->
  match ob with
  | ONd _ b off n | OArr _ b off n => exists l, nth_error (bufs s) b = Some l /\ off + n <= length l
  | OSet kids => length kids = 6 /\ forall i x, nth_error kids i = Some x -> exists c, nth_error set_classes i = Some c /\ is_arr s x c = true
  | OGraph p a => is_set s p = true /\ is_arr s a Edges = true
  end.
End Mem.
Arguments obj : clear implicits.
Arguments st : clear implicits.
Arguments op : clear implicits.
