(** The cached properties of AdjacencyList (data.py:2486-2508) under writes to the edges: reference-level model of one instance. *)
From Verif Require Import Prelude Dict Keys MaskTypes SpecAdj Arrays Composite Adjacency Descend SpecCache.

Section Cache.
Context {F : Type} (add : F -> F -> F) (zero : F) (ofZ : Z -> F) (argsort : list Z -> list nat).

(** The edges now in [_data], the weights, and the four functools.cached_property values, if already computed. *)
Record aobj := mkO {
  o_es : edges; o_w : list F;
  o_relabel : option (list (nat * nat)); o_signed : option (coo bool); o_unsigned : option (coo bool); o_csr : option (coo bool) }.
Definition new_aobj (es : edges) (w : list F) : aobj := mkO es w None None None None.

(** A computation on the instance: the value (or exception) and the instance afterwards. *)
Definition run1 (A : Type) := aobj -> res A * aobj.
Definition abind {A B} (x : run1 A) (f : A -> run1 B) : run1 B := fun o => match x o with (Ok a, o') => f a o' | (Err e, o') => (Err e, o') end.
Definition aret {A} (a : res A) : run1 A := fun o => (a, o).

(** _edge_relabel, 2486-2489. *)
Definition relabel_ : run1 (list (nat * nat)) := fun o =>
  match o_relabel o with
  | Some r => (Ok r, o)
  | None => let r := edge_relabel (o_es o) in (Ok r, mkO (o_es o) (o_w o) (Some r) (o_signed o) (o_unsigned o) (o_csr o))
  end.
(** to_sparse() with data=None, 2626-2652: the cached labels, the signs of the present edges. *)
Definition to_sparse_ : run1 (coo bool) := abind relabel_ (fun rl o =>
  match rl with
  | [] => (Err ValueError, o)
  | _ => (Ok (mkCoo (list_max1 (map fst rl ++ map snd rl) + 1) (combine rl (map (fun e => 0 <? snd e)%Z (o_es o)))), o)
  end).
(** _sparse_signed, 2491-2493. *)
Definition signed_ : run1 (coo bool) := fun o =>
  match o_signed o with
  | Some s => (Ok s, o)
  | None => match to_sparse_ o with
            | (Ok s, o') => (Ok s, mkO (o_es o') (o_w o') (o_relabel o') (Some s) (o_unsigned o') (o_csr o'))
            | r => r
            end
  end.
(** _sparse_unsigned, 2495-2499. *)
Definition unsigned_ : run1 (coo bool) := fun o =>
  match o_unsigned o with
  | Some s => (Ok s, o)
  | None => match signed_ o with
            | (Ok s, o') => let u := mkCoo (c_size s) (map (fun e => (fst e, true)) (c_ent s)) in
                            (Ok u, mkO (o_es o') (o_w o') (o_relabel o') (o_signed o') (Some u) (o_csr o'))
            | r => r
            end
  end.
(** _sparse_csr, 2501-2503 (the stored entries; its rows are read by [csr_row]). *)
Definition csr_ : run1 (coo bool) := fun o =>
  match o_csr o with
  | Some s => (Ok s, o)
  | None => match signed_ o with
            | (Ok s, o') => (Ok s, mkO (o_es o') (o_w o') (o_relabel o') (o_signed o') (o_unsigned o') (Some s))
            | r => r
            end
  end.

(** What a read can return. *)
Inductive aval := VNodes (l : list Z) | VMask (m : list bool) | VMatrix (m : list (list F)).

(** roots, leaves, 2540-2560. *)
Definition roots_ : run1 aval := abind unsigned_ (fun s => aret (Ok (VMask
  (in1d (map row_of (c_ent s)) (zero_idxs (c_size s) (fun j => length (filter (fun e => Nat.eqb (col_of e) j) (c_ent s)))))))).
Definition leaves_ : run1 aval := abind unsigned_ (fun s => aret (Ok (VMask
  (in1d (map col_of (c_ent s)) (zero_idxs (c_size s) (fun i => length (filter (fun e => Nat.eqb (row_of e) i) (c_ent s)))))))).
(** nodes, 2526-2538. *)
Definition nodes_ : run1 aval := fun o => (Ok (VNodes (nodes argsort (o_es o))), o).
(** matrix, 2562-2587, with _sparse_weighted, 2505-2509. *)
Definition matrix_ : run1 aval := fun o =>
  match o_w o with
  | [] => abind unsigned_ (fun s => aret (Ok (VMatrix (map (map ofZ) (dense Z.add 0%Z
            (mkCoo (c_size s) (map (fun e : nat * nat * bool => (fst e, if snd e then 1 else 0)%Z) (c_ent s)))))))) o
  | w => abind signed_ (fun s => aret (Ok (VMatrix (dense add zero (mkCoo (c_size s) (combine (map fst (c_ent s)) w)))))) o
  end.
(** vertex_descendants, select.py:275-288. *)
Definition descendants_ (v : Z) : run1 aval := fun o =>
  let vertex_mask := map (fun e => Z.eqb (fst e) v) (o_es o) in
  if negb (existsb (fun b => b) vertex_mask) then (Ok (VMask (map (fun e => Z.eqb (snd e) v) (o_es o))), o)
  else abind signed_ (fun s =>
       let row := map row_of (c_ent s) in
       abind (aret (get (compress vertex_mask row) 0)) (fun start =>
       abind csr_ (fun c =>
       abind (aret (bft_indices (c_size c) (csr_row c) start)) (fun idx =>
       aret (Ok (VMask (map (fun r => existsb (Nat.eqb r) idx || Nat.eqb r start) row))))))) o.

Definition exec (o : aobj) (op : aop F) : option (res aval) * aobj :=
  let read (x : run1 aval) := let (v, o') := x o in (Some v, o') in
  match op with
  | Nodes => read nodes_
  | Roots => read roots_
  | Leaves => read leaves_
  | Matrix => read matrix_
  | Descendants v => read (descendants_ v)
  | Assign p e => (None, mkO (set_nth (o_es o) p e) (o_w o) (o_relabel o) (o_signed o) (o_unsigned o) (o_csr o))
  | Weights w => (None, mkO (o_es o) w (o_relabel o) (o_signed o) (o_unsigned o) (o_csr o))
  end.
Fixpoint results (o : aobj) (ops : list (aop F)) : list (res aval) :=
  match ops with
  | [] => []
  | op :: r => let (v, o') := exec o op in match v with Some v => v :: results o' r | None => results o' r end
  end.
End Cache.
