(** Model of AdjacencyList, data.py 2403-2660 (edges, nodes, roots, leaves,
    matrix, from_matrix, comparison). *)
From Verif Require Import Prelude Dict Keys MaskTypes SpecAdj Arrays Composite.

(** The records of the stored array: [_data.view(dtype).reshape(-1)] (2510-2524).
    A flat pair (shape (2,)) is viewed as one edge. *)
Definition edges_of (x : nd Z) : edges :=
  match x with
  | Mat _ rows => flat_map (fun r => match r with [a; b] => [(a, b)] | _ => [] end) rows
  | Vec [a; b] => [(a, b)]
  | _ => []
  end.

(** [np.unique]: ascending, distinct. *)
Fixpoint zins (z : Z) (l : list Z) : list Z :=
  match l with
  | [] => [z]
  | x :: r => if (z <? x)%Z then z :: x :: r else if (z =? x)%Z then x :: r else x :: zins z r
  end.
Definition np_unique (l : list Z) : list Z := fold_right zins [] l.

(** The flattened edge array. *)
Definition flat (es : edges) : list Z := flat_map (fun e => [fst e; snd e]) es.

(** [return_inverse=True]: the position of each value in the unique list. *)
Fixpoint rank (u : list Z) (z : Z) : nat :=
  match u with [] => 0 | x :: r => if (z =? x)%Z then 0 else S (rank r z) end.

(** _edge_relabel, 2486-2489. *)
Definition edge_relabel (es : edges) : list (nat * nat) :=
  let u := np_unique (flat es) in map (fun e => (rank u (fst e), rank u (snd e))) es.

(** A COO sparse square array: size, row / column / data of every stored entry. *)
Record coo (F : Type) := mkCoo { c_size : nat; c_ent : list (nat * nat * F) }.
Arguments mkCoo {F}. Arguments c_size {F}. Arguments c_ent {F}.

(** to_sparse, 2626-2652: np.max of an empty array raises ValueError.
    [data = None]: [np.sign(dst) == 1] for each edge. *)
Definition list_max1 (l : list nat) : nat := fold_right Nat.max 0 l.
Definition to_sparse {F} (es : edges) (data : list F) : res (coo F) :=
  match edge_relabel es with
  | [] => Err ValueError
  | rl => Ok (mkCoo (list_max1 (map fst rl ++ map snd rl) + 1) (combine rl data))
  end.
Definition sparse_signed (es : edges) : res (coo bool) :=
  to_sparse es (map (fun e => 0 <? snd e)%Z es).

(** _sparse_unsigned, 2495-2499: every stored value True. *)
Definition sparse_unsigned (es : edges) : res (coo bool) :=
  s <- sparse_signed es ;; Ok (mkCoo (c_size s) (map (fun e => (fst e, true)) (c_ent s))).

(** [np.abs] on int32, [np.argsort] with numpy's default (unstable) sort as an
    argument; nodes, 2526-2538. *)
Definition nodes (argsort : list Z -> list nat) (es : edges) : list Z :=
  let u := np_unique (flat es) in
  map (fun i => nth i u 0%Z) (argsort (map (fun z => wrap32 (Z.abs z)) u)).

(** roots and leaves, 2540-2560: degree = number of stored entries per column
    / row; in1d of the row / column indices of the entries. *)
Definition in1d (l s : list nat) : list bool := map (fun i => existsb (Nat.eqb i) s) l.
Definition zero_idxs (n : nat) (deg : nat -> nat) : list nat :=
  filter (fun i => Nat.eqb (deg i) 0) (seq 0 n).
Definition row_of {F} (e : nat * nat * F) : nat := fst (fst e).
Definition col_of {F} (e : nat * nat * F) : nat := snd (fst e).
Definition roots (es : edges) : res (list bool) :=
  s <- sparse_unsigned es ;;
  let in_degree j := length (filter (fun e => Nat.eqb (col_of e) j) (c_ent s)) in
  Ok (in1d (map row_of (c_ent s)) (zero_idxs (c_size s) in_degree)).
Definition leaves (es : edges) : res (list bool) :=
  s <- sparse_unsigned es ;;
  let out_degree i := length (filter (fun e => Nat.eqb (row_of e) i) (c_ent s)) in
  Ok (in1d (map col_of (c_ent s)) (zero_idxs (c_size s) out_degree)).

(** sum_duplicates then todense: every entry is the sum of the stored values
    at that place. *)
Section Dense.
  Context {F : Type} (add : F -> F -> F) (zero : F).
  Definition dense (s : coo F) : list (list F) :=
    map (fun i => map (fun j =>
      fold_left add (map snd (filter (fun e => Nat.eqb (row_of e) i && Nat.eqb (col_of e) j) (c_ent s))) zero)
      (seq 0 (c_size s))) (seq 0 (c_size s)).
End Dense.

(** matrix, 2562-2587, unweighted: bool data cast to int32 (counts below 2^31). *)
Definition matrix_int (es : edges) : res (list (list Z)) :=
  s <- sparse_unsigned es ;;
  Ok (dense Z.add 0%Z (mkCoo (c_size s) (map (fun e : nat * nat * bool => (fst e, if snd e then 1 else 0)%Z) (c_ent s)))).
(** weighted: the values replaced by the weight vector (2505-2508). *)
Definition matrix_weighted {F} (add : F -> F -> F) (zero : F) (es : edges) (w : list F) : res (list (list F)) :=
  s <- sparse_signed es ;;
  Ok (dense add zero (mkCoo (c_size s) (combine (map fst (c_ent s)) w))).

(** from_matrix, 2588-2624.  coo_array of a dense matrix stores its non-zeros
    in row-major order; setdiag(0.0) drops the diagonal entries and appends an
    explicit zero for every diagonal place. *)
Definition nonzeros {F} (is_zero : F -> bool) (m : list (list F)) : list (nat * nat * F) :=
  flat_map (fun ir => flat_map (fun jx => if is_zero (snd jx) then [] else [(fst ir, fst jx, snd jx)])
                               (enumerate (snd ir))) (enumerate m).
Definition setdiag0 {F} (zero : F) (n : nat) (es : list (nat * nat * F)) : list (nat * nat * F) :=
  filter (fun e => negb (Nat.eqb (row_of e) (col_of e))) es ++ map (fun i => (i, i, zero)) (seq 0 n).
Definition from_matrix {F} (is_zero : F -> bool) (zero : F) (m : list (list F)) (weighted self_loop : bool) : res (adjl F) :=
  let es := nonzeros is_zero m in
  let es := if self_loop then setdiag0 zero (length m) es else es in
  d <- adj_new (Plain (Mat 2 (map (fun e => [Z.of_nat (row_of e); Z.of_nat (col_of e)]) es))) ;;
  Ok (mkA d (if weighted then map snd es else [])).

(** The property .matrix of an instance: weighted iff weights is non-empty.
    Stated for numbers in which the integers embed by [ofZ]. *)
Definition matrix {F} (add : F -> F -> F) (zero : F) (ofZ : Z -> F) (a : adjl F) : res (list (list F)) :=
  match a_weights a with
  | [] => m <- matrix_int (edges_of (a_data a)) ;; Ok (map (map ofZ) m)
  | w => matrix_weighted add zero (edges_of (a_data a)) w
  end.

(** * Comparison: _array_eq_prep / _array_eq / _array_ne, data.py 237-274, for an AdjacencyList on the left. *)
Inductive other :=
| OSeq (l : list Z)       (* a tuple or list of integers *)
| ONdarray                (* any numpy array: not a Sequence *)
| OAdj (x : nd Z).        (* another AdjacencyList: a Sequence, not an ArrayBase *)

Definition pair_eqb (p q : Z * Z) : bool := ((fst p =? fst q) && (snd p =? snd q))%Z.

Definition adj_compare (ne : bool) (x : nd Z) (o : other) : res (nd bool) :=
  let cmp p q := xorb (pair_eqb p q) ne in
  match o with
  | ONdarray => Err ValueError
  | OSeq l =>
      match l with
      | [a; b] => mask_new (Plain (Vec (map (fun e => cmp e (wrap32 a, wrap32 b)) (edges_of x))))
      | _ => Err ValueError
      end
  | OAdj y =>
      if negb (Nat.eqb (nd_len y) 2) then Err ValueError
      else match y with
           (* np.array(other, "<i4").view(dtype): shape (2, 1); broadcasting with (m,) gives (2, m) *)
           | Mat _ _ => mask_new (Plain (Mat (length (edges_of x)) (map (fun q => map (fun e => cmp e q) (edges_of x)) (edges_of y))))
           | Vec _ => mask_new (Plain (Vec (map (fun e => existsb (cmp e) (edges_of y)) (edges_of x))))
           | Sc _ => Err ValueError
           end
  end.
