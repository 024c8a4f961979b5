(** Model of the graph searches of select.py: vertex_descendants (254-288),
    edge_descendants (291-316), hadron_vertices (319-343), find_vertex (168-251). *)
From Verif Require Import Prelude Dict Keys MaskTypes SpecAdj Arrays Composite Adjacency.

(** * scipy.sparse.csgraph.breadth_first_tree

    [csr_array(coo)]: per row the stored column indices, sorted, duplicates
    summed; explicit False entries stay stored. *)
Fixpoint nins (z : nat) (l : list nat) : list nat :=
  match l with
  | [] => [z]
  | x :: r => if z <? x then z :: x :: r else if z =? x then x :: r else x :: nins z r
  end.
Definition csr_row {F} (s : coo F) (i : nat) : list nat :=
  fold_right nins [] (map col_of (filter (fun e => Nat.eqb (row_of e) i) (c_ent s))).

(** One dequeued node of scipy's _breadth_first_directed: every neighbour that
    is not the head and has no predecessor yet is appended. *)
Definition bfs_inner (head pnode : nat) (succs : list nat) (st : list nat * list (option nat)) : list nat * list (option nat) :=
  fold_left (fun st c =>
    if Nat.eqb c head then st
    else match nth_error (snd st) c with
         | Some None => (fst st ++ [c], set_nth (snd st) c (Some pnode))
         | _ => st
         end) succs st.

(** The while loop: [i] = i_nl, [nodes] = node_list[:i_nl_end]. Running out of
    fuel is [Err RecursionError]; it never happens with fuel = number of nodes. *)
Fixpoint bfs_loop (fuel : nat) (succ : nat -> list nat) (head i : nat) (nodes : list nat) (pred : list (option nat))
  : res (list (option nat)) :=
  match nth_error nodes i with
  | None => Ok pred
  | Some p =>
      match fuel with
      | 0 => Err RecursionError
      | S f => let st := bfs_inner head p (succ p) (nodes, pred) in bfs_loop f succ head (S i) (fst st) (snd st)
      end
  end.

(** [breadth_first_tree(...).indices]: the nodes with a predecessor
    (scipy's reconstruct_path), here in ascending order; only membership is used. *)
Definition bft_indices (size : nat) (succ : nat -> list nat) (head : nat) : res (list nat) :=
  pred <- bfs_loop size succ head 0 [head] (repeat None size) ;;
  Ok (map fst (filter (fun p => match snd p with Some _ => true | None => false end) (enumerate pred))).

(** vertex_descendants, select.py 254-288. *)
Definition vertex_descendants (es : edges) (v : Z) : res (list bool) :=
  let vertex_mask := map (fun e => Z.eqb (fst e) v) es in
  if negb (existsb (fun b => b) vertex_mask) then Ok (map (fun e => Z.eqb (snd e) v) es)
  else
    s <- sparse_signed es ;;
    let row := map row_of (c_ent s) in
    start <- get (compress vertex_mask row) 0 ;;
    idx <- bft_indices (c_size s) (csr_row s) start ;;
    Ok (map (fun r => existsb (Nat.eqb r) idx || Nat.eqb r start) row).

(** edge_descendants, select.py 291-316: [desc[adj == edge] = True]. *)
Definition edge_descendants (es : edges) (e : Z * Z) : res (list bool) :=
  d <- vertex_descendants es (snd e) ;;
  Ok (map2 (fun b x => b || pair_eqb x (wrap32 (fst e), wrap32 (snd e))) d es).

(** hadron_vertices, select.py 319-343. *)
Definition hadron_vertices (es : edges) (status : list Z) : res (list Z) :=
  sel <- getkey es (KMask (in_range status 80 (Some 90%Z) false)) ;;
  Ok (np_unique (map fst sel)).

(** * find_vertex, select.py 168-251, with the pandas calls written out. *)

(** [df.pivot_table(index=key, values="pdg", aggfunc=tuple)]: one row per key,
    ascending, with the group's values in record order. *)
Definition pivot (keys : list Z) (pdg : list Z) : list (Z * list Z) :=
  map (fun k => (k, map snd (filter (fun p => Z.eqb (fst p) k) (combine keys pdg)))) (np_unique keys).

Fixpoint zget {V} (k : Z) (d : list (Z * V)) : option V :=
  match d with [] => None | (x, v) :: r => if Z.eqb k x then Some v else zget k r end.

(** [pcls_out.join(pcls_in, how="outer")], then sort_index(ascending=False):
    missing sides are NaN ([None]). *)
Definition outer_join (a b : list (Z * list Z)) : list (Z * option (list Z) * option (list Z)) :=
  map (fun k => (k, zget k a, zget k b)) (rev (np_unique (map fst a ++ map fst b))).

(** [explode]: one row per element; NaN stays one row.  (Groups are never empty.) *)
Definition cells (o : option (list Z)) : list (option Z) :=
  match o with None => [None] | Some [] => [None] | Some l => map Some l end.
Definition explode2 (t : list (Z * option (list Z) * option (list Z))) : list (Z * option Z * option Z) :=
  flat_map (fun r => flat_map (fun x => map (fun y => (fst (fst r), x, y)) (cells (snd r))) (cells (snd (fst r)))) t.

(** [search[name].issubset(set(x.to_list()))]. *)
Definition subset_of (want : list Z) (col : list (option Z)) : bool :=
  forallb (fun z => existsb (fun o => match o with Some y => Z.eqb z y | None => false end) col) want.

Definition find_vertex (es : edges) (pdg : list Z) (pdgs_in pdgs_out : option (list Z)) : res (list Z) :=
  match pdgs_in, pdgs_out with
  | None, None => Err ValueError
  | _, _ =>
      let want_in := match pdgs_in with Some s => s | None => [] end in
      let want_out := match pdgs_out with Some s => s | None => [] end in
      (* df["pdg"] = ...: a column of another length is ValueError *)
      if negb (Nat.eqb (length pdg) (length es)) then Err ValueError
      else
        let pcls_in := pivot (map fst es) pdg in
        let pcls_out := pivot (map snd es) pdg in
        let t := explode2 (outer_join pcls_out pcls_in) in
        let masks := map (fun k =>
          let g := filter (fun r => Z.eqb (fst (fst r)) k) t in
          (k, subset_of want_in (map (fun r => snd (fst r)) g), subset_of want_out (map snd g)))
          (np_unique (map (fun r => fst (fst r)) t)) in
        Ok (map (fun m => fst (fst m)) (filter (fun m => snd (fst m) && snd m) masks))
  end.
