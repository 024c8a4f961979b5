(** Model of the hierarchy of the hard process, select.py 479-609 and 716-874. *)
From Verif Require Import Prelude Dict Keys MaskTypes SpecMask Mask SpecArray SpecAdj Arrays Composite Adjacency Descend SpecHard Hard.

Definition any (l : list bool) : bool := existsb (fun b => b) l.

(** _hard_ancestor_matrix, select.py 479-505.  [mat[i, :] = mask.data] broadcasts a
    one-element vector; any other length than the number of masks is ValueError. *)
Definition ancestor_matrix (hard_desc : list (string * mask)) : res (list (list bool)) :=
  let n := length hard_desc in
  rows <- mapM (fun p => d <- data (snd p) ;;
                         if Nat.eqb (length d) n then Ok d
                         else match d with [b] => Ok (repeat b n) | _ => Err ValueError end) hard_desc ;;
  Ok (map (fun p => set_nth (snd p) (fst p) false) (enumerate rows)).

(** [sorted(rows, key=np.sum)]: stable insertion sort of the row numbers. *)
Fixpoint sort_ins (key : nat -> nat) (x : nat) (l : list nat) : list nat :=
  match l with
  | [] => [x]
  | y :: r => if key x <=? key y then x :: y :: r else y :: sort_ins key x r
  end.
Definition sort_by (key : nat -> nat) (l : list nat) : list nat := fold_right (sort_ins key) [] l.

(** _hard_parent_matrix, select.py 508-538.  Rows are views, so [row_j] is the
    current content; rows are identified by number ([is not]). *)
Definition row (m : list (list bool)) (i : nat) : list bool := nth i m [].
Definition parent_step (m : list (list bool)) (p : nat * nat) : list (list bool) :=
  if Nat.eqb (fst p) (snd p) then m
  else set_nth m (fst p) (map2 (fun x y => x && negb y) (row m (fst p)) (row m (snd p))).
Definition asc_parents (m : list (list bool)) : list nat :=
  sort_by (fun i => count_true (row m i)) (filter (fun i => any (row m i)) (seq 0 (length m))).
Definition parent_matrix (m : list (list bool)) : list (list bool) :=
  fold_left parent_step (list_prod (rev (asc_parents m)) (asc_parents m)) m.

(** _hard_parent_dict, select.py 541-572. *)
Definition parent_dict (m : list (list bool)) (names : list string) : list (string * list string) :=
  dict_of (map (fun p => (fst p, compress (snd p) names)) (filter (fun p => any (snd p)) (combine names m))).

(** _flat_hierarchy, select.py 575-609. *)
Definition flat_hierarchy (hard_desc : list (string * mask)) : res (list (string * list string)) :=
  m <- ancestor_matrix hard_desc ;; Ok (parent_dict (parent_matrix m) (dkeys hard_desc)).

(** _make_tree, select.py 826-874. *)

(** [branch["latent"] = branch.data != desc[key].data] *)
Definition with_latent (desc : list (string * mask)) (key : string) (branch : list (string * mask)) : res mask :=
  x <- data (MGrp "or" branch) ;;
  m <- match dget key desc with Some m => Ok m | None => Err KeyError end ;;
  y <- data m ;;
  if Nat.eqb (length x) (length y) then Ok (MGrp "or" (dset "latent" (MArr (map2 xorb x y)) branch)) else Err ValueError.

(** The leaf branch, lines 866-873; [mask] is the MaskArray stored in [desc],
    modified in place (each leaf is visited once, so [desc] is not re-read). *)
Definition leaf_branch (es : edges) (m : mask) : res mask :=
  d <- data m ;;
  srcs <- getkey (map fst es) (KMask d) ;;
  in_edge <- get srcs 0 ;;
  let initial := map (fun e => Z.eqb (snd e) in_edge) es in
  Ok (match m with
      | MArr d => MArr (if Nat.eqb (count_true initial) 1 then map2 orb d initial else d)
      | g => g        (* [mask.data] of a group is a fresh array *)
      end).

(** The recursion, with fuel; running out of it is Python's RecursionError. *)
Fixpoint make_nest (fuel : nat) (hard : list (string * list string)) (desc : list (string * mask)) (es : edges)
    (flat : list string) : res (list (string * mask)) :=
  foldM (fun branch parton =>
    match dget parton hard with
    | Some kids =>
        match fuel with
        | 0 => Err RecursionError
        | S f => sub <- make_nest f hard desc es kids ;;
                 m <- with_latent desc parton sub ;; Ok (dset parton m branch)
        end
    | None =>
        m <- match dget parton desc with Some m => Ok m | None => Err KeyError end ;;
        l <- leaf_branch es m ;; Ok (dset parton l branch)
    end) flat [].

(** The first level ([flat] is the dictionary itself), lines 857-862. *)
Definition make_tree (fuel : nat) (hard : list (string * list string)) (desc : list (string * mask)) (es : edges) : res mask :=
  let vals := concat (map snd hard) in
  let roots := filter (fun k => negb (existsb (String.eqb k) vals)) (dkeys hard) in
  branch <- foldM (fun branch item =>
      if existsb (String.eqb (fst item)) roots then
        sub <- make_nest fuel hard desc es (snd item) ;;
        m <- with_latent desc (fst item) sub ;; Ok (dset (fst item) m branch)
      else Ok branch) hard [] ;;
  Ok (MGrp "or" branch).

(** [desc[key].data[idx] = True], line 810: on a group [.data] is a fresh array. *)
Definition set_data_bit (kids : list (string * mask)) (key : string) (idx : nat) : res (list (string * mask)) :=
  match dget key kids with
  | None => Err KeyError
  | Some m => d <- data m ;;
      if idx <? length d then
        Ok (match m with MArr d => dset key (MArr (set_nth d idx true)) kids | _ => kids end)
      else Err IndexError
  end.

(** hierarchy, select.py 716-823.  [desc] is copied first, so the caller's
    group is not touched; the fuel is the recursion depth allowed. *)
Definition hierarchy (name : Z -> string) (fuel : nat) (ev : event) (desc : option mask) : res mask :=
  let hm := hard_noninc (e_status ev) in
  hd <- data hm ;;
  pdg <- getkey (e_pdg ev) (KMask hd) ;;
  let names := pdgs_to_keys (map name pdg) in
  dm <- match desc with None => hard_descendants name ev None false true | Some d => Ok d end ;;
  inter <- match hm with
           | MGrp _ kids => match dget "intermediate" kids with Some m => data m | None => Err KeyError end
           | MArr _ => Err TypeError end ;;
  if negb (any inter) then Ok dm
  else
    sliced <- slice (KMask hd) dm ;;
    hard_desc <- match sliced with MGrp agg kids => select_keys names agg kids | MArr _ => Err IndexError end ;;
    hard <- match hard_desc with MGrp _ kids => flat_hierarchy kids | MArr _ => Err TypeError end ;;
    kids <- match dm with MGrp _ kids => Ok kids | MArr _ => Err TypeError end ;;
    hard_final <- broadcast2 andb hd (e_final ev) ;;
    fsel <- getkey hard_final (KMask hd) ;;
    kids' <- (if any hard_final
              then foldM (fun g p => set_data_bit g (fst p) (snd p)) (combine (compress fsel names) (positions hard_final)) kids
              else Ok kids) ;;
    make_tree fuel hard kids' (e_edges ev).
