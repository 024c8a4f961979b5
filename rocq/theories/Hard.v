(** Model of the hard-process functions of select.py: _pdgs_to_keys (612-632)
    and hard_descendants (635-713).

    Simplification: the event is given by its edge, pdg, status and final
    vectors (SpecHard.event) instead of a Graphicle with further components;
    subscripting a Graphicle selects the same rows of each (C23). *)
From Verif Require Import Prelude Dict Keys MaskTypes SpecMask Mask SpecArray SpecAdj Arrays Composite Adjacency Descend SpecHard.

(** ** _pdgs_to_keys, select.py 612-632, after [names = tuple(map(str, pdg.name))]. *)

(** [counters = defaultdict(it.count); nums = map(next, map(counters.__getitem__, names))]. *)
Fixpoint count_up (counters : list (string * nat)) (names : list string) : list nat :=
  match names with
  | [] => []
  | n :: r => let c := match dget n counters with Some c => c | None => 0 end in
              c :: count_up (dset n (S c) counters) r
  end.

Fixpoint zip3 {A B C D} (f : A -> B -> C -> D) (x : list A) (y : list B) (z : list C) : list D :=
  match x, y, z with a :: x', b :: y', c :: z' => f a b c :: zip3 f x' y' z' | _, _, _ => [] end.

Definition pdgs_to_keys (names : list string) : list string :=
  let has_dup := map (fun n => 1 <? count_occ string_dec names n) names in
  if negb (existsb (fun b => b) has_dup) then names
  else
    let renames := map2 (fun n k => n ++ ":" ++ decimal k)%string names (count_up [] names) in
    zip3 (fun n rn (dup : bool) => if dup then rn else n) names renames has_dup.

(** ** hard_descendants, select.py 635-713 *)

(** [hard_mask = graph.hard_mask; del hard_mask["incoming"]] (686-687, 788-789). *)
Definition hard_noninc (status : list Z) : mask :=
  match hard_mask status with MGrp agg kids => MGrp agg (ddel "incoming" kids) | m => m end.

(** [group[key][idx] = True] for a str key (MaskGroup.__getitem__ 797-798,
    MaskArray.__setitem__ 529-532). *)
Definition set_bit (kids : list (string * mask)) (key : string) (idx : nat) : res (list (string * mask)) :=
  match dget key kids with
  | None => Err KeyError
  | Some (MGrp _ _) => Err TypeError          (* not reached: every value is a MaskArray *)
  | Some (MArr d) => if idx <? length d then Ok (dset key (MArr (set_nth d idx true)) kids) else Err IndexError
  end.

Section Names.
  (** The name column of the mcpid table. *)
  Context (name : Z -> string).

  Definition hard_descendants (ev : event) (target : option (list Z)) (sign_sensitive strict : bool) : res mask :=
    let hm := hard_noninc (e_status ev) in
    hd <- data hm ;;
    (* hard_graph = graph[hard_mask] *)
    pdg <- getkey (e_pdg ev) (KMask hd) ;;
    es <- getkey (e_edges ev) (KMask hd) ;;
    sel <- match target with
           | None => Ok (pdg, es)
           | Some t =>
               let target_pdgs := if sign_sensitive then t else map Z.abs t in
               let target_mask := pdg_mask pdg target_pdgs false sign_sensitive in
               if negb (existsb (fun b => b) target_mask) then Err ValueError
               else
                 found <- getkey pdg (KMask target_mask) ;;
                 let found := if sign_sensitive then found else map (fun z => wrap32 (Z.abs z)) found in
                 let missing := filter (fun z => negb (existsb (Z.eqb z) found)) target_pdgs in
                 if strict && negb (Nat.eqb (length missing) 0) then Err ValueError
                 else es' <- getkey es (KMask target_mask) ;;
                      pdg' <- getkey pdg (KMask target_mask) ;; Ok (pdg', es')
           end ;;
    let keys := pdgs_to_keys (map name (fst sel)) in
    descs <- mapM (fun e => vertex_descendants (e_edges ev) (snd e)) (snd sel) ;;
    let group := dict_of (combine keys (map MArr descs)) in
    kids <- foldM (fun g p => set_bit g (fst p) (snd p)) (combine keys (positions hd)) group ;;
    Ok (MGrp "or" kids).
End Names.
