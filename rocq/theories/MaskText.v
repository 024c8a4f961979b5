(** Model of the text output of mask groups: MaskGroup.__rich__ (data.py 747-761),
    __str__ (763-767), __repr__ (743-745), to_dict (902-904).

    rich's [Tree]: a label (text, or another renderable, here a tree) and children.
    [Tree.add(x)] appends a child labelled [x] and returns that child.
    Simplifications: labels are plain text (no console markup or emoji codes) that
    fits in the console width, so a text label is one line; the four guides are
    symbols, their characters depend on the console's encoding. *)
From Verif Require Import Prelude Dict Keys MaskTypes Mask.

Inductive rtree := Node (label : rlabel) (children : list rtree)
with rlabel := Text (s : string) | Sub (t : rtree).

Inductive guide := SPACE | CONTINUE | FORK | END.
Notation line := (list guide * string)%type.

(** rich.tree.Tree.__rich_console__: the lines of the label, then the children; the first line of a child is
    preceded by FORK or (last child) END, its other lines by CONTINUE or SPACE. *)
Definition hang (last : bool) (ls : list line) : list line :=
  match ls with
  | [] => []
  | l :: r => ((if last then END else FORK) :: fst l, snd l) ::
              map (fun l => ((if last then SPACE else CONTINUE) :: fst l, snd l)) r
  end.
Fixpoint hang_all (blocks : list (list line)) : list line :=
  match blocks with
  | [] => []
  | [b] => hang true b
  | b :: r => hang false b ++ hang_all r
  end.
Fixpoint lines (t : rtree) : list line :=
  match t with
  | Node label children =>
      match label with Text s => [([], s)] | Sub t' => lines t' end ++ hang_all (map lines children)
  end.

(** [Tree.add]: the grown tree and the returned node. *)
Definition add (t : rtree) (l : rlabel) : rtree * rtree :=
  let node := Node l [] in match t with Node l0 ch => (Node l0 (ch ++ [node]), node) end.

(** data.py 752-759 make_tree: [branch] is always a node without children here (a fresh [Tree]); [deepcopy] of a value. *)
Fixpoint make_tree (branch : rtree) (m : mask) : rtree :=
  match m with
  | MArr _ => branch
  | MGrp _ kids =>
      fold_left (fun branch_copy p =>
        let sub_branch := Node (Text (fst p)) [] in
        let sub_branch := match snd p with
                          | MGrp _ _ => snd (add sub_branch (Sub (make_tree sub_branch (snd p))))
                          | MArr _ => sub_branch
                          end in
        fst (add branch_copy (Sub sub_branch))) kids branch
  end.

(** [agg_op.name]. *)
Definition agg_name (o : aggop) : string := match o with AND => "AND" | OR => "OR" | NONE => "NONE" end.

(** __str__: the lines printed for the group. *)
Definition group_lines (m : mask) : res (list line) :=
  match m with
  | MArr _ => Err AttributeError
  | MGrp agg _ => o <- agg_op agg ;; Ok (lines (make_tree (Node (Text ("MaskGroup(agg_op=" ++ agg_name o ++ ")")%string) []) m))
  end.

(** __repr__, data.py 743-745. *)
Definition quote (s : string) : string := (String (Ascii.ascii_of_nat 34) s ++ String (Ascii.ascii_of_nat 34) "")%string.
Definition group_repr (m : mask) : res string :=
  match m with
  | MArr _ => Err AttributeError
  | MGrp agg kids => o <- agg_op agg ;;
      Ok ("MaskGroup(masks=[" ++ String.concat ", " (map quote (dkeys kids)) ++ "], agg_op=" ++ agg_name o ++ ")")%string
  end.

(** to_dict, data.py 902-904: [{key: val.data ...}]. *)
Definition to_dict (m : mask) : res (list (string * list bool)) :=
  match m with
  | MArr _ => Err AttributeError
  | MGrp _ kids => mapM (fun p => d <- data (snd p) ;; Ok (fst p, d)) kids
  end.
