(** Reference-level model of masks: Python objects in a heap, so that aliasing
    and in-place mutation can be observed.  data.py 460-1026. *)
From Verif Require Import Prelude Dict Keys MaskTypes.

(** Heap objects: a numpy buffer, a MaskArray (reference to its buffer
    [_data]), a MaskGroup (its [_agg_op] and the references in [_mask_arrays];
    the dictionary itself is owned by the group, because the constructor's
    converter _mask_dict_convert, data.py 651-661, always builds a new one). *)
Inductive obj :=
| OBuf (d : list bool)
| OArr (buf : nat)
| OGrp (agg : string) (kids : list (string * nat)).

Definition heap := list obj.        (* a reference is a position in the heap *)
Definition alloc (h : heap) (o : obj) : heap * nat := (h ++ [o], length h).

(** A computation that may raise still leaves its earlier writes in the heap. *)
Definition hres (A : Type) := (heap * res A)%type.
Definition hbind {A B} (x : hres A) (f : heap -> A -> hres B) : hres B :=
  match x with (h, Ok a) => f h a | (h, Err e) => (h, Err e) end.

(** MaskArray.copy, data.py 517-519: a new buffer and a new array object.
    MaskGroup.copy, data.py 858-864: children copied in order, then a new
    group.  Python's recursion limit appears as fuel: RecursionError. *)
Fixpoint copy (fuel : nat) (h : heap) (l : nat) : hres nat :=
  match fuel with
  | 0 => (h, Err RecursionError)
  | S fuel' =>
      match nth_error h l with
      | Some (OArr b) =>
          match nth_error h b with
          | Some (OBuf d) =>
              let (h1, b') := alloc h (OBuf d) in
              let (h2, l') := alloc h1 (OArr b') in (h2, Ok l')
          | _ => (h, Err TypeError)
          end
      | Some (OGrp agg kids) =>
          hbind ((fix go (ks : list (string * nat)) (h : heap) : hres (list (string * nat)) :=
                    match ks with
                    | [] => (h, Ok [])
                    | p :: r =>
                        hbind (copy fuel' h (snd p)) (fun h1 c =>
                        hbind (go r h1) (fun h2 cs => (h2, Ok ((fst p, c) :: cs))))
                    end) kids h)
                (fun h1 kids' => let (h2, l') := alloc h1 (OGrp agg kids') in (h2, Ok l'))
      | _ => (h, Err TypeError)
      end
  end.

(** recursive_drop(key, inplace=True), data.py 926-936: delete [key] if
    present, then recurse into the values that are groups, in order. *)
Fixpoint drop_inplace (fuel : nat) (key : string) (h : heap) (l : nat) : hres unit :=
  match fuel with
  | 0 => (h, Err RecursionError)
  | S fuel' =>
      match nth_error h l with
      | Some (OGrp agg kids) =>
          let kids' := match dget key kids with Some _ => ddel key kids | None => kids end in
          (fix go (ks : list (string * nat)) (h : heap) : hres unit :=
             match ks with
             | [] => (h, Ok tt)
             | p :: r =>
                 match nth_error h (snd p) with
                 | Some (OGrp _ _) => hbind (drop_inplace fuel' key h (snd p)) (fun h1 _ => go r h1)
                 | _ => go r h
                 end
             end) kids' (set_nth h l (OGrp agg kids'))
      | _ => (h, Err AttributeError)
      end
  end.

(** recursive_drop(key) with the default inplace=False: copy, then drop. *)
Definition recursive_drop_copy (fuel : nat) (key : string) (h : heap) (l : nat) : hres nat :=
  hbind (copy fuel h l) (fun h1 c => hbind (drop_inplace fuel key h1 c) (fun h2 _ => (h2, Ok c))).

(** Allocate a mask value given by the caller (a newly constructed mask). *)
Fixpoint build (m : mask) (h : heap) : heap * nat :=
  match m with
  | MArr d => let (h1, b) := alloc h (OBuf d) in alloc h1 (OArr b)
  | MGrp agg kids =>
      let (h1, ks) :=
        (fix go (l : list (string * mask)) (h : heap) : heap * list (string * nat) :=
           match l with
           | [] => (h, [])
           | p :: r => let (h1, c) := build (snd p) h in
                       let (h2, cs) := go r h1 in (h2, (fst p, c) :: cs)
           end) kids h in
      alloc h1 (OGrp agg ks)
  end.

(** [g[k1][k2]...]: __getitem__ with str keys, data.py 797-798; a str key on a
    MaskArray is a numpy IndexError. *)
Fixpoint walk (h : heap) (l : nat) (p : list string) : res nat :=
  match p with
  | [] => Ok l
  | k :: r =>
      match nth_error h l with
      | Some (OGrp _ kids) => match dget k kids with Some c => walk h c r | None => Err KeyError end
      | _ => Err IndexError
      end
  end.

(** The mutations available to a user holding a reference. *)
Inductive hop :=
| HElem (p : list string) (k : key) (v : bool)  (* m[k] = v on the MaskArray at path p (529-532) *)
| HData (p : list string) (d : list bool)       (* m.data = d (578-582): rebinds to a new buffer *)
| HPut (p : list string) (k : string) (m : mask)(* g[k] = m, m newly built (800-806) *)
| HDel (p : list string) (k : string)           (* del g[k] (818-820) *)
| HAgg (p : list string) (s : string)           (* g.agg_op = s (731-733) *)
| HDrop (p : list string) (k : string).         (* g.recursive_drop(k, inplace=True) *)

Definition write_all (d : list bool) (ps : list nat) (v : bool) : list bool :=
  fold_left (fun d p => set_nth d p v) ps d.

Definition apply (fuel : nat) (root : nat) (h : heap) (o : hop) : hres unit :=
  match o with
  | HElem p k v =>
      match walk h root p with
      | Err e => (h, Err e)
      | Ok l => match nth_error h l with
                | Some (OArr b) =>
                    match nth_error h b with
                    | Some (OBuf d) =>
                        match resolve (length d) k with
                        | Ok ps => (set_nth h b (OBuf (write_all d ps v)), Ok tt)
                        | Err e => (h, Err e)
                        end
                    | _ => (h, Err TypeError)
                    end
                | _ => (h, Err KeyError)             (* "Key must be string." *)
                end
      end
  | HData p d =>
      match walk h root p with
      | Err e => (h, Err e)
      | Ok l => match nth_error h l with
                | Some (OArr _) => let (h1, b) := alloc h (OBuf d) in (set_nth h1 l (OArr b), Ok tt)
                | _ => (h, Err AttributeError)       (* MaskGroup.data has no setter *)
                end
      end
  | HPut p k m =>
      match walk h root p with
      | Err e => (h, Err e)
      | Ok l => match nth_error h l with
                | Some (OGrp agg kids) =>
                    let (h1, c) := build m h in (set_nth h1 l (OGrp agg (dset k c kids)), Ok tt)
                | _ => (h, Err IndexError)
                end
      end
  | HDel p k =>
      match walk h root p with
      | Err e => (h, Err e)
      | Ok l => match nth_error h l with
                | Some (OGrp agg kids) =>
                    match dget k kids with
                    | Some _ => (set_nth h l (OGrp agg (ddel k kids)), Ok tt)
                    | None => (h, Err KeyError)
                    end
                | _ => (h, Err AttributeError)       (* MaskArray has __setitem__ but no __delitem__ *)
                end
      end
  | HAgg p s =>
      match walk h root p with
      | Err e => (h, Err e)
      | Ok l => match nth_error h l with
                | Some (OGrp _ kids) => (set_nth h l (OGrp s kids), Ok tt)
                | _ => (h, Ok tt)                    (* an unrelated attribute of the MaskArray *)
                end
      end
  | HDrop p k =>
      match walk h root p with Err e => (h, Err e) | Ok l => drop_inplace fuel k h l end
  end.

(** A history of mutations through one reference; exceptions are caught by the
    caller and the history goes on. *)
Fixpoint history (fuel : nat) (root : nat) (h : heap) (ops : list hop) : heap :=
  match ops with [] => h | o :: r => history fuel root (fst (apply fuel root h o)) r end.

(** Interleaved history through two references: [true] = through [a], [false] = through [b]. *)
Fixpoint interleave (fuel : nat) (a b : nat) (h : heap) (ops : list (bool * hop)) : heap :=
  match ops with
  | [] => h
  | (s, o) :: r => interleave fuel a b (fst (apply fuel (if s : bool then a else b) h o)) r
  end.
