(** Model of MaskArray / MaskGroup operations (data.py 460-1026) and
    leaf_masks (select.py 877-919) on mask values. *)
From Verif Require Import Prelude Dict Keys MaskTypes SpecMask.

(** [str.lower] on ASCII letters. (Simplification: non-ASCII letters are left
    alone; none of them lower-cases into the letters of "and"/"or"/"none".) *)
Definition lower_ascii (c : ascii) : ascii :=
  let n := nat_of_ascii c in
  if (65 <=? n) && (n <=? 90) then ascii_of_nat (n + 32) else c.

Fixpoint lower (s : string) : string :=
  match s with EmptyString => EmptyString | String c r => String (lower_ascii c) (lower r) end.

(** MaskGroup.agg_op, data.py 724-729: [MaskAggOp(self._agg_op.lower())];
    an unknown string is ValueError from the Enum lookup. *)
Definition agg_op (agg : string) : res aggop :=
  let s := lower agg in
  if String.eqb s "and" then Ok AND
  else if String.eqb s "or" then Ok OR
  else if String.eqb s "none" then Ok NONE
  else Err ValueError.

(** [MaskAggOp.value], used by the [_agg_op] field converter, data.py 719-722. *)
Definition agg_value (o : aggop) : string :=
  match o with AND => "and" | OR => "or" | NONE => "none" end%string.

(** numpy: [ufunc.reduce([d1, ..., dk])] along axis 0 for a list of 1-d boolean
    vectors.  An empty list becomes a float array: TypeError.  Vectors of
    different lengths do not form an array: ValueError (numpy >= 1.24;
    older numpy builds an object array with a deprecation warning). *)
Definition np_reduce (f : bool -> bool -> bool) (ds : list (list bool)) : res (list bool) :=
  match ds with
  | [] => Err TypeError
  | d :: r =>
      if forallb (fun e => Nat.eqb (length e) (length d)) r
      then Ok (fold_left (map2 f) r d)
      else Err ValueError
  end.

(** MaskArray.data (data.py 573-576); MaskGroup.data with bitwise_and /
    bitwise_or, data.py 866-896. *)
Fixpoint data (m : mask) : res (list bool) :=
  match m with
  | MArr d => Ok d
  | MGrp agg kids =>
      o <- agg_op agg ;;
      match o with
      | AND => ds <- mapM (fun p => data (snd p)) kids ;; np_reduce andb ds
      | OR => ds <- mapM (fun p => data (snd p)) kids ;; np_reduce orb ds
      | NONE => Err ValueError
      end
  end.

(** numpy broadcasting of a binary ufunc over two vectors. *)
Definition broadcast2 (f : bool -> bool -> bool) (x y : list bool) : res (list bool) :=
  if Nat.eqb (length x) (length y) then Ok (map2 f x y)
  else match x, y with
       | [a], _ => Ok (map (f a) y)
       | _, [b] => Ok (map (fun a => f a b) x)
       | _, _ => Err ValueError
       end.

(** __and__ / __or__ of MaskArray (537-559) and MaskGroup (825-847); the other
    operand's data is read first. *)
Definition mask_and (m1 m2 : mask) : res mask :=
  y <- data m2 ;; x <- data m1 ;; r <- broadcast2 andb x y ;; Ok (MArr r).
Definition mask_or (m1 m2 : mask) : res mask :=
  y <- data m2 ;; x <- data m1 ;; r <- broadcast2 orb x y ;; Ok (MArr r).

(** __invert__, data.py 561-562 and 849-850. *)
Definition mask_invert (m : mask) : res mask := x <- data m ;; Ok (MArr (map negb x)).

(** numpy ufunc dispatch for [np.equal] / [np.not_equal] with the operands as
    the code passes them: [raw = true] is a plain ndarray, otherwise the mask
    object itself.  A MaskArray object brings its __array_ufunc__ (_array_ufunc,
    data.py 166-235), which accepts ndarrays, numbers, sequences and MaskArrays
    but answers NotImplemented for a MaskGroup (a Mapping): numpy then raises
    TypeError.  A MaskGroup has no __array_ufunc__ and is read through
    __array__ (822-823). *)
Definition ufunc_accepts (raw1 : bool) (m1 m2 : mask) : bool :=
  match m1, m2 with
  | MArr _, MGrp _ _ => raw1
  | MGrp _ _, MArr _ => false
  | _, _ => true
  end.

(** _mask_eq / _mask_neq, data.py 603-642: the shapes (np.shape reads the data
    of mask1, then of mask2) must be identical, then the ufunc is called. *)
Definition mask_cmp (f : bool -> bool -> bool) (raw1 : bool) (m1 m2 : mask) : res mask :=
  x <- data m1 ;; y <- data m2 ;;
  if Nat.eqb (length x) (length y)
  then if ufunc_accepts raw1 m1 m2 then Ok (MArr (map2 f x y)) else Err TypeError
  else Err ValueError.

(** __eq__ passes [self.data] for a MaskArray (564-565) and [self] for a
    MaskGroup (852-853); __ne__ passes [self] for both (567-568, 855-856). *)
Definition mask_eq (m1 m2 : mask) : res mask :=
  mask_cmp Bool.eqb (match m1 with MArr _ => true | MGrp _ _ => false end) m1 m2.
Definition mask_ne (m1 m2 : mask) : res mask := mask_cmp xorb false m1 m2.

(** __getitem__ with an array-like key: MaskArray 524-527; MaskGroup 772-798
    (the branch [not isinstance(key, str)]), which keeps keys and _agg_op. *)
Fixpoint slice (k : key) (m : mask) : res mask :=
  match m with
  | MArr d => r <- getkey d k ;; Ok (MArr r)
  | MGrp agg kids =>
      kids' <- mapM (fun p => v <- slice k (snd p) ;; Ok (fst p, v)) kids ;;
      Ok (MGrp agg kids')
  end.

(** MaskGroup.__getitem__ with a list of names, data.py 788-791. *)
Definition select_keys (ks : list string) (agg : string) (kids : list (string * mask)) : res mask :=
  l <- mapM (fun k => match dget k kids with Some v => Ok (k, v) | None => Err KeyError end) ks ;;
  Ok (MGrp agg (dict_of l)).

(** Mapping operations: __setitem__ 800-806 (mask already converted),
    __delitem__ 818-820, __getitem__ with a str 797-798, Mapping.__contains__,
    __len__ 815-816, __iter__ 769-770. *)
Definition model_step (kids : list (string * mask)) (o : dop) : list (string * mask) * dout :=
  match o with
  | DSet k m => (dset k m kids, RNone)
  | DDel k => match dget k kids with None => (kids, RKeyError) | Some _ => (ddel k kids, RNone) end
  | DGet k => (kids, match dget k kids with Some m => RMask m | None => RKeyError end)
  | DHas k => (kids, RBool (match dget k kids with Some _ => true | None => false end))
  | DLen => (kids, RNat (length kids))
  | DKeys => (kids, RKeys (map fst kids))
  end.

Fixpoint run_model (s : list (string * mask)) (ops : list dop) : list (string * mask) * list dout :=
  match ops with
  | [] => (s, [])
  | o :: r => let (s1, x) := model_step s o in let (s2, xs) := run_model s1 r in (s2, x :: xs)
  end.

(** MaskGroup.recursive_drop, data.py 906-936, on values.  (The code deletes
    [key] and then recurses into the remaining groups; on immutable values the
    order is irrelevant, and recursing first keeps the definition structural.
    The reference-level version, in source order, is MaskHeap.v.) *)
Fixpoint recursive_drop (key : string) (m : mask) : mask :=
  match m with
  | MArr d => MArr d
  | MGrp agg kids => MGrp agg (ddel key (map (fun p => (fst p, recursive_drop key (snd p))) kids))
  end.

(** flatten, inner generator visit, data.py 984-994. *)
Fixpoint visit (m : mask) : res (list (string * mask)) :=
  match m with
  | MArr _ => Ok []
  | MGrp _ kids =>
      ls <- mapM (fun p =>
              if String.eqb (fst p) "latent" then Ok []
              else match snd p with
                   | MArr d => Ok [(fst p, MArr d)]
                   | MGrp _ _ =>
                       d <- data (snd p) ;; sub <- visit (snd p) ;; Ok ((fst p, MArr d) :: sub)
                   end) kids ;;
      Ok (concat ls)
  end.

(** flatten('rise'), data.py 996: the new group's agg_op is the enum value. *)
Definition flatten_rise (m : mask) : res mask :=
  match m with
  | MArr _ => Err AttributeError          (* MaskArray has no flatten *)
  | MGrp agg _ => l <- visit m ;; o <- agg_op agg ;; Ok (MGrp (agg_value o) (dict_of l))
  end.

(** flatten('agg'), data.py 976-982. *)
Definition flatten_agg (m : mask) : res mask :=
  match m with
  | MArr _ => Err AttributeError
  | MGrp _ kids =>
      l <- mapM (fun p => d <- data (snd p) ;; Ok (fst p, MArr d)) kids ;;
      Ok (MGrp "or" l)
  end.

(** select._leaf_mask_iter with exclude_latent=True, select.py 877-891. *)
Fixpoint leaf_mask_iter (name : string) (m : mask) : list (string * mask) :=
  match m with
  | MArr d => [(name, MArr d)]
  | MGrp _ kids =>
      flat_map (fun p => if String.eqb (fst p) "latent" then [] else leaf_mask_iter (fst p) (snd p)) kids
  end.

(** select.leaf_masks, select.py 894-919, also flatten('leaves') (data.py
    972-975).  Each branch is first collected in a dict, then merged. *)
Definition leaf_masks (m : mask) : res mask :=
  match m with
  | MArr _ => Err AttributeError
  | MGrp agg kids =>
      o <- agg_op agg ;;
      Ok (MGrp (agg_value o)
            (fold_left (fun acc p =>
                          fold_left (fun d q => dset (fst q) (snd q) d)
                                    (dict_of (leaf_mask_iter (fst p) (snd p))) acc)
                       kids []))
  end.

(** serialize, data.py 584-589 and 998-1003. *)
Fixpoint serialize (m : mask) : ser :=
  match m with
  | MArr d => SArr d
  | MGrp _ kids => SGrp (map (fun p => (fst p, serialize (snd p))) kids)
  end.

(** MaskGroup(dict) on serialised data: _mask_dict_convert, data.py 651-661;
    _agg_op takes its default 'and' (720). *)
Fixpoint of_ser (s : ser) : mask :=
  match s with
  | SArr d => MArr d
  | SGrp kids => MGrp "and" (dict_of (map (fun p => (fst p, of_ser (snd p))) kids))
  end.

Fixpoint list_bool_eqb (x y : list bool) : bool :=   (* np.array_equal *)
  match x, y with
  | [], [] => true
  | a :: x', b :: y' => Bool.eqb a b && list_bool_eqb x' y'
  | _, _ => false
  end.

Fixpoint keys_eqb (x y : list string) : bool :=      (* tuple comparison *)
  match x, y with
  | [], [] => true
  | a :: x', b :: y' => String.eqb a b && keys_eqb x' y'
  | _, _ => false
  end.

Definition keys_seteqb (x y : list string) : bool := (* set comparison *)
  forallb (fun a => existsb (String.eqb a) y) x && forallb (fun a => existsb (String.eqb a) x) y.

(** _maskgroup_equal, data.py 664-679 (equal_to, 1005-1026).  The two arguments
    of the real function are groups; the array / array case is its inner
    np.array_equal and the mixed case its type comparison. *)
Fixpoint maskgroup_equal (ord : bool) (m1 m2 : mask) {struct m1} : res bool :=
  match m1, m2 with
  | MArr d1, MArr d2 => Ok (list_bool_eqb d1 d2)
  | MGrp _ k1, MGrp _ k2 =>
      if negb ((if ord then keys_eqb else keys_seteqb) (dkeys k1) (dkeys k2)) then Ok false
      else
        (fix loop (l : list (string * mask)) : res bool :=
           match l with
           | [] => Ok true
           | p :: r =>
               match dget (fst p) k2 with
               | None => Err KeyError
               | Some v2 =>
                   b <- maskgroup_equal ord (snd p) v2 ;;
                   if b then loop r else Ok false
               end
           end) k1
  | _, _ => Ok false
  end.

(** MaskGroup.__bool__, data.py 808-813; MaskArray.__bool__, 570-571. *)
Definition mask_bool (m : mask) : res bool :=
  match m with
  | MArr d => Ok (negb (Nat.eqb (length d) 0))
  | MGrp _ [] => Ok false
  | MGrp _ _ => d <- data m ;; Ok (negb (Nat.eqb (length d) 0))
  end.
