(** Vocabulary for the record-level properties (C120-C130). *)
From Verif Require Import Prelude Dict Keys MaskTypes SpecArray Arrays Composite SpecComposite Records.

(** Where Python's [start] / [stop] arguments point in a sequence of length [n]. *)
Definition start_at (n : nat) (start : Z) : Z :=
  if (start <? 0)%Z then Z.max (Z.of_nat n + start) 0 else start.
Definition before_stop (n : nat) (stop : option Z) (i : Z) : Prop :=
  match stop with None => True | Some s => (i < if s <? 0 then s + Z.of_nat n else s)%Z end.

(** What [index] should return: the first position in the range holding the value. *)
Definition first_at {A} (l : list A) (value : A) (start : Z) (stop : option Z) (i : Z) : Prop :=
  (start_at (length l) start <= i)%Z /\ before_stop (length l) stop i /\
  nth_error l (Z.to_nat i) = Some value /\
  forall j, (start_at (length l) start <= j < i)%Z -> nth_error l (Z.to_nat j) <> Some value.

(** The labelled cells record [i] of a particle set should show; [nm] is the
    name of each PDG code. *)
Definition show1 {A F} (header : string) (f : A -> cell F) (x : nd A) (i : nat) : list (string * cell F) :=
  match nth_error (rows x) i with Some [a] => [(header, f a)] | _ => [] end.
Definition show_row {F} (nm : Z -> string) (s : pset F) (i : nat) : list (string * cell F) :=
  show1 "name" (fun z => CName (nm z)) (p_pdg s) i ++
  match nth_error (rows (p_pmu s)) i with
  | Some [x; y; z; e] => [("px", CFloat x); ("py", CFloat y); ("pz", CFloat z); ("energy", CFloat e)]%string
  | _ => []
  end ++
  match nth_error (rows (p_color s)) i with
  | Some [a; b] => [("color", CInt a); ("anticolor", CInt b)]%string
  | _ => []
  end ++
  show1 "helicity" CInt (p_hel s) i ++ show1 "status" CInt (p_status s) i ++ show1 "final" CBool (p_final s) i.
Definition show_edge {F} (x : nd Z) (i : nat) : list (string * cell F) :=
  match nth_error (rows x) i with Some [a; b] => [("src", CInt a); ("dst", CInt b)]%string | _ => [] end.

(** Displayed row [k] of a table shows exactly the labelled cells [c]. *)
Definition displays {F} (t : table) (k : nat) (c : list (string * cell F)) : Prop :=
  exists r, nth_error (t_rows t) k = Some (map Some r) /\ length r = length (t_headers t) /\
            combine (t_headers t) r = c.

(** The table of [n] records whose record [i] is described by [row i]. *)
Definition tabulates {F} (t : table) (n : nat) (row : nat -> list (string * cell F)) : Prop :=
  t_particles t = n /\ t_attributes t = length (t_headers t) /\
  if Nat.leb n 60 then
    length (t_rows t) = n /\ forall i, i < n -> displays t i (row i)
  else
    length (t_rows t) = 11 /\ (forall i, i < 5 -> displays t i (row i)) /\
    nth_error (t_rows t) 5 = Some (repeat None (length (t_headers t))) /\
    (forall j, j < 5 -> displays t (6 + j) (row (n - 5 + j))).

(** Every code has the name [nm] in the PDG table. *)
Definition named (names : list (Z * string)) (nm : Z -> string) (x : nd Z) : Prop :=
  NoDup (map fst names) /\ forall z, In [z] (rows x) -> In (z, nm z) names.

(** [m] is the mask built from the nested dictionary [s]. *)
Inductive built : source -> mask -> Prop :=
| b_mask m : built (SMask m) m
| b_raw l : built (SRaw (Plain (Vec l))) (MArr l)
| b_dict kids ms : Forall2 (fun p q => fst p = fst q /\ built (snd p) (snd q)) kids ms ->
    built (SDict kids) (MGrp "and" ms).
(** Well-formed input: distinct names at each level, arrays one-dimensional, no
    iterators. *)
Inductive proper : source -> Prop :=
| p_mask m : proper (SMask m)
| p_raw l : proper (SRaw (Plain (Vec l)))
| p_dict kids : NoDup (map fst kids) -> Forall (fun p => proper (snd p)) kids -> proper (SDict kids).
