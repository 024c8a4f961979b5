(** What a subscript key selects, in Python's terms, independently of how the
    positions are computed.  Only the type of keys is imported. *)
From Verif Require Import Prelude Keys.
From Coq Require Import Sorted.

(** Index [b] of an axis of length [n]: a negative index counts from the end. *)
Definition from_end (n : nat) (b : Z) : Z := if (b <? 0)%Z then (Z.of_nat n + b)%Z else b.

(** Position [i] belongs to the slice [lo:hi:step] of an axis of length [n].
    Forward: from [lo] (0 when absent or before the axis) up to but excluding
    [hi], every [step]-th.  Backward: from [lo] (the last element when absent or
    past the axis) down to but excluding [hi]. *)
Definition in_slice (n : nat) (lo hi : option Z) (step : Z) (i : Z) : Prop :=
  (0 <= i < Z.of_nat n)%Z /\
  if (0 <? step)%Z then
    let first := match lo with None => 0%Z | Some b => Z.max 0 (from_end n b) end in
    (first <= i)%Z /\ (match hi with None => True | Some b => (i < from_end n b)%Z end) /\
    (step | i - first)%Z
  else
    let first := match lo with None => (Z.of_nat n - 1)%Z
                             | Some b => Z.min (Z.of_nat n - 1) (from_end n b) end in
    (i <= first)%Z /\ (match hi with None => True | Some b => (from_end n b < i)%Z end) /\
    (step | first - i)%Z.

(** The positions a key selects from an axis of length [n], in output order. *)
Definition selects (n : nat) (k : key) (ps : list nat) : Prop :=
  match k with
  | KMask m => length m = n /\ StronglySorted lt ps /\ forall i, In i ps <-> nth_error m i = Some true
  | KInt b => exists p, ps = [p] /\ p < n /\ Z.of_nat p = from_end n b
  | KList l => Forall2 (fun b p => p < n /\ Z.of_nat p = from_end n b) l ps
  | KSlice lo hi st =>
      let step := match st with Some s => s | None => 1%Z end in
      step <> 0%Z /\
      (if (0 <? step)%Z then StronglySorted lt ps else StronglySorted gt ps) /\
      forall i, In i ps <-> in_slice n lo hi step (Z.of_nat i)
  end.

(** The exception raised for a key that selects nothing meaningful. *)
Definition rejects (n : nat) (k : key) (e : exn) : Prop :=
  match k with
  | KMask m => length m <> n /\ e = IndexError
  | KInt b => ~ (- Z.of_nat n <= b < Z.of_nat n)%Z /\ e = IndexError
  | KList l => (exists b, In b l /\ ~ (- Z.of_nat n <= b < Z.of_nat n)%Z) /\ e = IndexError
  | KSlice _ _ st => st = Some 0%Z /\ e = ValueError
  end.
