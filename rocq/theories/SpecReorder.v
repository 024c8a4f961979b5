(** Vocabulary for C208-C210: an event with its particle records in another order.  [reorders] (from P_Equiv) relates two lists: the j-th entry of the second is the ps(j)-th of the first. *)
From Coq Require Import Permutation.
From Verif Require Import Prelude Dict MaskTypes SpecMask SpecAdj SpecArray SpecPart SpecHard SpecHier P_Equiv.

(** The same nested mask over reordered records. *)
Inductive reordered (ps : list nat) : mask -> mask -> Prop :=
| RO_arr d d' : reorders ps d d' -> reordered ps (MArr d) (MArr d')
| RO_grp a kids kids' : Forall2 (fun p q => fst p = fst q /\ reordered ps (snd p) (snd q)) kids kids' -> reordered ps (MGrp a kids) (MGrp a kids').

(** No two particles ending at [v] are equally far from particle [i]. *)
Definition no_ties {P D} (dist : P -> P -> D) (lt : D -> D -> bool) (es : edges) (final : list bool) (pmu : list P) (v : Z) : Prop :=
  forall i k k' p p' h, SpecPart.final_desc es final v i -> incident es v k -> incident es v k' -> k <> k' ->
    nth_error pmu k = Some p -> nth_error pmu k' = Some p' -> nth_error pmu i = Some h -> lt (dist p h) (dist p' h) = true \/ lt (dist p' h) (dist p h) = true.

(** The event with its records in another order. *)
Definition reordered_event (ps : list nat) (ev ev' : event) : Prop :=
  reorders ps (e_edges ev) (e_edges ev') /\ reorders ps (e_pdg ev) (e_pdg ev') /\ reorders ps (e_status ev) (e_status ev') /\ reorders ps (e_final ev) (e_final ev').
(** The hard partons have different names. *)
Definition row_names (name : Z -> string) (ev : event) : list string := map (fun i => name (nth i (e_pdg ev) 0%Z)) (hard_rows ev).
Definition distinct_names (name : Z -> string) (ev : event) : Prop := NoDup (row_names name ev).

(** No two different ancestors of one parton have equally many descendants. *)
Definition unequal (A : nat -> nat -> Prop) : Prop := forall a b j k k', A a j -> A b j -> a <> b -> card (A a) k -> card (A b) k' -> k <> k'.

