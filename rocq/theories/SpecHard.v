(** Vocabulary for the hard-process properties.  Imports no model file. *)
From Verif Require Import Prelude SpecArray SpecAdj.
From Coq Require Export DecimalString DecimalNat.

(** An event: one entry per particle in every list. *)
Record event := mkE { e_edges : edges; e_pdg : list Z; e_status : list Z; e_final : list bool }.
Definition event_ok (n : nat) (ev : event) : Prop :=
  length (e_edges ev) = n /\ length (e_pdg ev) = n /\ length (e_status ev) = n /\ length (e_final ev) = n /\
  Forall fits16 (e_status ev) /\ Forall fits32 (e_pdg ev).

(** Records of the intermediate and outgoing hard partons, in record order
    (Pythia status 22, 23, 24; 21 is incoming). *)
Definition hard_status (z : Z) : bool := ((22 <=? Z.abs z) && (Z.abs z <=? 24))%Z.
Definition hard_rows (ev : event) : list nat :=
  filter (fun i => hard_status (nth i (e_status ev) 0%Z)) (seq 0 (length (e_status ev))).

(** Particle i descends from particle p: it starts at a vertex reachable from
    the end of p (or, when nothing starts there, ends where p ends). *)
Definition descends (es : edges) (p i : nat) : Prop :=
  exists a b c d, nth_error es p = Some (a, b) /\ nth_error es i = Some (c, d) /\
    ((src_of es b /\ reach es b c) \/ (~ src_of es b /\ d = b)).

(** PDG code z is asked for. *)
Definition matches (target : list Z) (sign_sensitive : bool) (z : Z) : bool :=
  existsb (fun t => if sign_sensitive then Z.eqb t z else Z.eqb (Z.abs t) (Z.abs z)) target.
Definition selected_rows (ev : event) (target : list Z) (ss : bool) : list nat :=
  filter (fun i => matches target ss (nth i (e_pdg ev) 0%Z)) (hard_rows ev).

(** Decimal numeral. *)
Definition decimal (n : nat) : string := NilEmpty.string_of_uint (Nat.to_uint n).
Fixpoint has_colon (s : string) : bool :=
  match s with EmptyString => false | String c r => Ascii.eqb c ":" || has_colon r end.

(** The keys given to partons with these particle names. *)
Definition named (names keys : list string) : Prop :=
  length keys = length names /\ NoDup keys /\
  forall j nm, nth_error names j = Some nm ->
    nth_error keys j = Some
      (if Nat.eqb (count_occ string_dec names nm) 1 then nm
       else (nm ++ ":" ++ decimal (count_occ string_dec (firstn j names) nm))%string).

(** A PDG code that can be compared in int32, up to sign. *)
Definition target_ok (t : Z) : Prop := fits32 t /\ t <> (- 2 ^ 31)%Z.
