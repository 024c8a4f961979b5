(** Vocabulary for the composite properties: rows, alignment, selection. *)
From Verif Require Import Prelude Keys SpecArray Arrays Composite.

(** The records a component shows: one row per particle. *)
Definition rows {A} (x : nd A) : list (list A) :=
  match x with Sc a => [[a]] | Vec l => map (fun a => [a]) l | Mat _ r => r end.

(** What the constructors of each class store. *)
Definition codes (fits : Z -> Prop) (x : nd Z) : Prop := exists l, x = Vec l /\ Forall fits l.
Definition bools (x : nd bool) : Prop := exists l, x = Vec l.
Definition momenta {F} (x : nd F) : Prop := exists r, x = Mat 4 r /\ Forall (fun p => length p = 4) r.
Definition pairs (x : nd Z) : Prop :=
  x = Vec [] \/ exists r, x = Mat 2 r /\ Forall (fun p => length p = 2) r /\ Forall (Forall fits32) r.

(** Component present with [n] records, or absent. *)
Definition sized {A} (n : nat) (x : nd A) : Prop := nd_len x = 0 \/ nd_len x = n.

(** All non-empty components have length [n]. *)
Definition aligned {F} (n : nat) (s : pset F) : Prop :=
  (codes fits32 (p_pdg s) /\ sized n (p_pdg s)) /\ (momenta (p_pmu s) /\ sized n (p_pmu s)) /\
  (pairs (p_color s) /\ sized n (p_color s)) /\ (codes fits16 (p_hel s) /\ sized n (p_hel s)) /\
  (codes fits16 (p_status s) /\ sized n (p_status s)) /\ (bools (p_final s) /\ sized n (p_final s)).

Definition aligned_g {F} (n : nat) (g : graph F) : Prop :=
  aligned n (g_part g) /\ pairs (a_data (g_adj g)) /\ sized n (a_data (g_adj g)).

(** [y] consists of the records of [x] at positions [ps], in that order
    (an empty component stays empty). *)
Definition picked {A} (ps : list nat) (x y : nd A) : Prop :=
  if Nat.eqb (nd_len x) 0 then rows y = []
  else length (rows y) = length ps /\
       forall j p, nth_error ps j = Some p -> nth_error (rows y) j = nth_error (rows x) p.

Definition picked_p {F} (ps : list nat) (s t : pset F) : Prop :=
  picked ps (p_pdg s) (p_pdg t) /\ picked ps (p_pmu s) (p_pmu t) /\ picked ps (p_color s) (p_color t) /\
  picked ps (p_hel s) (p_hel t) /\ picked ps (p_status s) (p_status t) /\ picked ps (p_final s) (p_final t).

Definition picked_g {F} (ps : list nat) (g h : graph F) : Prop :=
  picked_p ps (g_part g) (g_part h) /\ picked ps (a_data (g_adj g)) (a_data (g_adj h)).

(** Same records in every component. *)
Definition same_p {F} (s t : pset F) : Prop :=
  rows (p_pdg s) = rows (p_pdg t) /\ rows (p_pmu s) = rows (p_pmu t) /\ rows (p_color s) = rows (p_color t) /\
  rows (p_hel s) = rows (p_hel t) /\ rows (p_status s) = rows (p_status t) /\ rows (p_final s) = rows (p_final t).
Definition same_g {F} (g h : graph F) : Prop :=
  same_p (g_part g) (g_part h) /\ rows (a_data (g_adj g)) = rows (a_data (g_adj h)).

(** A key that selects a sub-array (not one integer). *)
Definition sub_key (k : key) : Prop := match k with KInt _ => False | _ => True end.

(** The mask of the positions kept by [m1] and then by [m2] (over the kept ones). *)
Fixpoint both (m1 m2 : list bool) : list bool :=
  match m1, m2 with
  | [], _ => []
  | true :: r, b :: s => b :: both r s
  | true :: r, [] => false :: both r []
  | false :: r, s => false :: both r s
  end.

(** The LHE recoding table as one simultaneous substitution. *)
Definition recode (z : Z) : Z :=
  (if z =? -1 then -21 else if z =? 1 then -23 else if z =? -2 then -22
   else if z =? 2 then -22 else if z =? 3 then -22 else if z =? -9 then -12 else z)%Z.
